(** Whole programs on an executor, for SignalVecs: any number of MutableVecs and tasks, where each
    task is a for_each over a pipeline of map, filter, filter_map, sort_by_cloned, enumerate, debug
    and chain built on MutableVecs. Everything can be made, changed and dropped at any time between
    two polls of a pipeline, in particular by the closure of a for_each. Each poll of a pipeline and
    each call of push, remove, ... is one step (one thread). Values are of one type [V] (the disjoint
    union of the types of the program); closures are functions; [usize] is unbounded.

    The combinators are those of VecSimple.v, Sort.v and Chain.v, which answer a poll from a script of
    the answers of their inputs. Here the inputs are other combinators and MutableVecs: the script
    starts empty, and each time the combinator asks for an answer that is not there, its input is
    polled for it. *)
From Verif Require Import Base Conc Spec VecDiff VecSpec VecSimple Sort Chain Slot MutVec SortSpec.

Section Pipes.
Context {V : Type}.
Notation diff := (vecdiff V).
Notation ans := (poll (option (vecdiff V))).

(** ** Combinators with one input *)

(** [CEnumerate mk]: enumerate; [mk] is the embedding of the pairs of an index handle and a value. *)
Inductive comb :=
| CMap (f : V -> V) | CFilter (p : V -> bool) | CFilterMap (f : V -> option V)
| CSort (compare : V -> V -> comparison) | CEnumerate (mk : nat -> V -> V) | CDebug.

Definition cstate (c : comb) : Type :=
  match c with
  | CMap _ => list V
  | CFilter _ | CFilterMap _ => fm_state V
  | CSort _ => sort_state (A := V)
  | CEnumerate _ => en_state
  | CDebug => unit
  end.

(** signal_vec.rs 200-208 (map), 322-331 (filter), 346-355 (filter_map), 484-494 (sort_by_cloned), 536-543
    (enumerate), 383-388 (debug). *)
Definition cinit (c : comb) : cstate c :=
  match c with
  | CMap _ => []
  | CFilter _ => fm_init
  | CFilterMap _ => fm_init
  | CSort _ => sort_init
  | CEnumerate _ => en_init
  | CDebug => tt
  end.

Definition with_pair (mk : nat -> V -> V) (r : poll (option (vecdiff (nat * V)))) : ans :=
  match r with
  | Pending => Pending
  | Ready o => Ready (option_map (fun d => fst (vd_map (fun cv => mk (fst cv) (snd cv)) d)) o)
  end.

(** poll_vec_change *)
Definition cpoll (c : comb) : cstate c * src (option diff) -> option ((cstate c * src (option diff)) * ans) :=
  match c return cstate c * src (option diff) -> option ((cstate c * src (option diff)) * ans) with
  | CMap f => vmap_poll f
  | CFilter p => filter_poll p
  | CFilterMap f => filter_map_poll f
  | CSort compare => sort_poll compare
  | CEnumerate mk => fun st => let? (st', r) := enumerate_poll st in Some (st', with_pair mk r)
  | CDebug => vdebug_poll
  end.

(** ** Pipelines *)

Inductive pipe := PMut (m : nat) | POne (c : comb) (p : pipe) | PChain (p q : pipe).

(** A pipeline in use. [GMut m id]: the subscriber number [id] of MutableVec [m]; [GOne]: [log] are the
    answers its input gave so far (ghost); [GChain]: likewise, the answers are in the two slots. *)
Inductive sig :=
| GMut (m id : nat)
| GOne (c : comb) (st : cstate c) (log : list ans) (s : sig)
| GChain (st : chain_state V) (s1 s2 : sig).

(** The MutableVecs of the program. *)
Definition vecs := nat -> mvec V.

(** What polling gives: out of fuel; a panic (with the answers up to it); an answer. *)
Inductive pres := POut | PPanic (s : sig) (v : vecs) | POk (s : sig) (v : vecs) (r : ans).

(** The script was too short: the source was polled more often than there were answers. *)
Definition starved (log known : list ans) (after : src (option diff)) : bool :=
  length log + length known <? length (past after).

(** One poll of a combinator with one input; [known]: the answers that the input gave during this
    poll. *)
Fixpoint drive (pollin : sig -> vecs -> pres) (k : nat) (c : comb) (st : cstate c) (log known : list ans)
  (s : sig) (v : vecs) : pres :=
  match cpoll c (st, mkSrc log known) with
  | None => PPanic (GOne c st (log ++ known) s) v
  | Some ((st', after), r) =>
      if starved log known after then
        match k with
        | 0 => POut
        | S k' =>
            match pollin s v with
            | POut => POut
            | PPanic s' v' => PPanic (GOne c st (log ++ known) s') v'
            | POk s' v' a => drive pollin k' c st log (known ++ [a]) s' v'
            end
        end
      else POk (GOne c st' (past after) s) v r
  end.

(** The state of a Chain, with the given answers to come. *)
Definition feed (l r : list ans) (st : chain_state V) : chain_state V :=
  mkChain (fst (ch_left st), mkSrc (past (snd (ch_left st))) l)
          (fst (ch_right st), mkSrc (past (snd (ch_right st))) r)
          (ch_left_len st) (ch_right_len st) (ch_pending st).

(** The same, with the given answers received (for a panic). *)
Definition log_of (sl : slot (option diff)) : list ans := past (snd sl).
Definition noted (l r : list ans) (st : chain_state V) : chain_state V :=
  mkChain (fst (ch_left st), mkSrc (log_of (ch_left st) ++ l) [])
          (fst (ch_right st), mkSrc (log_of (ch_right st) ++ r) [])
          (ch_left_len st) (ch_right_len st) (ch_pending st).

(** One poll of a Chain. When [left] or [right] is set to None, the input is dropped; that has no further
    effect, since all the MutableVecs it reads are gone by then. *)
Fixpoint drive2 (pollin : sig -> vecs -> pres) (k : nat) (st : chain_state V) (kl kr : list ans)
  (s1 s2 : sig) (v : vecs) : pres :=
  match chain_poll (feed kl kr st) with
  | None => PPanic (GChain (noted kl kr st) s1 s2) v
  | Some (st', r) =>
      if starved (log_of (ch_left st)) kl (snd (ch_left st')) then
        match k with
        | 0 => POut
        | S k' =>
            match pollin s1 v with
            | POut => POut
            | PPanic s1' v' => PPanic (GChain (noted kl kr st) s1' s2) v'
            | POk s1' v' a => drive2 pollin k' st (kl ++ [a]) kr s1' s2 v'
            end
        end
      else if starved (log_of (ch_right st)) kr (snd (ch_right st')) then
        match k with
        | 0 => POut
        | S k' =>
            match pollin s2 v with
            | POut => POut
            | PPanic s2' v' => PPanic (GChain (noted kl kr st) s1 s2') v'
            | POk s2' v' a => drive2 pollin k' st kl (kr ++ [a]) s1 s2' v'
            end
        end
      else POk (GChain st' s1 s2) v r
  end.

(** One poll of a pipeline. signal_vec.rs 3468-3481: MutableSignalVec::poll_vec_change. *)
Fixpoint poll_sig (n : nat) (s : sig) (v : vecs) : pres :=
  match n with
  | 0 => POut
  | S n' =>
      match s with
      | GMut m id =>
          match nth_error (subs (v m)) id with
          | Some x => POk (GMut m id) (fupd m (mv_event (EPoll id) (v m)) v) (snd (poll_sub (owners (v m) =? 0) x))
          | None => POut
          end
      | GOne c st log s => drive (poll_sig n') n' c st log [] s v
      | GChain st s1 s2 => drive2 (poll_sig n') n' st [] [] s1 s2 v
      end
  end.

(** ** Making and dropping *)

(** signal_vec / signal_vec_cloned (signal_vec.rs 3413-3424), and the methods that make the combinators. *)
Fixpoint build (p : pipe) (v : vecs) : sig * vecs :=
  match p with
  | PMut m => (GMut m (length (subs (v m))), fupd m (mv_event ESubscribe (v m)) v)
  | POne c p => let '(s, v) := build p v in (GOne c (cinit c) [] s, v)
  | PChain p q => let '(s1, v) := build p v in
                  let '(s2, v) := build q v in
                  (GChain (chain_init [] []) s1 s2, v)
  end.

(** The MutableVecs in [p] exist, have a handle and are not poisoned. *)
Fixpoint closed (n : nat) (v : vecs) (p : pipe) : bool :=
  match p with
  | PMut m => (m <? n) && (0 <? owners (v m)) && negb (poisoned (v m))
  | POne _ p => closed n v p
  | PChain p q => closed n v p && closed n v q
  end.

Fixpoint leaves (s : sig) : list (nat * nat) :=
  match s with
  | GMut m id => [(m, id)]
  | GOne _ _ _ s => leaves s
  | GChain _ s1 s2 => leaves s1 ++ leaves s2
  end.

Definition drop_leaf (v : vecs) (l : nat * nat) : vecs := fupd (fst l) (mv_event (EDropSub (snd l)) (v (fst l))) v.
Definition drop_sig (s : sig) (v : vecs) : vecs := fold_left drop_leaf (leaves s) v.

(** ** Tasks *)

(** A task that runs for_each (futures-util, stream/for_each.rs: polls the future of the closure if
    there is one, else the stream). [TSleep]: the poll of the task has returned; [TRun]: about to poll
    the SignalVec; [TCall]: the closure was called, and its future was not polled yet, or it is about to be polled
    again; [TFut]: its future answered Pending and the poll of the task has returned; [TDone]: it has completed;
    [TGone]: it was dropped; [TPanic]: it has panicked. [woken]: the task is in the executor's queue. Ghost:
    [outs], the answers of the SignalVec so far. *)
Inductive tpc := TSleep | TRun | TCall | TFut | TDone | TGone | TPanic.
Record task := mkTask { t_sig : sig; t_pc : tpc; t_woken : bool; t_outs : list ans; t_pipe : pipe }.

Record world := mkW { w_vec : vecs; w_nvec : nat; w_task : nat -> task; w_nt : nat }.

Definition set_task (t : nat) (x : task) (w : world) : world :=
  mkW (w_vec w) (w_nvec w) (fupd t x (w_task w)) (w_nt w).

(** The registered waker of subscriber [id] was woken between the two states. *)
Definition fired (before after : mvec V) (id : nat) : bool :=
  match nth_error (subs before) id, nth_error (subs after) id with
  | Some x, Some y => waiting x && negb (waiting y)
  | _, _ => false
  end.

(** Something happens to MutableVec [m]: the tasks whose wakers are woken are put into the queue. *)
Definition happens (m : nat) (e : event V) (w : world) : world :=
  let before := w_vec w m in
  let after := mv_event e before in
  mkW (fupd m after (w_vec w)) (w_nvec w)
      (fun t => let x := w_task w t in
                mkTask (t_sig x) (t_pc x)
                  (t_woken x || existsb (fun l => (fst l =? m) && fired before after (snd l)) (leaves (t_sig x)))
                  (t_outs x) (t_pipe x))
      (w_nt w).

(** ** Moves
    - [MVec vs]: MutableVec::new_with_values; [MClone], [MDrop]: its Clone and Drop;
    - [MOp m o]: lock_mut and one operation; if it panics, the lock is poisoned;
    - [MSpawn p]: a task for a for_each; [MCancel t]: it is dropped by the executor;
    - [MWake t]: somebody else wakes the task (the future of the closure, or nobody knows who);
    - [MStart t]: the executor takes the task from its queue and polls it;
    - [MPoll t n]: the for_each polls its SignalVec, with fuel [n];
    - [MFut t r]: the future of the closure answers, Ready if [r]. *)
Inductive move :=
| MVec (vs : list V) | MClone (m : nat) | MDrop (m : nat) | MOp (m : nat) (o : op V)
| MSpawn (p : pipe) | MCancel (t : nat) | MWake (t : nat) | MStart (t : nat) | MPoll (t n : nat) | MFut (t : nat) (r : bool).

(** The MutableVec exists and has a handle. *)
Definition held (m : nat) (w : world) : bool := (m <? w_nvec w) && (0 <? owners (w_vec w m)).

Definition is_over (p : tpc) : bool := match p with TDone | TGone | TPanic => true | _ => false end.

Definition step (w : world) (mv : move) : option world :=
  match mv with
  | MVec vs => Some (mkW (fupd (w_nvec w) (mv_new vs) (w_vec w)) (S (w_nvec w)) (w_task w) (w_nt w))
  | MClone m => if held m w then Some (happens m EClone w) else None
  | MDrop m => if held m w then Some (happens m EDrop w) else None
  | MOp m o => if held m w then Some (happens m (EOp o) w) else None
  | MSpawn p =>
      if closed (w_nvec w) (w_vec w) p then
        let '(s, v) := build p (w_vec w) in
        Some (mkW v (w_nvec w) (fupd (w_nt w) (mkTask s TSleep true [] p) (w_task w)) (S (w_nt w)))
      else None
  | MCancel t =>
      let x := w_task w t in
      if (t <? w_nt w) && negb (is_over (t_pc x)) then
        Some (set_task t (mkTask (t_sig x) TGone (t_woken x) (t_outs x) (t_pipe x))
               (mkW (drop_sig (t_sig x) (w_vec w)) (w_nvec w) (w_task w) (w_nt w)))
      else None
  | MWake t =>
      let x := w_task w t in
      if t <? w_nt w then Some (set_task t (mkTask (t_sig x) (t_pc x) true (t_outs x) (t_pipe x)) w) else None
  | MStart t =>
      let x := w_task w t in
      if (t <? w_nt w) && t_woken x then
        match t_pc x with
        | TSleep => Some (set_task t (mkTask (t_sig x) TRun false (t_outs x) (t_pipe x)) w)
        | TFut => Some (set_task t (mkTask (t_sig x) TCall false (t_outs x) (t_pipe x)) w)
        | _ => None
        end
      else None
  | MPoll t n =>
      let x := w_task w t in
      match t_pc x with
      | TRun =>
          if t <? w_nt w then
            match poll_sig n (t_sig x) (w_vec w) with
            | POk s v r =>
                let outs := t_outs x ++ [r] in
                match r with
                | Ready (Some _) =>
                    Some (mkW v (w_nvec w) (fupd t (mkTask s TCall (t_woken x) outs (t_pipe x)) (w_task w)) (w_nt w))
                | Ready None =>
                    Some (mkW (drop_sig s v) (w_nvec w) (fupd t (mkTask s TDone (t_woken x) outs (t_pipe x)) (w_task w)) (w_nt w))
                | Pending =>
                    Some (mkW v (w_nvec w) (fupd t (mkTask s TSleep (t_woken x) outs (t_pipe x)) (w_task w)) (w_nt w))
                end
            | PPanic s v =>
                Some (mkW v (w_nvec w) (fupd t (mkTask s TPanic (t_woken x) (t_outs x) (t_pipe x)) (w_task w)) (w_nt w))
            | POut => None
            end
          else None
      | _ => None
      end
  | MFut t r =>
      let x := w_task w t in
      match t_pc x with
      | TCall => if t <? w_nt w
                 then Some (set_task t (mkTask (t_sig x) (if r then TRun else TFut) (t_woken x) (t_outs x) (t_pipe x)) w)
                 else None
      | _ => None
      end
  end.

Definition w_init : world := mkW (fun _ => mv_new []) 0 (fun _ => mkTask (GMut 0 0) TGone false [] (PMut 0)) 0.

(** ** Specification *)

(** The pipeline that a signal was made from. *)
Fixpoint pipe_of (s : sig) : pipe :=
  match s with
  | GMut m _ => PMut m
  | GOne c _ _ s => POne c (pipe_of s)
  | GChain _ s1 s2 => PChain (pipe_of s1) (pipe_of s2)
  end.

(** [out] is right for the combinator to show when its input is [l]. For enumerate: each element comes
    with its own index handle, and the handle of the element at position [i] holds Some i. *)
Definition means (c : comb) : cstate c -> list V -> list V -> Prop :=
  match c return cstate c -> list V -> list V -> Prop with
  | CMap f => fun _ l out => out = map f l
  | CFilter p => fun _ l out => out = filter p l
  | CFilterMap f => fun _ l out => out = accepted_values f l
  | CSort compare => fun _ l out => stable_sort_of compare l out
  | CEnumerate mk => fun st l out => exists handles, length handles = length l /\ NoDup handles
      /\ (forall i c, nth_error handles i = Some c -> cell_get (en_heap st) c = Some i)
      /\ out = map (fun cv => mk (fst cv) (snd cv)) (combine handles l)
  | CDebug => fun _ l out => out = l
  end.

(** [out] is right for the pipeline to show, when the MutableVecs contain [vals]. *)
Fixpoint shows (vals : nat -> list V) (s : sig) (out : list V) : Prop :=
  match s with
  | GMut m _ => out = vals m
  | GOne c st _ s => exists l, shows vals s l /\ means c st l out
  | GChain _ s1 s2 => exists l1 l2, shows vals s1 l1 /\ shows vals s2 l2 /\ out = l1 ++ l2
  end.

(** The contents of the MutableVecs. *)
Definition contents (w : world) (m : nat) : list V := values (w_vec w m).

(** The side conditions without which filter, filter_map (C09, C10) and chain (C23) go wrong, for the diffs that
    arrived there so far; and the comparison functions of sort_by_cloned are total preorders. *)
Fixpoint tame (s : sig) : Prop :=
  match s with
  | GMut _ _ => True
  | GOne c _ log s =>
      tame s /\ match c with
                | CFilter p => backward_moves_ok p (yielded log)
                | CFilterMap f => backward_moves_ok (fun a => is_some (f a)) (yielded log)
                | CSort compare => total_preorder compare
                | _ => True
                end
  | GChain st s1 s2 =>
      tame s1 /\ tame s2
      /\ never_empties_empty (yielded (log_of (ch_left st))) /\ never_empties_empty (yielded (log_of (ch_right st)))
  end.

(** The diffs that the closure of the for_each was called with. *)
Definition seen (x : task) : list diff := yielded (t_outs x).

(** The executor has nothing to do. *)
Definition idle (w : world) : Prop :=
  forall t, t < w_nt w -> match t_pc (w_task w t) with
                          | TSleep | TFut => t_woken (w_task w t) = false
                          | TRun | TCall => False
                          | TDone | TGone | TPanic => True
                          end.

(** The MutableVecs that a pipeline is built on. *)
Fixpoint muts (p : pipe) : list nat :=
  match p with
  | PMut m => [m]
  | POne _ p => muts p
  | PChain p q => muts p ++ muts q
  end.

(** No operation on a MutableVec of the pipeline has panicked. *)
Fixpoint unpoisoned (w : world) (p : pipe) : Prop :=
  match p with
  | PMut m => poisoned (w_vec w m) = false
  | POne _ p => unpoisoned w p
  | PChain p q => unpoisoned w p /\ unpoisoned w q
  end.
End Pipes.

Arguments comb : clear implicits. Arguments pipe : clear implicits. Arguments sig : clear implicits.
Arguments vecs : clear implicits. Arguments pres : clear implicits. Arguments task : clear implicits.
Arguments world : clear implicits. Arguments move : clear implicits.
