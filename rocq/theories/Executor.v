(** Whole programs on an executor: any number of Mutables, Broadcasters and tasks, where each task is
    a for_each over a pipeline of map, dedupe, dedupe_map, eq, neq, map_ref! (any number of inputs),
    switch, flatten, always, Mutable signals and Broadcaster children, and the input of each Broadcaster
    is such a pipeline. Everything can be made, changed and dropped at any time between two polls of a
    pipeline, in particular by the closure of a for_each. Each poll of a pipeline and each call of
    set, clone, drop, ... is one step (one thread); the interleavings inside of them are the subject
    of Mutable.v and Broadcaster.v. Values are of one type [V] (the disjoint union of the types of the program); closures
    are functions; [usize] is unbounded. *)
From Verif Require Import Base Conc.

(** A Waker: of a task of the executor, or of the BroadcasterNotifier of Broadcaster [b]
    (broadcaster.rs 50-54, 119). *)
Inductive wk := WTask (t : nat) | WNote (b : nat).

Inductive res (X : Type) := OutOfFuel | Panic | Ok (x : X).
Arguments OutOfFuel {X}. Arguments Panic {X}. Arguments Ok {X} x.

Section Pipes.
Context {V : Type}.

(** ** Pipelines *)

(** What the user writes:
    - [PMut m f]: Mutable [m]'s signal_ref(f) (mutable.rs 183-186); signal and signal_cloned (196-199, 209-212): the identity;
    - [PAlways v]: always (signal.rs 877-897);
    - [PMap f p]: map, and inspect; not;
    - [PDedupe eqb f p]: dedupe_map (f takes &mut: it returns the value as it leaves it, and the output);
      dedupe, dedupe_cloned with f = |x| x;
    - [PEq test out p]: eq, neq; [out] is the embedding of bool;
    - [PRef f ps]: map_ref!; and, or;
    - [PChild b f]: Broadcaster [b]'s signal_ref(f) (broadcaster.rs 228-234); signal, signal_cloned: the identity;
    - [PSwitch f p]: switch (signal.rs 437-445, 929-944): map(f), then flatten; flatten of a signal of signals is the same, and [f] says how these were made; [f] makes a new signal from each value of [p]. *)
Inductive pipe :=
| PMut (m : nat) (f : V -> V)
| PAlways (v : V)
| PMap (f : V -> V) (p : pipe)
| PDedupe (eqb : V -> V -> bool) (f : V -> V * V) (p : pipe)
| PEq (test : V -> bool) (out : bool -> V) (p : pipe)
| PRef (f : list V -> V) (ps : pipes)
| PChild (b : nat) (f : V -> V)
| PSwitch (f : V -> pipe) (p : pipe)
with pipes := PNil | PCons (p : pipe) (ps : pipes).

(** The signal made of it, with the fields of the structs. [i] is the number of a ChangedWaker.
    - [SAlways v taken]: the field is Some(v) until taken;
    - [SDedupe .. old s]: field old_value; [SEq .. matches s]: field matches;
    - [SRef]: one MapRef1 (internal.rs 41-47) per input: field [value], and field [signal], which is
      Some when [live] (the dropped signal stays visible, for the specification only);
    - [SKid b i e f]: BroadcasterState (broadcaster.rs 158-162) with epoch [e];
    - [SSwitch f live sel s ss]: Flatten (signal.rs 1579-1584) of Map: field [signal], the Map, is Some when [live]; the field [inner]
      is [ss]: no signal yet, or one with its last value, dropped when it has ended (for the specification: as in [SRef]).
      Ghost: [sel], the value that the inner signal was made from. *)
Inductive sig :=
| SMut (i m : nat) (f : V -> V)
| SAlways (v : V) (taken : bool)
| SMap (f : V -> V) (s : sig)
| SDedupe (eqb : V -> V -> bool) (f : V -> V * V) (old : option V) (s : sig)
| SEq (test : V -> bool) (out : bool -> V) (matches : option bool) (s : sig)
| SRef (f : list V -> V) (ss : slots)
| SKid (b i e : nat) (f : V -> V)
| SSwitch (f : V -> pipe) (live : bool) (sel : option V) (s : sig) (ss : slots)
with slots := LNil | LCons (live : bool) (value : option V) (s : sig) (ss : slots).

End Pipes.
Arguments pipe : clear implicits. Arguments pipes : clear implicits. Arguments sig : clear implicits. Arguments slots : clear implicits.

(** The ChangedWakers of a signal. *)
Fixpoint ids {V : Type} (s : sig V) : list nat :=
  match s with
  | SMut i _ _ | SKid _ i _ _ => [i]
  | SAlways _ _ => []
  | SMap _ s | SDedupe _ _ _ s | SEq _ _ _ s => ids s
  | SRef _ ss => idss ss
  | SSwitch _ _ _ s ss => ids s ++ idss ss
  end
with idss {V : Type} (ss : slots V) : list nat :=
  match ss with LNil => [] | LCons _ _ s ss => ids s ++ idss ss end.

(** ** The state *)

(** ChangedWaker (mutable.rs 14-18); [alive]: it is not dropped (the lists hold Weak). Ghost: [owner], who polls its signal;
    [src], what it is a signal of. *)
Inductive source := FMut (m : nat) | FBc (b : nat).
Record cw := mkCw { c_changed : bool; c_waker : option wk; c_alive : bool; c_owner : wk; c_src : source }.
(** MutableState with MutableLockState (53-58, 79-83). *)
Record mu {V : Type} := mkMu { u_value : V; u_senders : nat; u_signals : list nat }.
(** BroadcasterNotifier (broadcaster.rs 14-18) and BroadcasterInnerState (59-66); the field [signal] is Some when [live]. *)
Record bc {V : Type} := mkBc { b_changed : bool; b_wakers : list nat; b_signal : sig V; b_live : bool; b_value : option V; b_epoch : nat }.
(** A task that runs for_each (futures-util, stream/for_each.rs: polls the future of the closure if
    there is one, else the stream). [TSleep]: the poll of the task has returned; [TRun]: about to poll the signal;
    [TCall]: about to poll the future of the closure; [TFut]: that future was Pending and so the poll of
    the task has returned; [TDone]: it has completed; [TGone]: it was dropped; [TPanic]: it has panicked.
    [woken]: the task is in the executor's queue. Ghost: [seen], the values the closure was called with. *)
Inductive tpc := TSleep | TRun | TCall | TFut | TDone | TGone | TPanic.
Record task {V : Type} := mkTask { t_sig : sig V; t_pc : tpc; t_woken : bool; t_seen : list V; t_pipe : pipe V }.

Arguments mu : clear implicits. Arguments bc : clear implicits. Arguments task : clear implicits.

Record world {V : Type} := mkW {
  w_mu : nat -> mu V; w_nmu : nat;
  w_cw : nat -> cw; w_ncw : nat;
  w_bc : nat -> bc V; w_nbc : nat;
  w_task : nat -> task V; w_nt : nat }.
Arguments world : clear implicits. Arguments mkMu {V}. Arguments mkBc {V}. Arguments mkTask {V}. Arguments mkW {V}.

Definition set_mu {V : Type} (m : nat) (x : mu V) (w : world V) : world V :=
  mkW (fupd m x (w_mu w)) (w_nmu w) (w_cw w) (w_ncw w) (w_bc w) (w_nbc w) (w_task w) (w_nt w).
Definition set_cw {V : Type} (i : nat) (x : cw) (w : world V) : world V :=
  mkW (w_mu w) (w_nmu w) (fupd i x (w_cw w)) (w_ncw w) (w_bc w) (w_nbc w) (w_task w) (w_nt w).
Definition set_bc {V : Type} (b : nat) (x : bc V) (w : world V) : world V :=
  mkW (w_mu w) (w_nmu w) (w_cw w) (w_ncw w) (fupd b x (w_bc w)) (w_nbc w) (w_task w) (w_nt w).
Definition set_task {V : Type} (t : nat) (x : task V) (w : world V) : world V :=
  mkW (w_mu w) (w_nmu w) (w_cw w) (w_ncw w) (w_bc w) (w_nbc w) (fupd t x (w_task w)) (w_nt w).

Definition flag_cw (changed : bool) (c : cw) : cw := mkCw changed (c_waker c) (c_alive c) (c_owner c) (c_src c).
Definition arm_cw (o : option wk) (c : cw) : cw := mkCw (c_changed c) o (c_alive c) (c_owner c) (c_src c).
Definition kill_cw (c : cw) : cw := mkCw (c_changed c) (c_waker c) false (c_owner c) (c_src c).
Definition flag_bc {V : Type} (changed : bool) (x : bc V) : bc V := mkBc changed (b_wakers x) (b_signal x) (b_live x) (b_value x) (b_epoch x).
Definition wakers_bc {V : Type} (l : list nat) (x : bc V) : bc V := mkBc (b_changed x) l (b_signal x) (b_live x) (b_value x) (b_epoch x).
Definition inner_bc {V : Type} (s : sig V) (live : bool) (v : option V) (e : nat) (x : bc V) : bc V := mkBc (b_changed x) (b_wakers x) s live v e.
Definition woken_task {V : Type} (wo : bool) (x : task V) : task V := mkTask (t_sig x) (t_pc x) wo (t_seen x) (t_pipe x).
Definition pc_task {V : Type} (p : tpc) (x : task V) : task V := mkTask (t_sig x) p (t_woken x) (t_seen x) (t_pipe x).

(** Drop of a signal: its ChangedWakers are dropped. (Not modelled: the drop of a Broadcaster's input
    when the Broadcaster and all of its children are dropped; nobody can observe it here.) *)
Definition drop_ids {V : Type} (l : list nat) (w : world V) : world V :=
  fold_left (fun w i => set_cw i (kill_cw (w_cw w i)) w) l w.
Definition drop_sig {V : Type} (s : sig V) (w : world V) : world V := drop_ids (ids s) w.

(** ** Wake-ups *)

(** [retain(|x| if let Some(x) = x.upgrade() { f(x); true } else { false })], without the removal. *)
Fixpoint each_alive {V : Type} (f : nat -> world V -> option (world V)) (l : list nat) (w : world V) : option (world V) :=
  match l with
  | [] => Some w
  | i :: l => let? w' := (if c_alive (w_cw w i) then f i w else Some w) in each_alive f l w'
  end.

(** ChangedWaker::wake (mutable.rs 28-42), then Waker::wake: of a task; or of a notifier
    (broadcaster.rs 28-43). The depth of the recursion is that of the nesting of Broadcasters;
    [None] when it exceeds [n]. *)
Fixpoint wake {V : Type} (n : nat) (changed : bool) (i : nat) (w : world V) {struct n} : option (world V) :=
  match n with
  | 0 => None
  | S n =>
      let c := w_cw w i in
      let w := set_cw i (arm_cw None (if changed then flag_cw true c else c)) w in
      match c_waker c with
      | None => Some w
      | Some (WTask t) => Some (set_task t (woken_task true (w_task w t)) w)
      | Some (WNote b) =>
          let w := set_bc b (flag_bc true (w_bc w b)) w in
          let? w := each_alive (wake n false) (b_wakers (w_bc w b)) w in
          Some (set_bc b (wakers_bc (filter (fun k => c_alive (w_cw w k)) (b_wakers (w_bc w b))) (w_bc w b)) w)
      end
  end.

(** MutableLockState::notify (mutable.rs 65-75). *)
Definition notify {V : Type} (m : nat) (changed : bool) (w : world V) : option (world V) :=
  let? w := each_alive (wake (S (w_nbc w)) changed) (u_signals (w_mu w m)) w in
  let x := w_mu w m in
  Some (set_mu m (mkMu (u_value x) (u_senders x) (filter (fun i => c_alive (w_cw w i)) (u_signals x))) w).

(** ** Making signals *)

(** ChangedWaker::new (mutable.rs 21-26) *)
Definition new_cw {V : Type} (o : wk) (src : source) (w : world V) : world V :=
  mkW (w_mu w) (w_nmu w) (fupd (w_ncw w) (mkCw true None true o src) (w_cw w)) (S (w_ncw w)) (w_bc w) (w_nbc w) (w_task w) (w_nt w).

Fixpoint build {V : Type} (o : wk) (p : pipe V) (w : world V) {struct p} : sig V * world V :=
  match p with
  | PMut m f => (* signal_state (mutable.rs 173-181) *)
      let i := w_ncw w in
      let w := new_cw o (FMut m) w in
      let x := w_mu w m in
      (SMut i m f, if u_senders x =? 0 then w else set_mu m (mkMu (u_value x) (u_senders x) (u_signals x ++ [i])) w)
  | PAlways v => (SAlways v false, w)
  | PMap f p => let '(s, w) := build o p w in (SMap f s, w)
  | PDedupe eqb f p => let '(s, w) := build o p w in (SDedupe eqb f None s, w)
  | PEq test out p => let '(s, w) := build o p w in (SEq test out None s, w)
  | PRef f ps => let '(ss, w) := builds o ps w in (SRef f ss, w)
  | PChild b f => (* BroadcasterState::new (broadcaster.rs 165-178) *)
      let i := w_ncw w in
      let w := new_cw o (FBc b) w in
      (SKid b i 0 f, set_bc b (wakers_bc (b_wakers (w_bc w b) ++ [i]) (w_bc w b)) w)
  | PSwitch f p => (* signal.rs 428-445 *)
      let '(s, w) := build o p w in (SSwitch f true None s LNil, w)
  end
with builds {V : Type} (o : wk) (ps : pipes V) (w : world V) {struct ps} : slots V * world V :=
  match ps with
  | PNil => (LNil, w)
  | PCons p ps => let '(s, w) := build o p w in
                  let '(ss, w) := builds o ps w in
                  (LCons true None s ss, w)
  end.

(** ** Polls *)

(** The values of all inputs of a map_ref! (value_ref, internal.rs 102-105). *)
Fixpoint values {V : Type} (ss : slots V) : option (list V) :=
  match ss with
  | LNil => Some []
  | LCons _ v _ ss => let? v := v in let? vs := values ss in Some (v :: vs)
  end.

(** poll_change of a signal, by a poll whose Context carries the waker [o]. [n] bounds the number of nested calls and
    iterations. *)
Fixpoint poll_sig {V : Type} (n : nat) (o : wk) (s : sig V) (w : world V) {struct n} : res (sig V * world V * poll (option V)) :=
  match n with
  | 0 => OutOfFuel
  | S n =>
      match s with
      | SMut i m f => (* mutable.rs 96-110 *)
          if c_changed (w_cw w i) then
            Ok (s, set_cw i (flag_cw false (w_cw w i)) w, Ready (Some (f (u_value (w_mu w m)))))
          else if u_senders (w_mu w m) =? 0 then Ok (s, w, Ready None)
          else Ok (s, set_cw i (arm_cw (Some o) (w_cw w i)) w, Pending)
      | SAlways v taken => (* signal.rs 887-889 *)
          Ok (SAlways v true, w, Ready (if taken then None else Some v))
      | SMap f s => (* signal.rs 1087-1091 *)
          match poll_sig n o s w with
          | Ok (s, w, Ready (Some v)) => Ok (SMap f s, w, Ready (Some (f v)))
          | Ok (s, w, Ready None) => Ok (SMap f s, w, Ready None)
          | Ok (s, w, Pending) => Ok (SMap f s, w, Pending)
          | Panic => Panic | OutOfFuel => OutOfFuel
          end
      | SDedupe eqb f old s => (* signal.rs 1425-1450 *)
          match poll_sig n o s w with
          | Ok (s, w, Ready (Some v)) =>
              if match old with Some a => negb (eqb a v) | None => true end then
                Ok (SDedupe eqb f (Some (fst (f v))) s, w, Ready (Some (snd (f v))))
              else poll_sig n o (SDedupe eqb f old s) w
          | Ok (s, w, Ready None) => Ok (SDedupe eqb f old s, w, Ready None)
          | Ok (s, w, Pending) => Ok (SDedupe eqb f old s, w, Pending)
          | Panic => Panic | OutOfFuel => OutOfFuel
          end
      | SEq test out matches s => (* signal.rs 1155-1171, 1195-1211 *)
          match poll_sig n o s w with
          | Ok (s, w, Ready (Some v)) =>
              if match matches with Some a => negb (Bool.eqb a (test v)) | None => true end then
                Ok (SEq test out (Some (test v)) s, w, Ready (Some (out (test v))))
              else poll_sig n o (SEq test out matches s) w
          | Ok (s, w, Ready None) => Ok (SEq test out matches s, w, Ready None)
          | Ok (s, w, Pending) => Ok (SEq test out matches s, w, Pending)
          | Panic => Panic | OutOfFuel => OutOfFuel
          end
      | SRef f ss => (* macros.rs 73-91 *)
          match poll_slots n o ss w with
          | Ok (ss, w, done, changed) =>
              if changed then
                match values ss with
                | Some vs => Ok (SRef f ss, w, Ready (Some (f vs)))
                | None => Panic
                end
              else if done then Ok (SRef f ss, w, Ready None)
              else Ok (SRef f ss, w, Pending)
          | Panic => Panic | OutOfFuel => OutOfFuel
          end
      | SKid b i e f => (* broadcaster.rs 128-141, 180-199 *)
          let after (w : world V) :=
            let x := w_bc w b in
            if b_epoch x =? e then
              if b_live x then Ok (SKid b i e f, set_cw i (arm_cw (Some o) (w_cw w i)) w, Pending)
              else Ok (SKid b i e f, w, Ready None)
            else match b_value x with
                 | Some v => Ok (SKid b i (b_epoch x) f, w, Ready (Some (f v)))
                 | None => Panic
                 end in
          if b_changed (w_bc w b) then
            let w := set_bc b (flag_bc false (w_bc w b)) w in
            let x := w_bc w b in
            if b_live x then
              match drain n (WNote b) (b_signal x) false (b_value x) w with
              | Ok (s, w, live, changed, value) =>
                  after (set_bc b (inner_bc s live value (if changed then S (b_epoch x) else b_epoch x) (w_bc w b)) w)
              | Panic => Panic | OutOfFuel => OutOfFuel
              end
            else after w
          else after w
      | SSwitch f live sel s ss => (* signal.rs 1600-1634; the closure of switch makes the inner signal (1087-1091) *)
          match (if live then
                   match poll_sig n o s w with
                   | Ok (s, w, Ready (Some a)) => let '(inner, w) := build o (f a) w in Ok (true, Some a, s, LCons true None inner LNil, drop_ids (idss ss) w)
                   | Ok (s, w, Ready None) => Ok (false, sel, s, ss, drop_sig s w)
                   | Ok (s, w, Pending) => Ok (true, sel, s, ss, w)
                   | Panic => Panic | OutOfFuel => OutOfFuel
                   end
                 else Ok (false, sel, s, ss, w)) with
          | Ok (live, sel, s, ss, w) =>
              match poll_slots n o ss w with
              | Ok (ss, w, done, changed) =>
                  if changed then
                    match values ss with
                    | Some [v] => Ok (SSwitch f live sel s ss, w, Ready (Some v))
                    | _ => Panic
                    end
                  else if done && negb live then Ok (SSwitch f live sel s ss, w, Ready None)
                  else Ok (SSwitch f live sel s ss, w, Pending)
              | Panic => Panic | OutOfFuel => OutOfFuel
              end
          | Panic => Panic | OutOfFuel => OutOfFuel
          end
      end
  end
(** All MapRef1::poll (internal.rs 66-100) and the merge of the results (34-39): done, changed. *)
with poll_slots {V : Type} (n : nat) (o : wk) (ss : slots V) (w : world V) {struct n} : res (slots V * world V * bool * bool) :=
  match n with
  | 0 => OutOfFuel
  | S n =>
      match ss with
      | LNil => Ok (LNil, w, true, false)
      | LCons live value s ss =>
          match (if live then
                   match poll_sig n o s w with
                   | Ok (s, w, Ready None) => Ok (LCons false value s LNil, drop_sig s w, true, false)
                   | Ok (s, w, Ready (Some v)) => Ok (LCons true (Some v) s LNil, w, false, true)
                   | Ok (s, w, Pending) => Ok (LCons true value s LNil, w, false, false)
                   | Panic => Panic | OutOfFuel => OutOfFuel
                   end
                 else Ok (LCons false value s LNil, w, true, false)) with
          | Ok (LCons live value s _, w, done, changed) =>
              match poll_slots n o ss w with
              | Ok (ss, w, done', changed') => Ok (LCons live value s ss, w, done && done', changed || changed')
              | Panic => Panic | OutOfFuel => OutOfFuel
              end
          | Ok (LNil, _, _, _) => Panic
          | Panic => Panic | OutOfFuel => OutOfFuel
          end
      end
  end
(** The loop of poll_signal (broadcaster.rs 85-103). *)
with drain {V : Type} (n : nat) (o : wk) (s : sig V) (changed : bool) (value : option V) (w : world V) {struct n}
  : res (sig V * world V * bool * bool * option V) :=
  match n with
  | 0 => OutOfFuel
  | S n =>
      match poll_sig n o s w with
      | Ok (s, w, Ready (Some v)) => drain n o s true (Some v) w
      | Ok (s, w, Ready None) => Ok (s, drop_sig s w, false, changed, value)
      | Ok (s, w, Pending) => Ok (s, w, true, changed, value)
      | Panic => Panic | OutOfFuel => OutOfFuel
      end
  end.

(** It names only Mutables below [nm] and Broadcasters below [nb], and so do the pipelines that its closures make; map_ref!
    has at least one input. *)
Fixpoint closed {V : Type} (nm nb : nat) (p : pipe V) : Prop :=
  match p with
  | PMut m _ => m < nm
  | PAlways _ => True
  | PMap _ p | PDedupe _ _ p | PEq _ _ p => closed nm nb p
  | PRef _ ps => ps <> PNil /\ closeds nm nb ps
  | PChild b _ => b < nb
  | PSwitch f p => closed nm nb p /\ forall a, closed nm nb (f a)
  end
with closeds {V : Type} (nm nb : nat) (ps : pipes V) : Prop :=
  match ps with PNil => True | PCons p ps => closed nm nb p /\ closeds nm nb ps end.

(** ** Moves
    - [MNew v]: Mutable::new (mutable.rs 241, 317-327); [MClone], [MDrop]: its Clone and Drop (378-404);
    - [MSet m v]: set, replace, replace_with, lock_mut with a change, set_if and set_neq when they
      write (253-312, 342-345); [MSwap m m']: swap (275-286; with itself it would wait forever);
    - [MBc nm nb p h]: Broadcaster::new; [MSpawn nm nb p h]: a task for a for_each. The pipeline and the closures in it name only
      Mutables below [nm] and Broadcasters below [nb] (by [h]), and these exist: a closure has only handles that were given to it;
    - [MCancel t]: the task is dropped by the executor;
    - [MWake t]: somebody else wakes the task (the future of the closure, or nobody knows who);
    - [MStart t]: the executor takes the task from its queue and polls it;
    - [MPoll t n]: the for_each polls its signal, with fuel [n];
    - [MFut t r]: the future of the closure answers, Ready if [r]. *)
Inductive move {V : Type} :=
| MNew (v : V) | MClone (m : nat) | MDrop (m : nat) | MSet (m : nat) (v : V) | MSwap (m m' : nat)
| MBc (nm nb : nat) (p : pipe V) (h : closed nm nb p) | MSpawn (nm nb : nat) (p : pipe V) (h : closed nm nb p)
| MCancel (t : nat) | MWake (t : nat) | MStart (t : nat) | MPoll (t n : nat) | MFut (t : nat) (r : bool).

Arguments move : clear implicits.

(** The Mutable exists and has a handle. *)
Definition held {V : Type} (m : nat) (w : world V) : bool := (m <? w_nmu w) && negb (u_senders (w_mu w m) =? 0).

Definition ended (p : tpc) : bool := match p with TDone | TGone | TPanic => true | _ => false end.

Definition step {V : Type} (w : world V) (mv : move V) : option (world V) :=
  match mv with
  | MNew v =>
      Some (mkW (fupd (w_nmu w) (mkMu v 1 []) (w_mu w)) (S (w_nmu w)) (w_cw w) (w_ncw w) (w_bc w) (w_nbc w) (w_task w) (w_nt w))
  | MClone m =>
      if held m w then
        let x := w_mu w m in Some (set_mu m (mkMu (u_value x) (S (u_senders x)) (u_signals x)) w)
      else None
  | MDrop m =>
      if held m w then
        let x := w_mu w m in
        let w := set_mu m (mkMu (u_value x) (u_senders x - 1) (u_signals x)) w in
        if u_senders x =? 1 then
          let? w := notify m false w in
          let x := w_mu w m in Some (set_mu m (mkMu (u_value x) (u_senders x) []) w)
        else Some w
      else None
  | MSet m v =>
      if held m w then
        let x := w_mu w m in notify m true (set_mu m (mkMu v (u_senders x) (u_signals x)) w)
      else None
  | MSwap m m' =>
      if held m w && held m' w && negb (m =? m') then
        let x := w_mu w m in
        let x' := w_mu w m' in
        let w := set_mu m (mkMu (u_value x') (u_senders x) (u_signals x)) w in
        let w := set_mu m' (mkMu (u_value x) (u_senders x') (u_signals x')) w in
        let? w := notify m true w in notify m' true w
      else None
  | MBc nm nb p _ =>
      if (nm <=? w_nmu w) && (nb <=? w_nbc w) then
        let '(s, w) := build (WNote (w_nbc w)) p w in
        Some (mkW (w_mu w) (w_nmu w) (w_cw w) (w_ncw w) (fupd (w_nbc w) (mkBc true [] s true None 0) (w_bc w)) (S (w_nbc w)) (w_task w) (w_nt w))
      else None
  | MSpawn nm nb p _ =>
      if (nm <=? w_nmu w) && (nb <=? w_nbc w) then
        let '(s, w) := build (WTask (w_nt w)) p w in
        Some (mkW (w_mu w) (w_nmu w) (w_cw w) (w_ncw w) (w_bc w) (w_nbc w) (fupd (w_nt w) (mkTask s TSleep true [] p) (w_task w)) (S (w_nt w)))
      else None
  | MCancel t =>
      if (t <? w_nt w) && negb (ended (t_pc (w_task w t))) then
        Some (set_task t (pc_task TGone (w_task w t)) (drop_sig (t_sig (w_task w t)) w))
      else None
  | MWake t =>
      if t <? w_nt w then Some (set_task t (woken_task true (w_task w t)) w) else None
  | MStart t =>
      let x := w_task w t in
      if (t <? w_nt w) && t_woken x then
        match t_pc x with
        | TSleep => Some (set_task t (mkTask (t_sig x) TRun false (t_seen x) (t_pipe x)) w)
        | TFut => Some (set_task t (mkTask (t_sig x) TCall false (t_seen x) (t_pipe x)) w)
        | _ => None
        end
      else None
  | MPoll t n =>
      let x := w_task w t in
      match t_pc x with
      | TRun =>
          if t <? w_nt w then
            match poll_sig n (WTask t) (t_sig x) w with
            | Ok (s, w, r) =>
                let x := w_task w t in
                match r with
                | Ready (Some v) => Some (set_task t (mkTask s TCall (t_woken x) (t_seen x ++ [v]) (t_pipe x)) w)
                | Ready None => Some (set_task t (mkTask s TDone (t_woken x) (t_seen x) (t_pipe x)) (drop_sig s w))
                | Pending => Some (set_task t (mkTask s TSleep (t_woken x) (t_seen x) (t_pipe x)) w)
                end
            | Panic => Some (set_task t (pc_task TPanic x) w)
            | OutOfFuel => None
            end
          else None
      | _ => None
      end
  | MFut t r =>
      let x := w_task w t in
      match t_pc x with
      | TCall => if t <? w_nt w then Some (set_task t (pc_task (if r then TRun else TFut) x) w) else None
      | _ => None
      end
  end.

Definition w_init {V : Type} (v : V) : world V :=
  mkW (fun _ => mkMu v 0 []) 0 (fun _ => mkCw false None false (WTask 0) (FMut 0)) 0
      (fun _ => mkBc false [] (SAlways v true) false None 0) 0 (fun _ => mkTask (SAlways v true) TGone false [] (PAlways v)) 0.

(** ** Specification *)

(** The pipeline of a signal, without its state. *)
Fixpoint pipe_of {V : Type} (s : sig V) : pipe V :=
  match s with
  | SMut _ m f => PMut m f
  | SAlways v _ => PAlways v
  | SMap f s => PMap f (pipe_of s)
  | SDedupe eqb f _ s => PDedupe eqb f (pipe_of s)
  | SEq test out _ s => PEq test out (pipe_of s)
  | SRef f ss => PRef f (pipes_of ss)
  | SKid b _ _ f => PChild b f
  | SSwitch f _ _ s _ => PSwitch f (pipe_of s)
  end
with pipes_of {V : Type} (ss : slots V) : pipes V :=
  match ss with LNil => PNil | LCons _ _ s ss => PCons (pipe_of s) (pipes_of ss) end.

(** [shows vals defs p v]: [v] is right for pipeline [p] to show, when the Mutables contain [vals] and
    the Broadcasters were made from [defs]: [v] is the function of the values that [p] is written as.
    dedupe_map compares with what is left of the value it last made an output from. *)
Inductive shows {V : Type} (vals : nat -> V) (defs : nat -> pipe V) : pipe V -> V -> Prop :=
| show_mut m f : shows vals defs (PMut m f) (f (vals m))
| show_always v : shows vals defs (PAlways v) v
| show_map f p v : shows vals defs p v -> shows vals defs (PMap f p) (f v)
| show_dedupe eqb f p v a : shows vals defs p v -> a = v \/ eqb (fst (f a)) v = true ->
    shows vals defs (PDedupe eqb f p) (snd (f a))
| show_eq test out p v : shows vals defs p v -> shows vals defs (PEq test out p) (out (test v))
| show_ref f ps vs : all_show vals defs ps vs -> shows vals defs (PRef f ps) (f vs)
| show_child b f v : shows vals defs (defs b) v -> shows vals defs (PChild b f) (f v)
| show_switch f p a v : shows vals defs p a -> shows vals defs (f a) v -> shows vals defs (PSwitch f p) v
with all_show {V : Type} (vals : nat -> V) (defs : nat -> pipe V) : pipes V -> list V -> Prop :=
| show_nil : all_show vals defs PNil []
| show_cons p ps v vs : shows vals defs p v -> all_show vals defs ps vs -> all_show vals defs (PCons p ps) (v :: vs).

(** The contents of the Mutables, the inputs of the Broadcasters. *)
Definition contents {V : Type} (w : world V) (m : nat) : V := u_value (w_mu w m).
Definition inputs {V : Type} (w : world V) (b : nat) : pipe V := pipe_of (b_signal (w_bc w b)).

(** The executor has nothing to do. *)
Definition idle {V : Type} (w : world V) : Prop :=
  forall t, t < w_nt w -> match t_pc (w_task w t) with
                          | TSleep | TFut => t_woken (w_task w t) = false
                          | TRun | TCall => False
                          | TDone | TGone | TPanic => True
                          end.
