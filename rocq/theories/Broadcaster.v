(** src/signal/broadcaster.rs as an interleaving model: any number of children, each polled by any
    thread, and any number of calls of the notifier's waker, by the input signal while it is polled
    or by anybody else at any time. The input signal is arbitrary: the move that lets its poll
    return chooses the answer. Each access of [is_changed], each lock and unlock of [wakers] and of
    [inner], and each critical section of a child's ChangedWaker (one access of the Option<Waker>,
    mutable.rs 28-46) is one step. [usize] is unbounded: the epoch does not wrap. *)
From Verif Require Import Base Spec Conc.

(** A child in poll_change (180-199), just before:
    - [KSwap]: is_changed.swap (46, called in 129);
    - [KWLock]: inner.write() (130);
    - [KIn changed]: the answer of the input (87), [changed] as in 83;
    - [KRLock]: inner.read() (137);
    - [KLook w]: the closure (183-198) under the lock, a write lock if [w];
    - [KSet w]: waker.set_waker (190);
    - [KRet w r]: the unlock, and return of [r];
    [KIdle]: between polls. [KPanic]: the unwrap (196) failed. *)
Inductive kid_pc (B : Type) :=
| KIdle | KSwap | KWLock | KIn (changed : bool) | KRLock | KLook (w : bool) | KSet (w : bool)
| KRet (w : bool) (r : poll (option B)) | KPanic.
Arguments KIdle {B}. Arguments KSwap {B}. Arguments KWLock {B}. Arguments KIn {B} changed. Arguments KRLock {B}.
Arguments KLook {B} w. Arguments KSet {B} w. Arguments KRet {B} w r. Arguments KPanic {B}.

(** A child (158-162), with the function it outputs the value through ([signal_ref]; for [signal] and
    [signal_cloned] the identity), and [wk] the Option<Waker> in its ChangedWaker. A waker is the
    number of its task. Ghost: [alive]: not yet dropped; [task]: who polled last; [hist]: the answers,
    each with the number of answers that the input had given when the child looked; [woken]: that task
    was woken after the last poll started; [raced]: during the last poll, after its swap, some call
    of the waker set [is_changed], or the poll got the lock while some other child, which had
    already swapped [is_changed] from true to false, still had to get it. *)
Record kid (A B : Type) := mkKid {
  k_fn : A -> B; k_epoch : nat; k_wk : option nat; k_pc : kid_pc B;
  k_alive : bool; k_task : nat; k_hist : list (nat * poll (option B)); k_woken : bool; k_raced : bool }.
Arguments mkKid {A B}.
Arguments k_fn {A B} _. Arguments k_epoch {A B} _. Arguments k_wk {A B} _. Arguments k_pc {A B} _.
Arguments k_alive {A B} _. Arguments k_task {A B} _. Arguments k_hist {A B} _. Arguments k_woken {A B} _.
Arguments k_raced {A B} _.

(** A call of notify (28-43), just before: lock 29, store 31, upgrade 35 of the first of [todo] (or the
    unlock, when [todo] is empty), the critical section of wake(false) for child [c], the wake of the
    task [t]; [kept] is what retain has kept so far. [NDone]: returned. *)
Inductive note_pc :=
| NLock | NStore | NVisit (kept todo : list nat) | NTake (kept : list nat) (c : nat) (todo : list nat)
| NWake (t : nat) (kept : list nat) (c : nat) (todo : list nat) | NDone.

(** [changed]: is_changed; [wakers]: the children in the notifier's list, [wlock]: its mutex is taken;
    [live]: [signal] is Some; [value], [epoch]: as in 61-67; [writer], [readers]: which
    children hold the RwLock;
    [kids], [n]: the children made so far; [notes]: the calls of the waker. Ghost: [log]: the input's
    answers; [dirty]: [is_changed] was set after the input was last asked for an answer (initially
    it was never asked). *)
Record bc_st (A B : Type) := mkBc {
  b_changed : bool; b_wakers : list nat; b_wlock : bool;
  b_live : bool; b_value : option A; b_epoch : nat; b_writer : option nat; b_readers : list nat;
  b_n : nat; b_kids : nat -> kid A B; b_notes : list note_pc;
  b_log : list (poll (option A)); b_dirty : bool }.
Arguments mkBc {A B}.
Arguments b_changed {A B} _. Arguments b_wakers {A B} _. Arguments b_wlock {A B} _. Arguments b_live {A B} _.
Arguments b_value {A B} _. Arguments b_epoch {A B} _. Arguments b_writer {A B} _. Arguments b_readers {A B} _.
Arguments b_n {A B} _. Arguments b_kids {A B} _. Arguments b_notes {A B} _. Arguments b_log {A B} _. Arguments b_dirty {A B} _.

(** 21-26, 70-77, 118-126: Broadcaster::new. The child of the function [f0] stands for the children not yet made. *)
Definition bc_init {A B} (f0 : A -> B) : bc_st A B :=
  mkBc true [] false true None 0 None [] 0 (fun _ => mkKid f0 0 None KIdle false 0 [] false false) [] [] true.

Inductive bc_move (A B : Type) :=
| BNew (f : A -> B)             (* make a child *)
| BDrop (i : nat)               (* drop child i *)
| BPoll (i t : nat)             (* task t starts a poll of child i *)
| BStep (i : nat)               (* one step of that poll *)
| BIn (i : nat) (r : poll (option A))  (* the input, polled by child i, returns r *)
| BNotify                       (* somebody calls the waker *)
| BNote (j : nat).              (* one step of call j *)
Arguments BNew {A B} f. Arguments BDrop {A B} i. Arguments BPoll {A B} i t. Arguments BStep {A B} i.
Arguments BIn {A B} i r. Arguments BNotify {A B}. Arguments BNote {A B} j.

Section Steps.
Context {A B : Type}.
Implicit Types (s : bc_st A B) (k : kid A B).

Definition k_goto k p := mkKid (k_fn k) (k_epoch k) (k_wk k) p (k_alive k) (k_task k) (k_hist k) (k_woken k) (k_raced k).
Definition k_setwk k w := mkKid (k_fn k) (k_epoch k) w (k_pc k) (k_alive k) (k_task k) (k_hist k) (k_woken k) (k_raced k).
Definition k_setepoch k e := mkKid (k_fn k) e (k_wk k) (k_pc k) (k_alive k) (k_task k) (k_hist k) (k_woken k) (k_raced k).
Definition k_drop k := mkKid (k_fn k) (k_epoch k) (k_wk k) (k_pc k) false (k_task k) (k_hist k) (k_woken k) (k_raced k).
Definition k_start k t := mkKid (k_fn k) (k_epoch k) (k_wk k) KSwap (k_alive k) t (k_hist k) false false.
Definition k_log k e := mkKid (k_fn k) (k_epoch k) (k_wk k) (k_pc k) (k_alive k) (k_task k) (k_hist k ++ [e]) (k_woken k) (k_raced k).
Definition k_wake t k := mkKid (k_fn k) (k_epoch k) (k_wk k) (k_pc k) (k_alive k) (k_task k) (k_hist k)
  (k_woken k || (k_task k =? t)) (k_raced k).
Definition k_race (b : bool) k := mkKid (k_fn k) (k_epoch k) (k_wk k) (k_pc k) (k_alive k) (k_task k) (k_hist k) (k_woken k)
  (k_raced k || b).

Definition set_kids s (f : nat -> kid A B) := mkBc (b_changed s) (b_wakers s) (b_wlock s) (b_live s) (b_value s) (b_epoch s) (b_writer s) (b_readers s)
  (b_n s) f (b_notes s) (b_log s) (b_dirty s).
Definition set_kid s i k := set_kids s (fupd i k (b_kids s)).
Definition set_changed s b := mkBc b (b_wakers s) (b_wlock s) (b_live s) (b_value s) (b_epoch s) (b_writer s) (b_readers s)
  (b_n s) (b_kids s) (b_notes s) (b_log s) (b_dirty s).
Definition set_wakers s l b := mkBc (b_changed s) l b (b_live s) (b_value s) (b_epoch s) (b_writer s) (b_readers s)
  (b_n s) (b_kids s) (b_notes s) (b_log s) (b_dirty s).
Definition set_rw s w r := mkBc (b_changed s) (b_wakers s) (b_wlock s) (b_live s) (b_value s) (b_epoch s) w r
  (b_n s) (b_kids s) (b_notes s) (b_log s) (b_dirty s).
Definition set_n s n := mkBc (b_changed s) (b_wakers s) (b_wlock s) (b_live s) (b_value s) (b_epoch s) (b_writer s) (b_readers s)
  n (b_kids s) (b_notes s) (b_log s) (b_dirty s).
Definition set_notes s l := mkBc (b_changed s) (b_wakers s) (b_wlock s) (b_live s) (b_value s) (b_epoch s) (b_writer s) (b_readers s)
  (b_n s) (b_kids s) l (b_log s) (b_dirty s).
Definition set_inner s live v e := mkBc (b_changed s) (b_wakers s) (b_wlock s) live v e (b_writer s) (b_readers s)
  (b_n s) (b_kids s) (b_notes s) (b_log s) (b_dirty s).
Definition set_dirty s d := mkBc (b_changed s) (b_wakers s) (b_wlock s) (b_live s) (b_value s) (b_epoch s) (b_writer s) (b_readers s)
  (b_n s) (b_kids s) (b_notes s) (b_log s) d.
Definition log_in s r := mkBc (b_changed s) (b_wakers s) (b_wlock s) (b_live s) (b_value s) (b_epoch s) (b_writer s) (b_readers s)
  (b_n s) (b_kids s) (b_notes s) (b_log s ++ [r]) (b_dirty s).

(** A child that has swapped [is_changed] to false and has yet to get the write lock. *)
Definition k_waits k : bool := match k_pc k with KWLock => true | _ => false end.
(** A child that has swapped [is_changed] and has not returned. *)
Definition k_busy k : bool := match k_pc k with KIdle | KSwap | KPanic => false | _ => true end.
Definition other_waits s i : bool := existsb (fun j => negb (j =? i) && k_waits (b_kids s j)) (seq 0 (b_n s)).

(** The RwLock can be taken for writing, for reading. *)
Definition free_w s : bool := match b_writer s, b_readers s with None, [] => true | _, _ => false end.
Definition free_r s : bool := match b_writer s with None => true | _ => false end.

(** One step of the poll of child [i]. *)
Definition kid_step s i : option (bc_st A B) :=
  let k := b_kids s i in
  match k_pc k with
  | KSwap => if b_changed s then Some (set_kid (set_changed s false) i (k_goto k KWLock))
             else Some (set_kid s i (k_goto k KRLock))
  | KWLock =>
      if free_w s then
        let s1 := set_rw s (Some i) [] in
        let k1 := k_race (other_waits s i) k in
        (* 80: the input is asked for an answer if it has not ended *)
        if b_live s then Some (set_dirty (set_kid s1 i (k_goto k1 (KIn false))) false)
        else Some (set_kid s1 i (k_goto k1 (KLook true)))
      else None
  | KRLock =>
      if free_r s then
        Some (set_kid (set_rw s None (i :: b_readers s)) i (k_goto (k_race (other_waits s i) k) (KLook false)))
      else None
  | KLook w =>
      if b_epoch s =? k_epoch k then
        if b_live s then Some (set_kid s i (k_goto k (KSet w)))
        else Some (set_kid s i (k_goto (k_log k (length (b_log s), Ready None)) (KRet w (Ready None))))
      else
        match b_value s with
        | Some v =>
            let r := Ready (Some (k_fn k v)) in
            Some (set_kid s i (k_goto (k_log (k_setepoch k (b_epoch s)) (length (b_log s), r)) (KRet w r)))
        | None => Some (set_kid s i (k_goto k KPanic))
        end
  | KSet w =>
      Some (set_kid s i (k_goto (k_log (k_setwk k (Some (k_task k))) (length (b_log s), Pending)) (KRet w Pending)))
  | KRet w _ =>
      let s1 := if w then set_rw s None (b_readers s) else set_rw s (b_writer s) (remove Nat.eq_dec i (b_readers s)) in
      Some (set_kid s1 i (k_goto k KIdle))
  | KIdle | KIn _ | KPanic => None
  end.

(** The input answers child [i] (85-105). After a value it is asked again. *)
Definition in_step s i (r : poll (option A)) : option (bc_st A B) :=
  let k := b_kids s i in
  match k_pc k with
  | KIn ch =>
      let s1 := log_in s r in
      let bump := if ch then S (b_epoch s) else b_epoch s in
      match r with
      | Ready (Some v) => Some (set_dirty (set_kid (set_inner s1 (b_live s) (Some v) (b_epoch s)) i (k_goto k (KIn true))) false)
      | Ready None => Some (set_kid (set_inner s1 false (b_value s) bump) i (k_goto k (KLook true)))
      | Pending => Some (set_kid (set_inner s1 (b_live s) (b_value s) bump) i (k_goto k (KLook true)))
      end
  | _ => None
  end.

(** One step of call [j] of the waker. *)
Definition note_step s j : option (bc_st A B) :=
  let? p := nth_error (b_notes s) j in
  let go s1 q := set_notes s1 (lupd j q (b_notes s)) in
  match p with
  | NLock => if b_wlock s then None else Some (go (set_wakers s (b_wakers s) true) NStore)
  | NStore =>
      let s1 := set_dirty (set_changed s true) true in
      Some (go (set_kids s1 (fun i => k_race (k_busy (b_kids s i)) (b_kids s i))) (NVisit [] (b_wakers s)))
  | NVisit kept [] => Some (go (set_wakers s kept false) NDone)
  | NVisit kept (c :: todo) =>
      if k_alive (b_kids s c) then Some (go s (NTake kept c todo)) else Some (go s (NVisit kept todo))
  | NTake kept c todo =>
      match k_wk (b_kids s c) with
      | Some t => Some (go (set_kid s c (k_setwk (b_kids s c) None)) (NWake t kept c todo))
      | None => Some (go s (NVisit (kept ++ [c]) todo))
      end
  | NWake t kept c todo =>
      Some (go (set_kids s (fun i => k_wake t (b_kids s i))) (NVisit (kept ++ [c]) todo))
  | NDone => None
  end.

Definition bc_step s (m : bc_move A B) : option (bc_st A B) :=
  match m with
  | BNew f =>
      (* 165-178: the lock, push and unlock are one step *)
      if b_wlock s then None
      else Some (set_n (set_kid (set_wakers s (b_wakers s ++ [b_n s]) false) (b_n s)
                          (mkKid f 0 None KIdle true 0 [] false false)) (S (b_n s)))
  | BDrop i =>
      if (i <? b_n s) && k_alive (b_kids s i) then
        match k_pc (b_kids s i) with KIdle | KPanic => Some (set_kid s i (k_drop (b_kids s i))) | _ => None end
      else None
  | BPoll i t =>
      if (i <? b_n s) && k_alive (b_kids s i) then
        match k_pc (b_kids s i) with KIdle => Some (set_kid s i (k_start (b_kids s i) t)) | _ => None end
      else None
  | BStep i => if i <? b_n s then kid_step s i else None
  | BIn i r => if i <? b_n s then in_step s i r else None
  | BNotify => Some (set_notes s (b_notes s ++ [NLock]))
  | BNote j => note_step s j
  end.

(** ** Specification *)

Definition has_end (l : list (poll (option A))) : bool :=
  existsb (fun r => match r with Ready None => true | _ => false end) l.

(** The answers of a child, against the answers of the input. [hist] lists the child's answers, each
    with the number of answers the input had given by then. [follows f log m y hist]: the last answer was
    given after [m] answers of the input, and [y] values of the input came before the last output.
    - an output is [f] of the most recent value of the input, and that value is new;
    - Pending: the last output was made from the most recent value, and the input has not ended;
    - the end: the last output was made from the most recent value, and the input has ended. *)
Inductive follows (f : A -> B) (log : list (poll (option A))) : nat -> nat -> list (nat * poll (option B)) -> Prop :=
| fo_nil m : follows f log m 0 []
| fo_out m y hist n v : follows f log m y hist -> m <= n <= length log ->
    latest_of (firstn n log) = Some v -> y < length (yielded (firstn n log)) ->
    follows f log n (length (yielded (firstn n log))) (hist ++ [(n, Ready (Some (f v)))])
| fo_pending m y hist n : follows f log m y hist -> m <= n <= length log ->
    y = length (yielded (firstn n log)) -> has_end (firstn n log) = false ->
    follows f log n y (hist ++ [(n, Pending)])
| fo_end m y hist n : follows f log m y hist -> m <= n <= length log ->
    y = length (yielded (firstn n log)) -> has_end (firstn n log) = true ->
    follows f log n y (hist ++ [(n, Ready None)]).

(** The answers of a child. *)
Definition k_ans k : list (poll (option B)) := map snd (k_hist k).

(** The last poll returned Pending. *)
Definition k_waiting k : Prop := k_pc k = KIdle /\ exists l, k_ans k = l ++ [Pending].

(** No poll and no call of the waker is in progress. *)
Definition bc_idle s : Prop :=
  (forall i, i < b_n s -> k_pc (b_kids s i) = KIdle) /\ (forall j p, nth_error (b_notes s) j = Some p -> p = NDone).

(** The same, to be computed. *)
Definition bc_idleb s : bool :=
  forallb (fun i => match k_pc (b_kids s i) with KIdle => true | _ => false end) (seq 0 (b_n s))
  && forallb (fun p => match p with NDone => true | _ => false end) (b_notes s).

(** A move of the poll of child [i]; or such a move, or a call of the waker. *)
Definition of_kid (i : nat) (m : bc_move A B) : bool := match m with BStep j | BIn j _ => j =? i | _ => false end.
Definition of_kid_or_note (i : nat) (m : bc_move A B) : bool :=
  match m with BStep j | BIn j _ => j =? i | BNotify | BNote _ => true | _ => false end.

(** Neither the start of a poll of child [x] nor its drop. *)
Definition not_of (x : nat) (m : bc_move A B) : bool :=
  match m with BPoll i _ | BDrop i => negb (i =? x) | _ => true end.

(** The input was asked until it had no more to say. *)
Definition asks (log0 log : list (poll (option A))) : Prop :=
  exists vs r, log = log0 ++ map (fun a => Ready (Some a)) vs ++ [r] /\ (r = Pending \/ r = Ready None).

(** One thing at a time: nothing starts while a poll or a call of the waker is in progress. So the
    input does not call the waker while it is polled. *)
Definition bc_step_alone s (m : bc_move A B) : option (bc_st A B) :=
  match m with
  | BStep _ | BIn _ _ | BNote _ => bc_step s m
  | _ => if bc_idleb s then bc_step s m else None
  end.
End Steps.
