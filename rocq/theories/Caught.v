(** src/signal_vec.rs when a panic is caught while the MutableVecLockMut is still there: the guard is not dropped by the panic, so
    that the lock does not get poisoned and the MutableVec is used on. User code that can panic: the closure of retain, Clone
    implementations, wakers. *)
From Verif Require Import Base Spec VecDiff VecSpec MutVec MutVecSpec.

(** Vec::retain in 2922-2933 with a closure that may panic ([None]): what was rejected before is removed, the rest is still
    there. The boolean: it panicked. *)
Fixpoint retain_stop {A} (f : A -> option bool) (l : list A) : list A * bool :=
  match l with
  | [] => ([], false)
  | x :: r =>
      match f x with
      | None => (x :: r, true)
      | Some b => let '(kept, p) := retain_stop f r in (if b then x :: kept else kept, p)
      end
  end.

(** The loops 2834-2836 and 2855-2870 with a panic at sender number [n]: of clone (2864), or, if [sent], of the waker that
    unbounded_send calls after it has put the diff into the queue. Vec::retain keeps the senders that it has not got to. *)
Fixpoint send_stop {A} (d : vecdiff A) (n : nat) (sent : bool) (sn : list nat) (ss : list (sub A)) : list nat * list (sub A) :=
  match sn, n with
  | [], _ => ([], ss)
  | id :: _, 0 => (sn, if sent then fst (unbounded_send id d ss) else ss)
  | id :: rest, S n =>
      let '(ss1, ok) := unbounded_send id d ss in
      let '(sn2, ss2) := send_stop d n sent rest ss1 in
      (if ok then id :: sn2 else sn2, ss2)
  end.

(** - [KEvent e]: as in MutVec.v, with panics that are not caught;
    - [KOp o]: an operation whose panic is caught before the guard is dropped;
    - [KRetain f]: retain with a closure that may panic;
    - [KStop d n sent]: an operation that sends the one diff [d] (all but retain, drain, truncate, swap, reverse and extend), with such a panic
      at sender [n]. All of them change the contents first. The first clone (2851) comes before that: then nothing has happened. There is no
      clone for the last sender (2860) and none of the diffs without values, so that not all [n] with [sent = false] can happen: the theorems hold for
      all, and the refutations use such as can. *)
Inductive kevent (A : Type) := KEvent (e : event A) | KOp (o : op A) | KRetain (f : A -> option bool) | KStop (d : vecdiff A) (n : nat) (sent : bool).
Arguments KEvent {A} e. Arguments KOp {A} o. Arguments KRetain {A} f. Arguments KStop {A} d n sent.

Definition kstep {A} (e : kevent A) (st : mvec A) : mvec A :=
  let usable := (0 <? owners st) && negb (poisoned st) in
  match e with
  | KEvent e => mv_event e st
  | KOp o => if usable then match mv_op o st with Done st' _ => st' | Panic st' => st' end else st
  | KRetain f =>
      if usable then
        match retain_stop f (values st) with
        | (kept, true) => set_values kept st
        | (_, false) => mv_event (EOp (ORetain (fun x => match f x with Some b => b | None => true end))) st
        end
      else st
  | KStop d n sent =>
      if usable then
        match apply_to_vec d (values st) with
        | Some v => let '(sn, ss) := send_stop d n sent (senders st) (subs st) in mkVec v sn ss (owners st) (poisoned st)
        | None => st
        end
      else st
  end.

Definition krun {A} (es : list (kevent A)) (st : mvec A) : mvec A := fold_left (fun st e => kstep e st) es st.

(** An operation that loses element [a]. *)
Definition loses {A} (o : op A) (v : list A) (a : nat) : Prop :=
  exists b, (o = OMove a b \/ o = OSwap a b \/ o = OApply (Move a b)) /\ a < length v /\ length v <= b.
(** The closure rejects an element and then panics. *)
Definition half_way {A} (f : A -> option bool) (v : list A) : Prop :=
  exists p x r, v = p ++ x :: r /\ f x = None /\ (forall y, In y p -> f y <> None) /\ exists y, In y p /\ f y = Some false.

Definition harmful {A} (e : kevent A) (st : mvec A) : Prop :=
  match e with
  | KEvent _ => False
  | KOp o => exists a, loses o (values st) a
  | KRetain f => half_way f (values st)
  | KStop _ n _ => n < length (senders st)
  end.

(** The diff of an operation that says everything (signal_vec.rs 3037-3042, 3093-3097, 2907-2913, 3339-3341). *)
Definition says_all {A} (o : op A) (v : list A) : option (vecdiff A) :=
  match o with
  | OReplace vs | OReplaceCloned vs | OApply (Replace vs) => Some (Replace vs)
  | OClear | OApply Clear => match v with [] => None | _ => Some Clear end
  | _ => None
  end.
