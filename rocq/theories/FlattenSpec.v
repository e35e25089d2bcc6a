(** The words of the exact account of flatten (C13). *)
From Verif Require Import Base Spec VecDiff VecSpec Slot Flatten.

(** A Replace or Clear. *)
Definition resets {K} (d : vecdiff K) : bool := match d with Replace _ | Clear => true | _ => false end.
(** The contents of an inner SignalVec that was not polled yet. *)
Definition no_items {K A} (k : K) : list A := [].
(** What an inner SignalVec of flatten has said so far amounts to the list [l]. *)
Definition holds {K A} (f : fstate K A) (l : list A) : Prop := conveyed (snd (fv_signal_vec f)) = Some l.

Section Words.
  Context {K A : Type} (inner_of : K -> list (poll (option (vecdiff A)))) (outer : list (poll (option (vecdiff K)))).

  (** One poll of flatten, with the diffs which the outer SignalVec yields in it. *)
  Definition polls (st st' : flatten_state K A) (o : poll (option (vecdiff A))) (new : list (vecdiff K)) : Prop :=
    flatten_vec_poll inner_of st = Some (st', o)
    /\ yielded (past (snd (fla_signal st'))) = yielded (past (snd (fla_signal st))) ++ new.

  (** The diffs which the outer SignalVec yields in the poll after the first [n] ones leave the
      concatenation of the contents of the inner SignalVecs as it is (no Replace or Clear is
      among them): an inner SignalVec which is removed, overwritten or popped is empty, one
      which is moved goes past empty ones only. *)
  Definition harmless (n : nat) : Prop := forall st outs st' o new ls ls1,
    run (flatten_vec_poll inner_of) n (flatten_vec_init outer) = Some (st, outs) -> polls st st' o new -> existsb resets new = false ->
    Forall2 holds (fla_inner st) ls -> carried no_items new ls = Some ls1 -> concat ls1 = concat ls.

  (** A Replace or Clear of the outer SignalVec arrives in the poll after the first [n] ones. *)
  Definition reset_at (n : nat) : Prop := exists st outs st' o new,
    run (flatten_vec_poll inner_of) n (flatten_vec_init outer) = Some (st, outs) /\ ~ In (Ready None) outs /\ polls st st' o new
    /\ existsb resets new = true.

  (** Nothing is wrong after [n] polls: inner SignalVecs which ever say something are not removed
      or moved one by one at all; or, since the beginning or since a Replace or Clear, not while
      it matters. *)
  Definition flatten_fine (n : nat) : Prop :=
    touches_only (fun k => yielded (inner_of k) = []) (yielded outer)
    \/ exists from, (from = 0 \/ exists m, from = S m /\ reset_at m) /\ from <= n /\ forall m, from <= m < n -> harmless m.
End Words.
