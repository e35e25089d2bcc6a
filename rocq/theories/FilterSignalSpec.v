(** The words of the account of filter_signal_cloned in terms of the current values of the
    signals (C15). *)
From Verif Require Import Base Spec VecDiff VecSpec Slot ElemSignal.

Section Words.
  Context {K : Type} (inner_of : K -> list (poll (option bool))) (source : list (poll (option (vecdiff K)))).

  (** The elements of the source, each with the most recent value of its signal. *)
  Definition marks (st : filter_signal_state K) : list (K * option bool) :=
    map (fun f => (fs_value f, latest (snd (fs_signal f)))) (fis_signals st).
  (** The values whose signal is true. *)
  Definition accepted (ms : list (K * option bool)) : list K :=
    map fst (filter (fun m => match snd m with Some b => b | None => false end) ms).
  (** An element that has just arrived, with the first value of its signal. *)
  Definition arrived (k : K) : K * option bool := (k, hd_error (yielded (inner_of k))).

  (** One poll of filter_signal_cloned, with the diffs which the source yields in it. *)
  Definition fs_polls (st st' : filter_signal_state K) (o : poll (option (vecdiff K))) (new : list (vecdiff K)) : Prop :=
    filter_signal_poll inner_of st = Some (st', o)
    /\ yielded (past (snd (fis_signal st'))) = yielded (past (snd (fis_signal st))) ++ new.

  (** If among these diffs there is a backward Move of an element whose signal is true at that
      point, then the signal of the element directly before it is true at that point too. *)
  Definition moves_well (ms : list (K * option bool)) (new : list (vecdiff K)) : Prop :=
    forall pre o n post ms1 x y, new = pre ++ Move o n :: post -> n < o -> carried arrived pre ms = Some ms1 ->
      nth_error ms1 o = Some x -> nth_error ms1 (o - 1) = Some y -> snd x = Some true -> snd y = Some true.

  (** Nothing is wrong after [n] polls: a backward Move moves an element whose signal is never
      true or passes one whose signal is always true; or it did when it arrived. *)
  Definition filter_fine (n : nat) : Prop :=
    backward_moves (fun x y => (forall b, In b (yielded (inner_of y)) -> b = true)
                               \/ (forall b, In b (yielded (inner_of x)) -> b = false)) (yielded source)
    \/ forall m, m < n -> forall st outs st' o new,
         run (filter_signal_poll inner_of) m (filter_signal_init source) = Some (st, outs) ->
         fs_polls st st' o new -> moves_well (marks st) new.
End Words.
