(** filter_signal_cloned in terms of the values which the signals have when the source moves an
    element (C15). *)
From Verif Require Import Base Spec VecDiff VecSpec Slot ElemSignal FilterSignalSpec FilterSignalStep FilterSignalBad.

(** One poll with nothing queued from earlier ones: if the backward Moves which arrive in it are
    harmless, then what is output and queued leads from the elements that were accepted to those
    that are accepted now. *)
Theorem C15_filter_signal_poll_partial : forall K (inner_of : K -> list (poll (option bool))),
  (forall k, has_initial (inner_of k)) -> forall source, good_vec_script source -> forall n st outs,
    run (filter_signal_poll inner_of) n (filter_signal_init source) = Some (st, outs) -> fis_pending st = [] ->
    forall st' o, filter_signal_poll inner_of st = Some (st', o) -> exists new,
      fs_polls inner_of st st' o new
      /\ (moves_well inner_of (marks st) new ->
          apply_all apply_to_vec (accepted (marks st)) (yielded [o] ++ fis_pending st') = Some (accepted (marks st'))).
Proof. exact @fs_poll_exact. Qed.
Print Assumptions C15_filter_signal_poll_partial.

(** C15 as long as every backward Move arrives when it is harmless: either the signal of the
    moved element is false at that point, or that of the element directly before it is true at
    that point. Before and after that the signals may change as they like. Missing from C15: the
    other backward Moves (C15_filter_signal_refuted). *)
Theorem C15_filter_signal_moves_partial : forall K (inner_of : K -> list (poll (option bool))),
  (forall k, has_initial (inner_of k)) -> forall source, good_vec_script source -> forall n,
    (forall m, m < n -> forall st outs st' o new,
       run (filter_signal_poll inner_of) m (filter_signal_init source) = Some (st, outs) ->
       fs_polls inner_of st st' o new -> moves_well inner_of (marks st) new) ->
    exists st outs shown,
      run (filter_signal_poll inner_of) n (filter_signal_init source) = Some (st, outs)
      /\ conveyed (snd (fis_signal st)) = Some (map fst (marks st))
      /\ replay (yielded outs) = Some shown
      /\ (last_out outs Pending \/ last_out outs (Ready None) -> shown = accepted (marks st))
      /\ apply_all apply_to_vec shown (fis_pending st) = Some (accepted (marks st)).
Proof. exact @fs_mirror. Qed.
Print Assumptions C15_filter_signal_moves_partial.

(** The signal of 1 becomes true before 2 is moved back over 1, and false again afterwards. *)
Definition ex_flag (k : nat) : list (poll (option bool)) :=
  match k with
  | 1 => [Ready (Some false); Pending; Ready (Some true); Pending; Pending; Ready (Some false)]
  | 3 => [Ready (Some true); Pending; Pending; Ready (Some false)]
  | _ => [Ready (Some true); Ready None]
  end.
Definition ex_moves : list (poll (option (vecdiff nat))) :=
  [Ready (Some (Replace [0; 1; 2; 3])); Pending; Pending; Ready (Some (Move 2 0)); Pending; Ready (Some (Push 4)); Pending; Pending].

Example C15_filter_signal_moves_ex : (forall k, has_initial (ex_flag k)) /\ good_vec_script ex_moves
  /\ (forall m, m < 8 -> forall st outs st' o new,
       run (filter_signal_poll ex_flag) m (filter_signal_init ex_moves) = Some (st, outs) ->
       fs_polls ex_flag st st' o new -> moves_well ex_flag (marks st) new)
  /\ exists st outs, run (filter_signal_poll ex_flag) 8 (filter_signal_init ex_moves) = Some (st, outs)
     /\ last_out outs Pending /\ map fst (marks st) = [2; 0; 1; 3; 4] /\ replay (yielded outs) = Some [2; 0; 4].
Proof.
  split; [intros [|[|[|[|k]]]]; do 2 eexists; reflexivity|]. split; [vm_compute; discriminate|]. split.
  - intros m Hm. do 8 (destruct m as [|m]; [apply moves_check; vm_compute; tauto|]). lia.
  - vm_compute. do 2 eexists. split; [reflexivity|]. split; [|split; reflexivity].
    match goal with |- exists p, ?l = _ => exists (removelast l) end. reflexivity.
Qed.

(** The condition is exactly what is needed: a backward Move of an element whose signal is true
    from directly behind one whose signal is false always makes the output wrong, if the accepted
    values are distinct, everything before it was right, and no signal changes afterwards. *)
Theorem C15_filter_signal_bad_move : forall K (inner_of : K -> list (poll (option bool))),
  (forall k, has_initial (inner_of k)) -> forall source, good_vec_script source -> forall n st outs,
    run (filter_signal_poll inner_of) n (filter_signal_init source) = Some (st, outs) -> fis_pending st = [] ->
    forall pre o i st' r ms x y, fs_polls inner_of st st' r (pre ++ [Move o i]) -> moves_well inner_of (marks st) pre ->
      carried (arrived inner_of) pre (marks st) = Some ms -> NoDup (accepted ms) ->
      i < o -> nth_error ms o = Some x -> nth_error ms (o - 1) = Some y -> snd x = Some true -> snd y = Some false ->
      carried (arrived inner_of) (pre ++ [Move o i]) (marks st) = Some (marks st') ->
      apply_all apply_to_vec (accepted (marks st)) (yielded [r] ++ fis_pending st') <> Some (accepted (marks st')).
Proof. exact @fs_bad_move. Qed.
Print Assumptions C15_filter_signal_bad_move.

Example C15_filter_signal_bad_move_ex :
  let source := [Ready (Some (Replace [0; 1; 2])); Ready (Some (Push 4)); Ready (Some (Move 2 0))] in
  let pre := [Replace [0; 1; 2]; Push 4] in
  good_vec_script source
  /\ exists st st' r ms, run (filter_signal_poll ex_flag) 0 (filter_signal_init source) = Some (st, []) /\ fis_pending st = []
     /\ fs_polls ex_flag st st' r (pre ++ [Move 2 0]) /\ moves_well ex_flag (marks st) pre
     /\ carried (arrived ex_flag) pre (marks st) = Some ms /\ NoDup (accepted ms)
     /\ nth_error ms 2 = Some (2, Some true) /\ nth_error ms 1 = Some (1, Some false)
     /\ carried (arrived ex_flag) (pre ++ [Move 2 0]) (marks st) = Some (marks st') /\ accepted (marks st') = [2; 0; 4].
Proof.
  split; [vm_compute; discriminate|]. do 4 eexists. split; [vm_compute; reflexivity|]. split; [reflexivity|].
  split; [split; vm_compute; reflexivity|]. split; [apply moves_fine_well; vm_compute; auto|].
  split; [vm_compute; reflexivity|]. split; [repeat constructor; cbn; intuition discriminate|]. repeat split.
Qed.
