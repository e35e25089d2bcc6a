(** Properties of chain (C12, parts of C23 and C24). *)
From Verif Require Import Base Spec VecDiff VecSpec Slot Chain ChainFacts.

(** C12, C24. Nothing panics; at every moment the output can be applied; whenever chain answers
    Pending or ends, it is the left contents followed by the right contents, and before that the
    diffs still queued inside chain lead exactly there. No source is polled after its end, and
    chain ends only when both sources have, at the first poll that has nothing else to say. *)
Theorem C12_C24_chain : forall A (left right : list (poll (option (vecdiff A)))),
  good_vec_script left -> good_vec_script right -> forall n, exists st outs L R shown,
    run chain_poll n (chain_init left right) = Some (st, outs)
    /\ conveyed (snd (ch_left st)) = Some L /\ conveyed (snd (ch_right st)) = Some R
    /\ replay (yielded outs) = Some shown
    /\ (last_out outs Pending \/ last_out outs (Ready None) -> shown = L ++ R)
    /\ apply_all apply_to_vec shown (ch_pending st) = Some (L ++ R)
    /\ obeys_end (past (snd (ch_left st))) /\ obeys_end (past (snd (ch_right st)))
    /\ (last_out outs (Ready None) -> ended (snd (ch_left st)) /\ ended (snd (ch_right st)))
    /\ (last_out outs Pending -> ~ (ended (snd (ch_left st)) /\ ended (snd (ch_right st)))).
Proof. exact @chain_mirror. Qed.
Print Assumptions C12_C24_chain.

Definition ex_chain_left : list (poll (option (vecdiff nat))) :=
  [Ready (Some (Push 1)); Ready (Some (Push 2)); Pending; Ready (Some (Replace [3; 4])); Pending;
   Ready (Some Pop); Ready (Some Clear); Ready None].
Definition ex_chain_right : list (poll (option (vecdiff nat))) :=
  [Ready (Some (Replace [7; 8])); Ready (Some (InsertAt 1 9)); Pending; Ready (Some (Move 0 2)); Pending;
   Ready (Some (Replace [5; 6])); Pending; Ready None].

Example C12_C24_chain_ex : good_vec_script ex_chain_left /\ good_vec_script ex_chain_right
  /\ (exists st outs, run chain_poll 30 (chain_init ex_chain_left ex_chain_right) = Some (st, outs)
      /\ last_out outs (Ready None) /\ replay (yielded outs) = Some [5; 6])
  /\ (exists st outs, run chain_poll 10 (chain_init ex_chain_left ex_chain_right) = Some (st, outs)
      /\ last_out outs Pending /\ replay (yielded outs) = Some [3; 4; 7; 9; 8]).
Proof.
  split; [vm_compute; discriminate|]. split; [vm_compute; discriminate|].
  split; vm_compute; do 2 eexists; (split; [reflexivity|]; split; [|reflexivity]);
  match goal with |- exists p, ?l = _ => exists (removelast l) end; reflexivity.
Qed.

(** C23 is violated by chain: the right source clears (or replaces by nothing) what was empty while
    the left side is not empty. chain answers Pending although the right source has not ended and
    its last answer was a diff: it holds no waker, and here the left source has ended. *)
Theorem C23_chain_refuted : exists left right : list (poll (option (vecdiff nat))),
  good_vec_script left /\ good_vec_script right /\ exists n st outs st',
    run chain_poll n (chain_init left right) = Some (st, outs) /\ ~ In (Ready None) outs
    /\ chain_poll st = Some (st', Pending)
    /\ ended (snd (ch_left st')) /\ ~ ended (snd (ch_right st')) /\ ~ awaits (snd (ch_right st')).
Proof.
  exists [Ready (Some (Replace [1])); Ready None], [Pending; Ready (Some (Replace [])); Ready None].
  split; [vm_compute; discriminate|]. split; [vm_compute; discriminate|]. exists 1.
  vm_compute. do 3 eexists. split; [reflexivity|]. split; [intros [H|[]]; discriminate|].
  split; [reflexivity|]. split; [auto|]. split.
  - intros [H|[H|[]]]; discriminate.
  - intros [p H]. destruct p as [|x [|y [|z p]]]; discriminate.
Qed.
Print Assumptions C23_chain_refuted.

(** The same on the left: Clear of an empty left side while the right side is not empty. *)
Theorem C23_chain_left_refuted : exists left right : list (poll (option (vecdiff nat))),
  good_vec_script left /\ good_vec_script right /\ exists n st outs st',
    run chain_poll n (chain_init left right) = Some (st, outs) /\ ~ In (Ready None) outs
    /\ chain_poll st = Some (st', Pending)
    /\ ended (snd (ch_right st')) /\ ~ ended (snd (ch_left st')) /\ ~ awaits (snd (ch_left st')).
Proof.
  exists [Pending; Ready (Some Clear); Ready None], [Ready (Some (Replace [1])); Ready None].
  split; [vm_compute; discriminate|]. split; [vm_compute; discriminate|]. exists 1.
  vm_compute. do 3 eexists. split; [reflexivity|]. split; [intros [H|[]]; discriminate|].
  split; [reflexivity|]. split; [auto|]. split.
  - intros [H|[H|[]]]; discriminate.
  - intros [p H]. destruct p as [|x [|y [|z p]]]; discriminate.
Qed.
Print Assumptions C23_chain_left_refuted.

(** C23, for sources that never empty what is empty: when chain answers Pending, each source has
    ended, or was polled in that very poll and answered Pending last. *)
Theorem C23_chain_partial : forall A (left right : list (poll (option (vecdiff A)))),
  good_vec_script left -> good_vec_script right ->
  never_empties_empty (yielded left) -> never_empties_empty (yielded right) -> forall n st outs st',
    run chain_poll n (chain_init left right) = Some (st, outs) -> ~ In (Ready None) outs ->
    chain_poll st = Some (st', Pending) ->
    listening (snd (ch_left st)) (snd (ch_left st')) /\ listening (snd (ch_right st)) (snd (ch_right st')).
Proof. exact @chain_wakes. Qed.
Print Assumptions C23_chain_partial.

Example C23_chain_partial_ex :
  never_empties_empty (yielded ex_chain_left) /\ never_empties_empty (yielded ex_chain_right)
  /\ exists st outs st', run chain_poll 9 (chain_init ex_chain_left ex_chain_right) = Some (st, outs)
     /\ chain_poll st = Some (st', Pending).
Proof.
  split; [|split; [|vm_compute; do 3 eexists; split; reflexivity]];
  intros pre d post E Hr; simpl in E;
  repeat (destruct pre as [|? pre]; [injection E as <- _; first [split; discriminate|vm_compute in Hr; discriminate]|
    injection E as <- E; try (apply (f_equal (@length _)) in E; simpl in E; rewrite app_length in E; simpl in E; lia)]);
  try discriminate E; destruct pre; discriminate E.
Qed.
