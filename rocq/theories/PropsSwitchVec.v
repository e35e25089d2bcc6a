(** Properties of switch_signal_vec (C22), with its parts of C23 and C24. The closure makes the
    SignalVec [inner_of k a] for the value [a], when [k] others were made before.
    [made (swv_inner st)]: the inner SignalVecs made so far, each with the value it came from. *)
From Verif Require Import Base Spec VecDiff VecSpec Slot SigSlots SwitchVec SwitchVecFacts.

(** C22 is violated: contents of an earlier inner SignalVec can remain for ever. The outer signal
    ends with a value whose SignalVec ends at once. *)
Theorem C22_switch_signal_vec_refuted :
  exists (inner_of : nat -> nat -> list (poll (option (vecdiff nat)))) script st outs older a f shown,
    (forall k a, good_vec_script (inner_of k a))
    /\ run (switch_vec_poll inner_of) 9 (switch_vec_init script) = Some (st, outs)
    /\ last_out outs (Ready None)
    /\ made (swv_inner st) = older ++ [(a, f)]
    /\ replay (yielded outs) = Some shown /\ conveyed f <> Some shown.
Proof.
  exists (fun _ a => if a =? 1 then [Ready (Some (Push 5))] else [Ready None]),
    [Ready (Some 1); Pending; Ready (Some 2); Ready None].
  do 2 eexists. exists [(1, mkSrc [Ready (Some (Push 5))] [])]. do 3 eexists.
  split; [intros k a; destruct (a =? 1); vm_compute; discriminate|].
  split; [vm_compute; reflexivity|].
  split; [match goal with |- last_out ?l _ => exists (removelast l) end; reflexivity|].
  split; [vm_compute; reflexivity|]. split; [vm_compute; reflexivity|]. vm_compute. discriminate.
Qed.
Print Assumptions C22_switch_signal_vec_refuted.

(** C22 in all other cases: nothing panics, the newest inner SignalVec was made from the latest
    value of the outer signal, and after every poll the output consists of exactly the contents
    of that inner SignalVec, unless the output has ended and the inner SignalVec ended at its
    first poll. *)
Theorem C22_switch_signal_vec_partial : forall A B (inner_of : nat -> A -> list (poll (option (vecdiff B)))) script,
  (forall k a, good_vec_script (inner_of k a)) -> forall n, exists st outs shown,
    run (switch_vec_poll inner_of) n (switch_vec_init script) = Some (st, outs)
    /\ replay (yielded outs) = Some shown
    /\ (made (swv_inner st) = [] -> yielded (past (snd (swv_signal st))) = [] /\ shown = [])
    /\ forall older a f, made (swv_inner st) = older ++ [(a, f)] ->
         latest (snd (swv_signal st)) = Some a /\ plays (inner_of (length older) a) f
         /\ ((last_out outs (Ready None) -> past f <> [Ready None]) -> conveyed f = Some shown).
Proof. exact @switch_vec_mirror. Qed.
Print Assumptions C22_switch_signal_vec_partial.

(** C24: no source is polled after its end; switch_signal_vec ends only when the outer signal and
    the newest inner SignalVec have ended, and then it does not answer Pending. *)
Theorem C24_switch_signal_vec : forall A B (inner_of : nat -> A -> list (poll (option (vecdiff B)))) script,
  (forall k a, good_vec_script (inner_of k a)) -> forall n st outs,
    run (switch_vec_poll inner_of) n (switch_vec_init script) = Some (st, outs) ->
    let outer := snd (swv_signal st) in
    let inner_done := forall older a f, made (swv_inner st) = older ++ [(a, f)] -> ended f in
    obeys_end (past outer)
    /\ Forall (fun kf => obeys_end (past (snd kf))) (made (swv_inner st))
    /\ (last_out outs (Ready None) -> ended outer /\ inner_done)
    /\ (last_out outs Pending -> ~ (ended outer /\ inner_done)).
Proof. exact @switch_vec_ends. Qed.
Print Assumptions C24_switch_signal_vec.

(** C23: a poll that answers Pending has polled the outer signal and the newest inner SignalVec
    (unless they have ended), and they answered Pending. *)
Theorem C23_switch_signal_vec : forall A B (inner_of : nat -> A -> list (poll (option (vecdiff B)))) script,
  (forall k a, good_vec_script (inner_of k a)) -> forall n st outs st',
    run (switch_vec_poll inner_of) n (switch_vec_init script) = Some (st, outs) -> ~ In (Ready None) outs ->
    switch_vec_poll inner_of st = Some (st', Pending) ->
    listening (snd (swv_signal st)) (snd (swv_signal st'))
    /\ (forall older a f, made (swv_inner st') = older ++ [(a, f)] ->
          listening (source_no (made (swv_inner st)) (length older)) f).
Proof. exact @switch_vec_wakes. Qed.
Print Assumptions C23_switch_signal_vec.

Definition ex_inner (_ a : nat) : list (poll (option (vecdiff nat))) :=
  match a with
  | 0 => [Ready (Some (Push 5)); Ready (Some (InsertAt 0 4)); Pending; Ready (Some Pop)]
  | 1 => [Pending; Ready (Some (Replace [7; 8])); Ready None]
  | _ => [Ready (Some (Push 9)); Ready (Some (Push 3)); Ready None]
  end.

Example switch_vec_ex : (forall k a, good_vec_script (ex_inner k a))
  /\ (exists st outs st', run (switch_vec_poll ex_inner) 5
        (switch_vec_init [Ready (Some 0); Pending; Pending; Pending; Ready (Some 0); Ready (Some 1)]) = Some (st, outs)
      /\ ~ In (Ready None) outs /\ replay (yielded outs) = Some [7; 8] /\ swv_len st = 2
      /\ switch_vec_poll ex_inner st = Some (st', Pending))
  /\ (exists st outs, run (switch_vec_poll ex_inner) 9
        (switch_vec_init [Ready (Some 0); Pending; Ready (Some 2); Ready None]) = Some (st, outs)
      /\ last_out outs (Ready None) /\ replay (yielded outs) = Some [9; 3]).
Proof.
  split; [intros k [|[|a]]; vm_compute; discriminate|]. vm_compute. split.
  - do 3 eexists. split; [reflexivity|]. split; [|split; [reflexivity|split; reflexivity]].
    intros H. repeat (destruct H as [H|H]; [discriminate|]). exact H.
  - do 2 eexists. split; [reflexivity|]. split; [|reflexivity].
    match goal with |- exists p, ?l = _ => exists (removelast l) end. reflexivity.
Qed.
