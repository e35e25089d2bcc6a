(** Properties of the combinators that turn a SignalVec into a Signal: to_signal_map,
    to_signal_cloned, len, is_empty and sum (C18, C19, C20, C21, parts of C23, C24 and C32). *)
From Verif Require Import Base Spec Slot VecDiff VecSpec VecToSignal VecToSignalFacts PropsVec.

(** C18: after any number of polls the last value output by to_signal_map is the closure
    applied to the contents conveyed so far; the first answer is a value; after Pending the
    source's last answer was Pending; it ends only after the source; an ended source is not
    polled. *)
Theorem C18_C23_C24_C32_to_signal_map : forall A B (f : list A -> B) script,
  good_vec_script script -> forall n, exists st outs l,
    run (tsm_poll f) n (tsm_init script) = Some (st, outs)
    /\ conveyed (snd (tsm_signal st)) = Some l
    /\ (outs <> [] -> has_initial outs /\ latest_of outs = Some (f l))
    /\ source_ok outs (snd (tsm_signal st)).
Proof. exact @tsm_shows. Qed.
Print Assumptions C18_C23_C24_C32_to_signal_map.

Theorem C18_C23_C24_C32_to_signal_cloned : forall A (script : list (poll (option (vecdiff A)))),
  good_vec_script script -> forall n, exists st outs l,
    run tsc_poll n (tsm_init script) = Some (st, outs)
    /\ conveyed (snd (tsm_signal st)) = Some l
    /\ (outs <> [] -> has_initial outs /\ latest_of outs = Some l)
    /\ source_ok outs (snd (tsm_signal st)).
Proof. exact (fun A => @tsm_shows A (list A) (fun x => x)). Qed.
Print Assumptions C18_C23_C24_C32_to_signal_cloned.

Example C18_ex : good_vec_script ex_script
  /\ option_map snd (run tsc_poll 5 (tsm_init ex_script))
     = Some [Ready (Some [1; 2; 3]); Ready (Some [9; 1; 3; 4]); Ready None].
Proof. split; [vm_compute; discriminate|reflexivity]. Qed.

(** C19: same for len; no length computation underflows (the run is not a panic). *)
Theorem C19_C23_C24_C32_len : forall A (script : list (poll (option (vecdiff A)))),
  good_vec_script script -> forall n, exists st outs l,
    run len_poll n (len_init script) = Some (st, outs)
    /\ conveyed (snd (len_signal st)) = Some l
    /\ (outs <> [] -> has_initial outs /\ latest_of outs = Some (length l))
    /\ source_ok outs (snd (len_signal st)).
Proof. exact @len_shows. Qed.
Print Assumptions C19_C23_C24_C32_len.

Example C19_ex : good_vec_script ex_script
  /\ option_map snd (run len_poll 5 (len_init ex_script))
     = Some [Ready (Some 3); Ready (Some 4); Ready None].
Proof. split; [vm_compute; discriminate|reflexivity]. Qed.

(** C20 and C23 are violated by is_empty: when the emptiness did not change during the poll in
    which the source ended, is_empty answers Pending although its source has ended, so nobody
    will wake the task again. *)
Theorem C20_C23_is_empty_refuted : exists (script : list (poll (option (vecdiff nat)))),
  good_vec_script script /\
  exists n st outs, run ie_poll n (ie_init script) = Some (st, outs)
    /\ last_out outs Pending
    /\ ended (snd (len_signal (ie_len st))).
Proof.
  exists [Pending; Ready (Some (Push 1)); Ready (Some Pop); Ready None].
  split; [vm_compute; discriminate|]. exists 2. vm_compute. do 2 eexists.
  split; [reflexivity|]. split; [exists [Ready (Some true)]; reflexivity|]. simpl. auto 10.
Qed.
Print Assumptions C20_C23_is_empty_refuted.

(** C20 without the end claim. Missing: after Pending the source may have ended; then a
    further poll, which nobody is obliged to make, would announce the end. *)
Theorem C20_C24_C32_is_empty_partial : forall A (script : list (poll (option (vecdiff A)))),
  good_vec_script script -> forall n, exists st outs l,
    run ie_poll n (ie_init script) = Some (st, outs)
    /\ conveyed (snd (len_signal (ie_len st))) = Some l
    /\ (outs <> [] -> has_initial outs /\ exists b, latest_of outs = Some b /\ (b = true <-> l = []))
    /\ no_repeats Bool.eqb (yielded outs)
    /\ (last_out outs Pending -> awaits (snd (len_signal (ie_len st))) \/ ended (snd (len_signal (ie_len st))))
    /\ (last_out outs (Ready None) -> ended (snd (len_signal (ie_len st))))
    /\ obeys_end (past (snd (len_signal (ie_len st))))
    /\ (last_out outs Pending -> ended (snd (len_signal (ie_len st))) ->
          exists st', ie_poll st = Some (st', Ready None)).
Proof. exact @is_empty_shows. Qed.
Print Assumptions C20_C24_C32_is_empty_partial.

Example C20_ex : good_vec_script ex_script
  /\ option_map snd (run ie_poll 5 (ie_init ex_script)) = Some [Ready (Some false); Pending; Ready None].
Proof. split; [vm_compute; discriminate|reflexivity]. Qed.

(** C21: same for sum, for every [Sum] implementation that does not depend on the order. *)
Theorem C21_C23_C24_C32_sum : forall A (sum : list A -> A) script,
  (forall l l', Permutation l l' -> sum l = sum l') ->
  good_vec_script script -> forall n, exists st outs l,
    run (sum_poll sum) n (sum_init script) = Some (st, outs)
    /\ conveyed (snd (tsm_signal st)) = Some l
    /\ (outs <> [] -> has_initial outs /\ latest_of outs = Some (sum l))
    /\ source_ok outs (snd (tsm_signal st)).
Proof. exact @sum_shows. Qed.
Print Assumptions C21_C23_C24_C32_sum.

Example C21_ex : (forall l l', Permutation l l' -> list_sum l = list_sum l')
  /\ good_vec_script ex_script
  /\ option_map snd (run (sum_poll list_sum) 5 (sum_init ex_script))
     = Some [Ready (Some 6); Ready (Some 17); Ready None].
Proof.
  split; [|split; [vm_compute; discriminate|reflexivity]].
  intros l l' H. induction H; simpl; lia.
Qed.

(** The hypothesis on [Sum] is needed: with an order-dependent sum (say floating point numbers,
    or strings), sum keeps showing an outdated value after a Move. *)
Theorem C21_sum_order : exists (sum : list nat -> nat) script,
  good_vec_script script /\
  exists n st outs l, run (sum_poll sum) n (sum_init script) = Some (st, outs)
    /\ conveyed (snd (tsm_signal st)) = Some l
    /\ last_out outs Pending
    /\ latest_of outs <> Some (sum l).
Proof.
  exists (fun l => fold_left (fun a b => 10 * a + b) l 0),
    [Ready (Some (Replace [1; 2])); Pending; Ready (Some (Move 0 1))].
  split; [vm_compute; discriminate|]. exists 2. vm_compute. do 3 eexists.
  split; [reflexivity|]. split; [reflexivity|]. split; [|discriminate].
  exists [Ready (Some 12)]. reflexivity.
Qed.
Print Assumptions C21_sum_order.
