(** What flatten does for every outer history, poll by poll (C13), and what follows for
    histories in which inner SignalVecs are removed or moved. *)
From Verif Require Import Base Spec VecDiff VecSpec Slot Flatten FlattenSpec FlattenStep.

(** One poll with nothing queued from earlier ones. [ls]: the contents of the inner SignalVecs
    before, [ls']: after. Either only diffs other than Replace and Clear arrived from the outer
    SignalVec; they alone turn [ls] into [ls1], and what flatten outputs and queues leads from
    [concat ls1] to [concat ls']: right for a user who was shown [concat ls1], but the user was
    shown [concat ls], and that is all that is wrong in C13_flatten_refuted. Or a Replace or
    Clear arrived; then the single diff of the output leads to [concat ls'] whatever was shown
    before. *)
Theorem C13_flatten_poll : forall K A (inner_of : K -> list (poll (option (vecdiff A)))) outer,
  (forall k, good_vec_script (inner_of k)) -> good_vec_script outer -> forall n st outs ls,
    run (flatten_vec_poll inner_of) n (flatten_vec_init outer) = Some (st, outs) -> fla_pending st = [] ->
    Forall2 holds (fla_inner st) ls -> forall st' o, flatten_vec_poll inner_of st = Some (st', o) -> exists new ls',
      polls inner_of st st' o new
      /\ Forall2 holds (fla_inner st') ls'
      /\ ((existsb resets new = false /\ exists ls1, carried no_items new ls = Some ls1
            /\ apply_all apply_to_vec (concat ls1) (yielded [o] ++ fla_pending st') = Some (concat ls'))
          \/ ((exists new0 d, new = new0 ++ [d] /\ existsb resets new0 = false /\ resets d = true)
              /\ fla_pending st' = [] /\ exists e, o = Ready (Some e) /\ forall l, apply_to_vec e l = Some (concat ls'))).
Proof. exact @flatten_poll_exact. Qed.
Print Assumptions C13_flatten_poll.

(** C13 from the start, or from the last Replace or Clear of the outer SignalVec, for as long as
    the outer diffs are harmless: inner SignalVecs are removed, overwritten and popped when they
    are empty, and moved past empty ones. What went wrong before a Replace or Clear is repaired
    by it. Missing from C13: the polls from a harmful diff to the next Replace or Clear
    (C13_flatten_refuted). *)
Theorem C13_flatten_since_partial : forall K A (inner_of : K -> list (poll (option (vecdiff A)))) outer,
  (forall k, good_vec_script (inner_of k)) -> good_vec_script outer -> forall from n,
    (from = 0 \/ exists m, from = S m /\ reset_at inner_of outer m) -> from <= n ->
    (forall m, from <= m < n -> harmless inner_of outer m) -> exists st outs ls shown,
      run (flatten_vec_poll inner_of) n (flatten_vec_init outer) = Some (st, outs)
      /\ Forall2 holds (fla_inner st) ls
      /\ replay (yielded outs) = Some shown
      /\ (last_out outs Pending \/ last_out outs (Ready None) -> shown = concat ls)
      /\ apply_all apply_to_vec shown (fla_pending st) = Some (concat ls).
Proof. exact @flatten_since. Qed.
Print Assumptions C13_flatten_since_partial.

(** The first inner SignalVec becomes empty and is then removed; the third one is moved past
    an empty one. *)
Definition ex_inner3 (k : nat) : list (poll (option (vecdiff nat))) :=
  match k with
  | 0 => [Ready (Some (Replace [1; 2])); Pending; Ready (Some Clear); Pending]
  | 1 => [Pending; Pending; Pending; Ready (Some (Push 9))]
  | _ => [Ready (Some (Push 3)); Pending; Pending; Pending; Ready (Some (Push 4))]
  end.
Definition ex_outer3 : list (poll (option (vecdiff nat))) :=
  [Ready (Some (Push 0)); Ready (Some (Push 1)); Ready (Some (Push 2)); Pending; Pending; Ready (Some (RemoveAt 0)); Ready (Some (Move 1 0)); Pending; Pending].

Example C13_flatten_since_ex : (forall k, good_vec_script (ex_inner3 k)) /\ good_vec_script ex_outer3
  /\ (forall m, 0 <= m < 9 -> harmless ex_inner3 ex_outer3 m)
  /\ exists st outs, run (flatten_vec_poll ex_inner3) 9 (flatten_vec_init ex_outer3) = Some (st, outs)
     /\ last_out outs Pending /\ map fv_origin (fla_inner st) = [2; 1] /\ replay (yielded outs) = Some [3; 4; 9].
Proof.
  split; [intros [|[|k]]; vm_compute; discriminate|]. split; [vm_compute; discriminate|]. split.
  - intros m Hm. do 9 (destruct m as [|m]; [apply harmless_intro; vm_compute; auto|]). lia.
  - vm_compute. do 2 eexists. split; [reflexivity|]. split; [|split; reflexivity].
    match goal with |- exists p, ?l = _ => exists (removelast l) end. reflexivity.
Qed.

(** An inner SignalVec with items is removed, which is wrong until the Replace that follows. *)
Definition ex_outer4 : list (poll (option (vecdiff nat))) :=
  [Ready (Some (Push 0)); Pending; Ready (Some (RemoveAt 0)); Pending; Ready (Some (Replace [2; 1])); Pending].
Example C13_flatten_since_reset_ex : (forall k, good_vec_script (ex_inner3 k)) /\ good_vec_script ex_outer4
  /\ reset_at ex_inner3 ex_outer4 3
  /\ (exists st outs, run (flatten_vec_poll ex_inner3) 3 (flatten_vec_init ex_outer4) = Some (st, outs)
      /\ last_out outs Pending /\ fla_inner st = [] /\ replay (yielded outs) = Some [1; 2])
  /\ (forall m, 4 <= m < 5 -> harmless ex_inner3 ex_outer4 m)
  /\ exists st outs, run (flatten_vec_poll ex_inner3) 5 (flatten_vec_init ex_outer4) = Some (st, outs)
     /\ last_out outs Pending /\ map fv_origin (fla_inner st) = [2; 1] /\ replay (yielded outs) = Some [3].
Proof.
  split; [intros [|[|k]]; vm_compute; discriminate|]. split; [vm_compute; discriminate|]. split; [|split; [|split]].
  - do 5 eexists. split; [vm_compute; reflexivity|]. split; [vm_compute; intuition discriminate|]. split; [split; vm_compute; reflexivity|]. reflexivity.
  - vm_compute. do 2 eexists. split; [reflexivity|]. split; [|split; reflexivity].
    match goal with |- exists p, ?l = _ => exists (removelast l) end. reflexivity.
  - intros m Hm. assert (m = 4) by lia. subst m. apply harmless_intro. vm_compute. auto.
  - vm_compute. do 2 eexists. split; [reflexivity|]. split; [|split; reflexivity].
    match goal with |- exists p, ?l = _ => exists (removelast l) end. reflexivity.
Qed.
