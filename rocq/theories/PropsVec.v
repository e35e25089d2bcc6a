(** Properties of VecDiff and of the SignalVec combinators map, filter, filter_map and
    enumerate (C07, C08, C09, C10, C16, parts of C23, C24 and C41). *)
From Verif Require Import Base Spec VecDiff VecSpec VecSimple VecDiffFacts VecSimpleFacts EnumerateFacts.

(** C07: apply_to_vec does what the documentation of each diff says, index by index. *)
Theorem C07_apply_to_vec : forall A (d : vecdiff A) (l l' : list A),
  apply_to_vec d l = Some l' <-> diff_means d l l'.
Proof. exact @apply_iff_means. Qed.
Print Assumptions C07_apply_to_vec.

Example C07_apply_to_vec_ex : apply_to_vec (Move 3 1) [10; 11; 12; 13; 14] = Some [10; 13; 11; 12; 14].
Proof. reflexivity. Qed.

(** C07: it panics exactly when an index is out of range (or Pop meets an empty Vec). *)
Theorem C07_apply_to_vec_panics : forall A (d : vecdiff A) (l : list A),
  apply_to_vec d l = None <-> diff_panics d l.
Proof. exact @apply_panics. Qed.
Print Assumptions C07_apply_to_vec_panics.

Example C07_apply_to_vec_panics_ex : apply_to_vec (Move 0 3) [1; 2; 3] = None /\ diff_panics (Move 0 3) [1; 2; 3].
Proof. split; [reflexivity|]. right. simpl. auto. Qed.

(** C08: map. *)
Theorem C08_map : forall A B (f : A -> B) script,
  good_vec_script script -> forall n, exists calls sr outs l,
    run (vmap_poll f) n ([], fresh script) = Some ((calls, sr), outs)
    /\ conveyed sr = Some l
    /\ replay (yielded outs) = Some (map f l)
    /\ calls = flat_map values_of (yielded (past sr)).
Proof. exact @vmap_mirror. Qed.
Print Assumptions C08_map.

(** A script with a Pending, several diffs and an end, used in the examples. *)
Definition ex_script : list (poll (option (vecdiff nat))) :=
  [Ready (Some (Replace [1; 2; 3])); Pending; Ready (Some (InsertAt 1 7)); Ready (Some (Move 0 2));
   Ready (Some (RemoveAt 0)); Ready (Some (UpdateAt 0 9)); Ready (Some (Push 4)); Ready None].

Example C08_map_ex : good_vec_script ex_script.
Proof. unfold good_vec_script. vm_compute. discriminate. Qed.

(** C09 is violated by the code: a backward Move of an accepted element across a rejected one
    makes filter output a diff that cannot be applied. *)
Theorem C09_filter_refuted : exists (p : nat -> bool) script,
  good_vec_script script /\
  exists n st sr outs,
    run (filter_poll p) n (fm_init, fresh script) = Some ((st, sr), outs)
    /\ conveyed sr = Some [6; 2; 3]
    /\ replay (yielded outs) = None.
Proof.
  exists Nat.even, [Ready (Some (Replace [2; 3; 6])); Ready (Some (Move 2 0))].
  split; [vm_compute; discriminate|]. exists 3. vm_compute. do 3 eexists. repeat split.
Qed.
Print Assumptions C09_filter_refuted.

(** C09, for every source whose backward moves satisfy the side condition. Missing: the other
    backward moves, for which the claim is false (C10_filter_map_bad_move). *)
Theorem C09_filter_partial : forall A (p : A -> bool) script,
  good_vec_script script -> backward_moves_ok p (yielded script) ->
  forall n, exists st sr outs l,
    run (filter_poll p) n (fm_init, fresh script) = Some ((st, sr), outs)
    /\ conveyed sr = Some l
    /\ replay (yielded outs) = Some (filter p l)
    /\ fm_calls st = flat_map values_of (yielded (past sr)).
Proof. exact @filter_mirror. Qed.
Print Assumptions C09_filter_partial.

(** Forward and backward moves are both possible under the side condition. *)
Example C09_filter_partial_ex :
  let script := [Ready (Some (Replace [3; 2; 6; 5; 4])); Ready (Some (Move 0 4)); Ready (Some (Move 1 0))] in
  good_vec_script script /\ backward_moves_ok Nat.even (yielded script).
Proof.
  split; [vm_compute; discriminate|].
  intros pre o n post l x y E Hl Hno Hx Hy Ha. simpl in E.
  destruct pre as [|d1 [|d2 [|d3 [|d4 pre]]]]; try discriminate E.
  - injection E as _ E1 E2 _. lia.
  - injection E as <- <- E1 E2 _. vm_compute in Hl. injection Hl as <-. subst o n.
    simpl in Hy. injection Hy as <-. reflexivity.
Qed.

(** C10 is violated in the same way; here the output can be applied but gives wrong contents. *)
Theorem C10_filter_map_refuted : exists (f : nat -> option nat) script,
  good_vec_script script /\
  exists n st sr outs,
    run (filter_map_poll f) n (fm_init, fresh script) = Some ((st, sr), outs)
    /\ conveyed sr = Some [2; 1; 0; 3]
    /\ accepted_values f [2; 1; 0; 3] = [12; 11; 13]
    /\ replay (yielded outs) = Some [13; 11; 12].
Proof.
  exists (fun a => if a =? 0 then None else Some (a + 10)),
    [Ready (Some (Replace [1; 0; 2; 3])); Ready (Some (Move 2 0))].
  split; [vm_compute; discriminate|]. exists 3. vm_compute. do 3 eexists. repeat split.
Qed.
Print Assumptions C10_filter_map_refuted.

(** C10, for every source whose backward moves satisfy the side condition. *)
Theorem C10_filter_map_partial : forall A B (f : A -> option B) script,
  good_vec_script script -> backward_moves_ok (fun a => is_some (f a)) (yielded script) ->
  forall n, exists st sr outs l,
    run (filter_map_poll f) n (fm_init, fresh script) = Some ((st, sr), outs)
    /\ conveyed sr = Some l
    /\ replay (yielded outs) = Some (accepted_values f l)
    /\ fm_calls st = flat_map values_of (yielded (past sr)).
Proof. exact @filter_map_mirror. Qed.
Print Assumptions C10_filter_map_partial.

Example C10_filter_map_partial_ex :
  good_vec_script ex_script
  /\ backward_moves_ok (fun a => is_some (if a =? 3 then None else Some (a + 1))) (yielded ex_script).
Proof.
  split; [vm_compute; discriminate|].
  intros pre o n post l x y E Hl Hno Hx Hy Ha. simpl in E.
  destruct pre as [|d1 [|d2 [|d3 [|d4 [|d5 [|d6 pre]]]]]]; try discriminate E.
  - injection E as _ _ <- <- _. lia.
  - destruct pre; discriminate E.
Qed.

(** The side condition is exactly what is needed: the first backward Move that violates it always
    makes the reconstruction wrong (when no two accepted values are equal). *)
Theorem C10_filter_map_bad_move : forall A B (f : A -> option B) ds o n l l' x bx y,
  replay ds = Some l -> backward_moves_ok (fun a => is_some (f a)) ds ->
  NoDup (accepted_values f l) ->
  n < o -> nth_error l o = Some x -> nth_error l (o - 1) = Some y ->
  f x = Some bx -> f y = None -> apply_to_vec (Move o n) l = Some l' ->
  forall script, yielded script = ds ++ [Move o n] ->
  forall k st sr outs,
    run (filter_map_poll f) k (fm_init, fresh script) = Some ((st, sr), outs) ->
    yielded (past sr) = ds ++ [Move o n] ->
    replay (yielded outs) <> Some (accepted_values f l').
Proof. exact @fm_bad_move. Qed.
Print Assumptions C10_filter_map_bad_move.

Example C10_filter_map_bad_move_ex :
  let f := fun a => if a =? 0 then None else Some (a + 10) in
  let script := [Ready (Some (Replace [1; 0; 2; 3])); Ready (Some (Move 2 0))] in
  exists k st sr outs, run (filter_map_poll f) k (fm_init, fresh script) = Some ((st, sr), outs)
    /\ yielded (past sr) = [Replace [1; 0; 2; 3]] ++ [Move 2 0]
    /\ replay [Replace [1; 0; 2; 3]] = Some [1; 0; 2; 3]
    /\ nth_error [1; 0; 2; 3] 2 = Some 2 /\ f 2 = Some 12 /\ f 0 = None.
Proof. exists 3. vm_compute. do 3 eexists. repeat split. Qed.

(** C16: enumerate. *)
Theorem C16_enumerate : forall A (script : list (poll (option (vecdiff A)))),
  good_vec_script script -> forall n, exists st sr outs l out,
    run enumerate_poll n (en_init, fresh script) = Some ((st, sr), outs)
    /\ conveyed sr = Some l
    /\ replay (yielded outs) = Some out
    (* the elements are those of the source *)
    /\ map snd out = l
    (* no two elements share an index handle *)
    /\ NoDup (map fst out)
    (* the handle of the element at position i holds Some i *)
    /\ (forall i c v, nth_error out i = Some (c, v) -> cell_get (en_heap st) c = Some i)
    (* every handle delivered earlier whose element is gone holds None *)
    /\ (forall c, In c (handles (yielded outs)) -> ~ In c (map fst out) -> cell_get (en_heap st) c = None)
    (* UpdateAt keeps the handle of its position, new elements get new handles *)
    /\ handles_stable (yielded outs).
Proof. exact @enumerate_correct. Qed.
Print Assumptions C16_enumerate.

Example C16_enumerate_ex : good_vec_script ex_script /\
  exists st sr outs, run enumerate_poll 20 (en_init, fresh ex_script) = Some ((st, sr), outs)
  /\ replay (yielded outs) = Some [(1, 9); (0, 1); (2, 3); (4, 4)]
  /\ en_heap st = [Some 1; Some 0; Some 2; None; Some 3].
Proof. split; [vm_compute; discriminate|]. vm_compute. do 3 eexists. repeat split. Qed.

(** C23, C24 for map, filter, filter_map, enumerate, from_stream and debug. *)
Theorem C23_C24_simple_vec : forall A (f : A -> option A) (g : A -> A) (p : A -> bool),
  single_source_ok (vmap_poll g) []
  /\ single_source_ok (filter_poll p) fm_init
  /\ single_source_ok (filter_map_poll f) fm_init
  /\ single_source_ok (@enumerate_poll A) en_init
  /\ single_source_ok (@stream_vec_poll A) tt
  /\ single_source_ok (@vdebug_poll A) tt.
Proof. exact @simple_vec_wake. Qed.
Print Assumptions C23_C24_simple_vec.

Example C23_C24_simple_vec_ex : exists st sr outs,
  run (filter_poll Nat.even) 20 (fm_init, fresh ex_script) = Some ((st, sr), outs)
  /\ last_out outs (Ready None) /\ length (past sr) = 8.
Proof.
  vm_compute. do 3 eexists. split; [reflexivity|]. split; [|reflexivity].
  match goal with |- exists p, ?l = _ => exists (removelast l) end. reflexivity.
Qed.

(** SignalVec from_stream, always and debug (part of C41 for vecs). *)
Theorem C41_vec_from_stream : forall A (script : list (poll (option A))) n,
  exists sr outs,
    run stream_vec_poll n (tt, fresh script) = Some ((tt, sr), outs)
    /\ replay (yielded outs) = Some (yielded (past sr))
    /\ yielded outs = map Push (yielded (past sr)).
Proof. exact @stream_vec_mirror. Qed.
Print Assumptions C41_vec_from_stream.

Theorem C41_vec_always : forall A (vs : list A) n,
  exists st, run always_poll n (Some vs) =
    Some (st, match n with 0 => [] | 1 => [Ready (Some (Replace vs))]
              | _ => [Ready (Some (Replace vs)); Ready None] end).
Proof. exact @always_vec_run. Qed.
Print Assumptions C41_vec_always.

Theorem C41_vec_debug : forall A (script : list (poll (option (vecdiff A)))) n,
  exists sr outs,
    run vdebug_poll n (tt, fresh script) = Some ((tt, sr), outs)
    /\ yielded outs = yielded (past sr).
Proof. exact @vdebug_same. Qed.
Print Assumptions C41_vec_debug.
