(** C09, C10. See DESIGN.md for what is modelled and what the theorems rest on. *)
From Verif Require Import Base Spec VecDiff VecSpec VecSimple FlattenSpec FilterSpec FilterSince.

(** ** C10: filter_map on every source. It does not panic, calls the closure once for each value that arrives, outputs exactly
    [filter_outs]; and what it shows is right again from any Replace or Clear on, up to the next bad move, unless its consumer has
    panicked in between. Missing: what it shows between a bad move and a Replace or Clear is wrong (C10_filter_map_bad_move). *)
Theorem C10_filter_map_since_partial : forall A B (f : A -> option B) script, good_vec_script script -> forall n, exists st sr outs l,
  run (filter_map_poll f) n (fm_init, fresh script) = Some ((st, sr), outs)
  /\ conveyed sr = Some l /\ fm_calls st = flat_map values_of (yielded (past sr))
  /\ yielded outs = filter_outs f [] (yielded (past sr))
  /\ forall pre d post, yielded (past sr) = pre ++ d :: post -> resets d = true -> backward_moves_ok (fun a => is_some (f a)) (d :: post) ->
     forall shown, replay (yielded outs) = Some shown -> shown = accepted_values f l.
Proof. exact @filter_map_since. Qed.
Print Assumptions C10_filter_map_since_partial.

(** ** C09: filter, in the same way *)
Theorem C09_filter_since_partial : forall A (p : A -> bool) script, good_vec_script script -> forall n, exists st sr outs l,
  run (filter_poll p) n (fm_init, fresh script) = Some ((st, sr), outs)
  /\ conveyed sr = Some l /\ fm_calls st = flat_map values_of (yielded (past sr))
  /\ yielded outs = filter_outs (fun a => if p a then Some a else None) [] (yielded (past sr))
  /\ forall pre d post, yielded (past sr) = pre ++ d :: post -> resets d = true -> backward_moves_ok p (d :: post) ->
     forall shown, replay (yielded outs) = Some shown -> shown = filter p l.
Proof. exact @filter_since. Qed.
Print Assumptions C09_filter_since_partial.

(** A bad move (8 goes to the front, after 3 which is rejected), after which the consumer has 4, 2, 8 instead of 8, 2, 4; then a
    Replace, a good move towards the front, and all is right. *)
Definition ex_bad : list (poll (option (vecdiff nat))) :=
  [Ready (Some (Replace [2; 3; 8; 4])); Ready (Some (Move 2 0)); Pending; Ready (Some (Replace [1; 2; 4])); Ready (Some (Move 2 0))].
Example C09_filter_since_partial_ex : good_vec_script ex_bad
  /\ (exists st sr outs, run (filter_poll Nat.even) 2 (fm_init, fresh ex_bad) = Some ((st, sr), outs)
        /\ conveyed sr = Some [8; 2; 3; 4] /\ yielded outs = [Replace [2; 8; 4]; Move 2 0] /\ replay (yielded outs) = Some [4; 2; 8])
  /\ exists st sr outs, run (filter_poll Nat.even) 5 (fm_init, fresh ex_bad) = Some ((st, sr), outs)
        /\ conveyed sr = Some [4; 1; 2] /\ yielded (past sr) = [Replace [2; 3; 8; 4]; Move 2 0] ++ Replace [1; 2; 4] :: [Move 2 0]
        /\ backward_moves_ok Nat.even [Replace [1; 2; 4]; Move 2 0] /\ replay (yielded outs) = Some [4; 2].
Proof.
  split; [vm_compute; discriminate|]. split; do 3 eexists; (split; [reflexivity|]); (split; [reflexivity|]); (split; [reflexivity|]); [reflexivity|].
  split; [|reflexivity].
  intros pre o n post l x y E Hl Hno Hx Hy Ha. destruct pre as [|d1 [|d2 pre]]; try discriminate E.
  - injection E as <- <- <- _. vm_compute in Hl. injection Hl as <-. cbn in Hy. injection Hy as <-. reflexivity.
  - injection E as _ _ E. destruct pre; discriminate E.
Qed.
