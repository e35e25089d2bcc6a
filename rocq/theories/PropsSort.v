(** Properties of sort_by_cloned (C11, parts of C23 and C24). *)
From Verif Require Import Base Spec VecDiff VecSpec SortSpec Sort SortFacts.

(** C11. Nothing panics, the output can be applied, and it is the stable sort of what the source
    has conveyed. An UpdateAt that changes the sorted position is output as two diffs; between
    the two, and only there, the updated element is missing. *)
Theorem C11_sort : forall A (compare : A -> A -> comparison), total_preorder compare ->
  forall script, good_vec_script script -> forall n, exists st sr outs l out,
    run (sort_poll compare) n (sort_init, fresh script) = Some ((st, sr), outs)
    /\ conveyed sr = Some l
    /\ stable_sort_of compare l out
    /\ (replay (yielded outs) = Some out
        \/ exists p x q, out = p ++ x :: q /\ replay (yielded outs) = Some (p ++ q)
           /\ ~ last_out outs Pending /\ ~ last_out outs (Ready None)
           /\ exists ds i, yielded (past sr) = ds ++ [UpdateAt i x]).
Proof. exact @sort_mirror. Qed.
Print Assumptions C11_sort.

(** Pairs compared by their first component. *)
Definition by_key (a b : nat * nat) : comparison := Nat.compare (fst a) (fst b).

Definition ex_sort_script : list (poll (option (vecdiff (nat * nat)))) :=
  [Ready (Some (Replace [(2, 0); (1, 0); (2, 1)])); Pending; Ready (Some (InsertAt 0 (2, 2)));
   Ready (Some (Move 0 3)); Ready (Some (UpdateAt 1 (7, 7))); Ready (Some (Push (1, 1)));
   Ready (Some (RemoveAt 0)); Ready (Some Pop); Pending; Ready None].

Example C11_sort_ex : total_preorder by_key /\ good_vec_script ex_sort_script
  /\ (exists st sr outs, run (sort_poll by_key) 20 (sort_init, fresh ex_sort_script) = Some ((st, sr), outs)
      /\ conveyed sr = Some [(7, 7); (2, 1); (2, 2)]
      /\ replay (yielded outs) = Some [(2, 1); (2, 2); (7, 7)])
  (* between the two diffs of the UpdateAt *)
  /\ (exists st sr outs, run (sort_poll by_key) 5 (sort_init, fresh ex_sort_script) = Some ((st, sr), outs)
      /\ replay (yielded outs) = Some [(2, 0); (2, 1); (2, 2)]).
Proof.
  split; [|split; [vm_compute; discriminate|]].
  - split; intros a b.
    + apply Nat.compare_antisym.
    + intros c. unfold by_key. rewrite !Nat.compare_gt_iff. lia.
  - split; vm_compute; do 3 eexists; repeat split.
Qed.

(** C23, C24 for sort_by_cloned. *)
Theorem C23_C24_sort : forall A (compare : A -> A -> comparison),
  single_source_ok (sort_poll compare) sort_init.
Proof. exact @sort_wake. Qed.
Print Assumptions C23_C24_sort.

Example C23_C24_sort_ex : exists st sr outs,
  run (sort_poll by_key) 20 (sort_init, fresh ex_sort_script) = Some ((st, sr), outs)
  /\ last_out outs (Ready None) /\ length (past sr) = 10.
Proof.
  vm_compute. do 3 eexists. split; [reflexivity|]. split; [|reflexivity].
  match goal with |- exists p, ?l = _ => exists (removelast l) end. reflexivity.
Qed.
