(** C72. See DESIGN.md for what is modelled and what the theorems rest on. *)
From Verif Require Import Base Spec VecDiff VecSpec MapDiff MapSpec VecSimple Sig SigSlots Slot Chain ElemSignal Flatten SwitchVec MapComb MapValueSignalFacts
  DelayRemove VecToSignal Views Compose Alert AlertFacts.

(** ** C72: when a signal built by any combinators answers Pending, then every source in use was polled in this poll and answered
    Pending last, or has ended: whichever of them changes next is going to wake the task *)
Theorem C72_waits : forall k before after W, waits k before after W -> asked before after -> W.
Proof. exact @waits_all. Qed.
Print Assumptions C72_waits.

(** So does for_each: it waits for the future that its closure made last; and once that is finished for all the sources. *)
Theorem C72_for_each : forall A (f : nat -> A -> list (poll unit)) inp n st st' W,
  run_future (for_each_poll f) n (for_each_init inp) = Some (st, None) -> for_each_poll f st = Some (st', Pending) ->
  waits (KSig A) (past (fst st)) (past (fst st')) W ->
  (forall older k g, made (snd st') = older ++ [(k, g)] -> results (past g) = [] -> armed (source_no (made (snd st)) (length older)) g)
  /\ ((forall older k g, made (snd st') = older ++ [(k, g)] -> results (past g) <> []) -> W).
Proof. exact @for_each_alert. Qed.
Print Assumptions C72_for_each.

(** ** Examples *)
Ltac few_diffs := intros pre d post E Hr; cbn in E;
  repeat (destruct pre as [|? pre]; [injection E as <- _; first [split; discriminate|vm_compute in Hr; discriminate]|injection E as <- E]);
  destruct pre; discriminate E.
Definition ex_left : answers (KVec nat) := [Ready (Some (Replace [1])); Pending; Ready (Some (Push 5)); Pending; Pending].
Definition ex_right : answers (KVec nat) := [Pending; Ready (Some (Push 9)); Pending; Pending].

(** left.chain(right).len(): the second poll answers Pending, after 4 and 3 answers of the inputs; both are asked once more. *)
Example C72_chain_len_ex : waits (KSig nat) [Ready (Some 3)] [Ready (Some 3); Pending]
    (asked (firstn 4 ex_left) ex_left /\ asked (firstn 3 ex_right) ex_right)
  /\ asked [Ready (Some 3)] [Ready (Some 3); @Pending (option nat)].
Proof.
  split; [|right; exists []; reflexivity].
  refine (w_single (KVec nat) (KSig nat) _ [Ready (Some (Replace [1])); Ready (Some (Push 9)); Ready (Some (InsertAt 1 5)); Pending; Pending] 1 _ _ [Ready (Some 3)] _ _ _ [] _
    (s_comb _ _ _ _ _ (c_len nat)) _ _ _ _ _).
  - vm_compute. reflexivity.
  - intros [E|[]]; discriminate E.
  - reflexivity.
  - vm_compute. reflexivity.
  - refine (w_chain nat ex_left ex_right 4 _ [Ready (Some (Replace [1])); Ready (Some (Push 9)); Ready (Some (InsertAt 1 5)); Pending] _ _ [] _ _ _ _ _ _ _ _ _ _ _ _).
    1,2: vm_compute; discriminate.
    1,2: few_diffs.
    + vm_compute. reflexivity.
    + intros H. repeat destruct H as [H|H]; try discriminate H; destruct H.
    + reflexivity.
    + vm_compute. reflexivity.
    + exact (w_source (KVec nat) (firstn 4 ex_left) ex_left).
    + exact (w_source (KVec nat) (firstn 3 ex_right) ex_right).
Qed.

(** filter_signal_cloned: the first element is shown, the second one is hidden; then an element is inserted before them, which is hidden as well. *)
Definition ex_vec : answers (KVec nat) := [Ready (Some (Replace [1; 2])); Pending; Ready (Some (InsertAt 0 4)); Pending].
Definition ex_test (k : nat) : list (poll (option bool)) := if k =? 1 then [Ready (Some true); Pending; Pending] else [Ready (Some false); Pending; Pending].
Example C72_filter_signal_ex : exists st st', run (filter_signal_poll ex_test) 1 (filter_signal_init ex_vec) = Some (st, [Ready (Some (Replace [1]))])
  /\ filter_signal_poll ex_test st = Some (st', Pending) /\ length (fis_signals st') = 3
  /\ waits (KVec nat) [Ready (Some (Replace [1]))] [Ready (Some (Replace [1])); Pending]
       (asked (firstn 2 ex_vec) ex_vec /\ forall i, i < length (fis_signals st') ->
          asked (if i =? 0 then [] else if i =? 1 then [Ready (Some true); Pending] else [Ready (Some false); Pending])
                (if i =? 0 then [Ready (Some false); Pending] else if i =? 1 then [Ready (Some true); Pending; Pending] else [Ready (Some false); Pending; Pending])).
Proof.
  do 2 eexists. split; [vm_compute; reflexivity|]. split; [vm_compute; reflexivity|]. split; [reflexivity|].
  refine (w_filter_signal nat ex_test ex_vec 1 _ [Ready (Some (Replace [1]))] _ [Ready (Some (Replace [1]))] [] (asked (firstn 2 ex_vec) ex_vec)
    (fun i => asked (if i =? 0 then [] else if i =? 1 then [Ready (Some true); Pending] else [Ready (Some false); Pending])
                (if i =? 0 then [Ready (Some false); Pending] else if i =? 1 then [Ready (Some true); Pending; Pending] else [Ready (Some false); Pending; Pending]))
    _ _ _ _ _ _ _ _).
  - intros k. unfold ex_test. destruct (k =? 1); do 2 eexists; reflexivity.
  - vm_compute. discriminate.
  - vm_compute. reflexivity.
  - intros H. repeat destruct H as [H|H]; try discriminate H; destruct H.
  - reflexivity.
  - vm_compute. reflexivity.
  - exact (w_source (KVec nat) (firstn 2 ex_vec) ex_vec).
  - intros new l i x x' E1 E2 H1 H2. cbn in E1. injection E1 as <-. vm_compute in E2. injection E2 as <-.
    destruct i as [|[|[|i]]]; cbn in H1, H2; [| | |destruct i; discriminate H1]; injection H1 as <-; injection H2 as <-; cbn.
    + exact (w_source (KSig bool) [] [Ready (Some false); Pending]).
    + exact (w_source (KSig bool) [Ready (Some true); Pending] [Ready (Some true); Pending; Pending]).
    + exact (w_source (KSig bool) [Ready (Some false); Pending] [Ready (Some false); Pending; Pending]).
Qed.
