(** C73. See DESIGN.md for what is modelled and what the theorems rest on. *)
From Verif Require Import Base Conc Spec Mpsc VecDiff VecSpec MapDiff MapSpec SortSpec Shared MutVec MutMap Mutable MutableEx MutableFacts7 Broadcaster Sig SigSlots
  SigFlatFacts VecToSignal VecSimple Sort Chain ElemSignal Flatten SwitchVec MapComb Slot Views Compose Alert Rest RestFacts.

(** ** C73: if the poll of a signal built by any combinators from any number of shared sources answered Pending, and the task was not
    woken since, then the signal shows what it is meant to show in the present state of the sources *)
Theorem C73_rests : forall k before outs R, rests k before outs R -> asked before outs -> exists x, says k (yielded outs) x /\ R x.
Proof. exact @rests_shows. Qed.
Print Assumptions C73_rests.

(** for_each of a Signal, SignalVec or SignalMap. If its last poll answered Pending, the task was not woken since, and the futures that the
    closure made are finished, then what the closure was given says the present state of the sources. *)
Theorem C73_for_each : forall k (f : nat -> item k -> list (poll unit)) inp n st st' R,
  run_future (for_each_poll f) n (for_each_init inp) = Some (st, None) -> for_each_poll f st = Some (st', Pending) ->
  rests k (past (fst st)) (past (fst st')) R -> (forall older v g, made (snd st') = older ++ [(v, g)] -> results (past g) <> []) ->
  exists x, says k (map fst (made (snd st'))) x /\ R x.
Proof. exact @for_each_shows. Qed.
Print Assumptions C73_for_each.

(** ** Examples *)
Ltac few_diffs := intros pre d post E Hr; cbn in E;
  repeat (destruct pre as [|? pre]; [injection E as <- _; first [split; discriminate|vm_compute in Hr; discriminate]|injection E as <- E]);
  destruct pre; discriminate E.
Ltac not_ended := intros H; cbn in H; repeat destruct H as [H|H]; try discriminate H; destruct H.

(** Two MutableVecs, as for C71; left.chain(right).len() *)
Definition ex_push (x : nat) : list (act (MutVec.op nat)) := [ALock 7; AOp 7 (OPush x); ASend 7; ASend 7; ASend 7; AUnlock 7 false].
Definition ex_left_acts : list (act (MutVec.op nat)) := [ASubscribe; APoll 0; APoll 0] ++ ex_push 5 ++ repeat (APoll 0) 3.
Definition ex_right_acts : list (act (MutVec.op nat)) := [ASubscribe; APoll 0] ++ ex_push 9 ++ repeat (APoll 0) 3.
Definition ex_left : answers (KVec nat) := [Ready (Some (Replace [1])); Pending; Ready (Some (Push 5)); Pending; Pending].
Definition ex_right : answers (KVec nat) := [Pending; Ready (Some (Push 9)); Pending; Pending].
Example C73_chain_len_ex : exists st1 st2, exec vec_step (sh_init [1]) ex_left_acts = Some st1 /\ exec vec_step (sh_init []) ex_right_acts = Some st2
  /\ rests (KSig nat) [] [Ready (Some 3); Pending]
    (fun n => exists l, (exists l1 l2, l1 = contents st1 /\ l2 = contents st2 /\ l = l1 ++ l2) /\ n = length l)
  /\ contents st1 = [1; 5] /\ contents st2 = [9].
Proof.
  destruct (vec_rests [1] ex_left_acts 0 ex_left [1; 5] (firstn 4 ex_left)) as (st1 & E1 & C1 & G1); [vm_compute; auto|].
  destruct (vec_rests [] ex_right_acts 0 ex_right [9] (firstn 3 ex_right)) as (st2 & E2 & C2 & G2); [vm_compute; auto|]. exists st1, st2.
  split; [exact E1|]. split; [exact E2|]. split; [|auto].
  refine (r_comb (KVec nat) (KSig nat) _ _ _ [Ready (Some (Replace [1])); Ready (Some (Push 9)); Ready (Some (InsertAt 1 5)); Pending; Pending] 1 _ _ [Ready (Some 3)] _ [] _ _ (c_len nat) I _ _ eq_refl _ _).
  - vm_compute. reflexivity.
  - not_ended.
  - vm_compute. reflexivity.
  - refine (r_chain nat ex_left ex_right 4 _ [Ready (Some (Replace [1])); Ready (Some (Push 9)); Ready (Some (InsertAt 1 5)); Pending] _ _ [] _ _ _ _ _ _ _ _ _ _ _ _ _ _).
    1,2: vm_compute; discriminate.
    1,2: few_diffs.
    + vm_compute. reflexivity.
    + not_ended.
    + reflexivity.
    + vm_compute. reflexivity.
    + reflexivity.
    + reflexivity.
    + exact G1.
    + exact G2.
Qed.

(** Its for_each, with a closure whose futures are finished at once: the closure was called with 3. *)
Example C73_for_each_ex : exists st1 st2 st', exec vec_step (sh_init [1]) ex_left_acts = Some st1 /\ exec vec_step (sh_init []) ex_right_acts = Some st2
  /\ for_each_poll (fun _ _ => [Ready tt]) (for_each_init [Ready (Some 3); Pending]) = Some (st', Pending)
  /\ rests (KSig nat) [] (past (fst st'))
    (fun n => exists l, (exists l1 l2, l1 = contents st1 /\ l2 = contents st2 /\ l = l1 ++ l2) /\ n = length l)
  /\ (forall older v g, made (snd st') = older ++ [(v, g)] -> results (past g) <> []) /\ map fst (made (snd st')) = [3].
Proof.
  destruct C73_chain_len_ex as (st1 & st2 & E1 & E2 & G & _). exists st1, st2. eexists. split; [exact E1|]. split; [exact E2|]. split; [vm_compute; reflexivity|].
  split; [exact G|]. split; [|reflexivity]. intros older v g H. cbn in H. destruct older as [|x older].
  - injection H as _ <-. discriminate.
  - injection H as _ H. destruct older; discriminate H.
Qed.

(** Two Mutables, which contain 1 and 2; [map_ref!(a, b => a + b)]; it is polled twice, the first one is set to 5, it is polled twice again. *)
Definition ex_poll (k n : nat) : list (mu_move nat) := XPoll k :: repeat (XSig k) n.
Definition ex_sets : list (mu_move nat) :=
  [XNew 1; XNew 2; XSignal 0; XSignal 1] ++ repeat (XSig 0) 3 ++ repeat (XSig 1) 3
  ++ ex_poll 0 4 ++ ex_poll 1 4 ++ ex_poll 0 3 ++ ex_poll 1 3 ++ [XSet 0 5] ++ repeat (XOp 0) 10 ++ ex_poll 0 4 ++ ex_poll 1 3 ++ ex_poll 0 3 ++ ex_poll 1 3.
Example C73_map_ref_ex : exists s, exec mu_step (mu_init 0) ex_sets = Some s
  /\ rests (KSig nat) [Ready (Some 3); Pending] [Ready (Some 3); Pending; Ready (Some 7); Pending]
       (fun b => exists vs, length vs = 2 /\ (forall i v, nth_error vs i = Some v -> v = val_of s i) /\ b = fold_right plus 0 vs)
  /\ val_of s 0 = 5 /\ val_of s 1 = 2.
Proof.
  destruct (mu_rests 0 ex_sets 0 1 [Ready (Some 1); Pending; Ready (Some 5); Pending] [Ready (Some 2); Pending; Pending; Pending] 5 2
    [Ready (Some 1); Pending; Ready (Some 5)] [Ready (Some 2); Pending; Pending]) as (s & E & V0 & V1 & G0 & G1); [vm_compute; auto 9|].
  exists s. split; [exact E|]. split; [|auto].
  refine (r_map_ref nat nat (fold_right plus 0) [_; _] 3 _ [Ready (Some 3); Pending; Ready (Some 7)] _ [Ready (Some 3); Pending] _ (fun i v => v = val_of s i) _ _ _ _ eq_refl _ _ _).
  - discriminate.
  - apply Forall_cons; [|apply Forall_cons; [|apply Forall_nil]]; [exists 1, [Pending; Ready (Some 5); Pending]|exists 2, [Pending; Pending; Pending]]; reflexivity.
  - vm_compute. reflexivity.
  - not_ended.
  - vm_compute. reflexivity.
  - reflexivity.
  - intros [|[|i]] x x' H H'; cbn in H, H'; [| |destruct i; discriminate H]; injection H as <-; injection H' as <-; cbn; [exact G0|exact G1].
Qed.
