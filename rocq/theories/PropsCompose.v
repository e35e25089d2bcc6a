(** C71. See DESIGN.md for what is modelled and what the theorems rest on. *)
From Verif Require Import Base Conc Spec Mpsc VecDiff VecSpec MapDiff MapSpec SortSpec Shared MutVec MutMap Mutable MutableEx MutableFacts7 Broadcaster
  BroadcasterUse Sig SigSlots SigFlatFacts VecToSignal VecSimple Sort Chain ElemSignal Flatten SwitchVec MapComb MapCombFacts Slot Views FlattenSpec FlattenStep FilterSignalSpec FilterSignalStep
  Compose ComposeFacts.

(** ** C71: a signal built by any combinators from any number of shared sources shows what it is meant to show in the present
    state of the sources, once it has said Pending, or has ended, and nobody is going to wake it; and the diffs it has yielded
    can be applied at any time *)
Theorem C71_shows : forall k outs R, gives k outs R ->
  valid k (yielded outs) /\ (caught_up outs -> exists x, says k (yielded outs) x /\ R x).
Proof. exact @compose_shows. Qed.
Print Assumptions C71_shows.

(** No combinator of one input panics on such an input, however often it is polled. *)
Theorem C71_no_panic : forall a b m pre Rm inp R n, comb a b m pre Rm -> gives a inp R ->
  run (mpoll m) n (minit m, fresh inp) <> None.
Proof. exact @comb_no_panic. Qed.
Print Assumptions C71_no_panic.

(** Nor does a combinator with several inputs, also where [gives] says nothing about what it shows: the conditions under which
    filter_signal_cloned, flatten and chain are right are not needed here, and neither are those of filter and filter_map above. Inner Signals have a value from the start. *)
Theorem C71_no_panic_map_ref : forall A B (f : list A -> B) inps n, inps <> [] -> Forall has_initial inps -> run (map_ref_poll f) n (map_mut_init inps) <> None.
Proof. exact @map_ref_no_panic. Qed.
Print Assumptions C71_no_panic_map_ref.
Theorem C71_no_panic_switch : forall A B (inner_of : nat -> A -> list (poll (option B))) inp n, (forall k a, has_initial (inner_of k a)) ->
  run (switch_poll inner_of) n (switch_init inp) <> None.
Proof. exact @switch_no_panic. Qed.
Print Assumptions C71_no_panic_switch.
Theorem C71_no_panic_chain : forall A left right (R1 R2 : list A -> Prop) n, gives (KVec A) left R1 -> gives (KVec A) right R2 ->
  run chain_poll n (chain_init left right) <> None.
Proof. exact @chain_no_panic. Qed.
Print Assumptions C71_no_panic_chain.
Theorem C71_no_panic_map_signal : forall K B (inner_of : K -> list (poll (option B))) inp (R : list K -> Prop) n, gives (KVec K) inp R ->
  (forall k, has_initial (inner_of k)) -> run (map_signal_poll inner_of) n (map_signal_init inp) <> None.
Proof. exact @map_signal_no_panic. Qed.
Print Assumptions C71_no_panic_map_signal.
Theorem C71_no_panic_filter_signal : forall K (inner_of : K -> list (poll (option bool))) inp (R : list K -> Prop) n, gives (KVec K) inp R ->
  (forall k, has_initial (inner_of k)) -> run (filter_signal_poll inner_of) n (filter_signal_init inp) <> None.
Proof. exact @filter_signal_no_panic. Qed.
Print Assumptions C71_no_panic_filter_signal.
Theorem C71_no_panic_flatten : forall K A (inner_of : K -> list (poll (option (vecdiff A)))) inp (R : list K -> Prop) n, gives (KVec K) inp R ->
  (forall k, exists S, gives (KVec A) (inner_of k) S) -> run (flatten_vec_poll inner_of) n (flatten_vec_init inp) <> None.
Proof. exact @flatten_no_panic. Qed.
Print Assumptions C71_no_panic_flatten.
Theorem C71_no_panic_switch_vec : forall A B (inner_of : nat -> A -> list (poll (option (vecdiff B)))) inp n,
  (forall k a, exists S, gives (KVec B) (inner_of k a) S) -> run (switch_vec_poll inner_of) n (switch_vec_init inp) <> None.
Proof. exact @switch_vec_no_panic. Qed.
Print Assumptions C71_no_panic_switch_vec.
Theorem C71_no_panic_map_value_signal : forall K (cmp : K -> K -> comparison) V B (inner_of : V -> list (poll (option B))) inp (R : list (K * V) -> Prop) n,
  total_order cmp -> gives (KMap cmp V) inp R -> (forall v, has_initial (inner_of v)) -> run (mvs_poll cmp inner_of) n (mvs_init inp) <> None.
Proof. exact @map_value_signal_no_panic. Qed.
Print Assumptions C71_no_panic_map_value_signal.

(** ** Examples *)
Ltac few_diffs := intros pre d post E Hr; cbn in E;
  repeat (destruct pre as [|? pre]; [injection E as <- _; first [split; discriminate|vm_compute in Hr; discriminate]|injection E as <- E]);
  destruct pre; discriminate E.

(** Two MutableVecs. Both are subscribed to, then to each one an element is pushed; then they are polled [n] times. *)
Definition ex_push (x : nat) : list (act (MutVec.op nat)) := [ALock 7; AOp 7 (OPush x); ASend 7; ASend 7; ASend 7; AUnlock 7 false].
Definition ex_left_acts n : list (act (MutVec.op nat)) := [ASubscribe; APoll 0; APoll 0] ++ ex_push 5 ++ repeat (APoll 0) n.
Definition ex_right_acts n : list (act (MutVec.op nat)) := [ASubscribe; APoll 0] ++ ex_push 9 ++ repeat (APoll 0) n.
Example C71_left_ex : exists st, exec vec_step (sh_init [1]) (ex_left_acts 3) = Some st /\ contents st = [1; 5]
  /\ gives (KVec nat) [Ready (Some (Replace [1])); Pending; Ready (Some (Push 5)); Pending; Pending] (fun l => l = contents st).
Proof. apply (vec_ex _ _ 0). vm_compute. auto. Qed.
Example C71_right_ex : exists st, exec vec_step (sh_init []) (ex_right_acts 3) = Some st /\ contents st = [9]
  /\ gives (KVec nat) [Pending; Ready (Some (Push 9)); Pending; Pending] (fun l => l = contents st).
Proof. apply (vec_ex _ _ 0). vm_compute. auto. Qed.

(** [left.chain(right).len()] shows the number of elements of both. *)
Example C71_chain_len_ex : exists st1 st2, exec vec_step (sh_init [1]) (ex_left_acts 3) = Some st1 /\ exec vec_step (sh_init []) (ex_right_acts 3) = Some st2
  /\ gives (KSig nat) [Ready (Some 3); Pending]
    (fun n => exists l, (exists l1 l2, l1 = contents st1 /\ l2 = contents st2 /\ l = l1 ++ l2) /\ n = length l)
  /\ contents st1 = [1; 5] /\ contents st2 = [9].
Proof.
  destruct C71_left_ex as (st1 & E1 & C1 & G1). destruct C71_right_ex as (st2 & E2 & C2 & G2). exists st1, st2.
  split; [exact E1|]. split; [exact E2|]. split; [|auto].
  refine (g_comb (KVec nat) (KSig nat) _ _ _ [Ready (Some (Replace [1])); Ready (Some (Push 9)); Ready (Some (InsertAt 1 5)); Pending; Pending] 2 _ _ _ (c_len nat) _ I _).
  2: vm_compute; reflexivity.
  refine (g_chain nat _ _ 5 _ _ _ _ G1 G2 _ _ _ _ _); [few_diffs|few_diffs|vm_compute; reflexivity|reflexivity|reflexivity].
Qed.

(** Two Mutables, which contain 1 and 2, with a signal each; both are polled; then the first one is set to 5; then the first signal
    is polled twice, and the second one [n] times. *)
Definition ex_poll (k n : nat) : list (mu_move nat) := XPoll k :: repeat (XSig k) n.
Definition ex_sets (n : nat) : list (mu_move nat) :=
  [XNew 1; XNew 2; XSignal 0; XSignal 1] ++ repeat (XSig 0) 3 ++ repeat (XSig 1) 3
  ++ ex_poll 0 4 ++ ex_poll 1 4 ++ ex_poll 0 3 ++ ex_poll 1 3 ++ [XSet 0 5] ++ repeat (XOp 0) 10 ++ ex_poll 0 4 ++ ex_poll 0 3
  ++ concat (repeat (ex_poll 1 3) n).
Example C71_mutable_ex n : n < 3 -> exists s, exec mu_step (mu_init 0) (ex_sets n) = Some s /\ val_of s 0 = 5 /\ val_of s 1 = 2
  /\ gives (KSig nat) [Ready (Some 1); Pending; Ready (Some 5); Pending] (fun v => v = val_of s 0)
  /\ gives (KSig nat) (Ready (Some 2) :: repeat Pending (S n)) (fun v => v = val_of s 1).
Proof. intros Hn. destruct n as [|[|[|n]]]; [| | |lia]; apply mu_ex; vm_compute; auto. Qed.

(** [map_ref!(a, b => a + b)] *)
Example C71_map_ref_ex : exists s, exec mu_step (mu_init 0) (ex_sets 2) = Some s
  /\ gives (KSig nat) [Ready (Some 3); Pending; Ready (Some 7); Pending]
       (fun b => exists vs, length vs = 2 /\ (forall i v, nth_error vs i = Some v -> v = val_of s i) /\ b = fold_right plus 0 vs)
  /\ val_of s 0 = 5 /\ val_of s 1 = 2.
Proof.
  destruct (C71_mutable_ex 2 ltac:(lia)) as (s & E & V0 & V1 & G0 & G1). exists s. split; [exact E|]. split; [|auto].
  refine (g_map_ref nat nat (fold_right plus 0) [_; _] 4 _ _ (fun i v => v = val_of s i) _ _ _ _ _).
  - discriminate.
  - repeat constructor; vm_compute; eauto.
  - intros [|[|i]] inp H; cbn in H; [injection H as <-; exact G0|injection H as <-; exact G1|destruct i; discriminate H].
  - vm_compute. reflexivity.
  - reflexivity.
Qed.

(** A Broadcaster of the first one; its second child multiplies by 10. *)
Definition ex_bask (i v : nat) : list (bc_move nat nat) := [BPoll i (7 + i); BStep i; BStep i; BIn i (Ready (Some v)); BIn i Pending; BStep i; BStep i].
Definition ex_blook (i n : nat) : list (bc_move nat nat) := BPoll i (7 + i) :: repeat (BStep i) n.
Definition ex_bacts : list (bc_move nat nat) :=
  [BNew (fun a => a); BNew (fun a => 10 * a)] ++ ex_bask 0 1 ++ ex_blook 1 4 ++ ex_blook 0 5 ++ ex_blook 1 5 ++ BNotify :: repeat (BNote 0) 9
  ++ ex_bask 1 5 ++ ex_blook 0 4 ++ ex_blook 0 5 ++ ex_blook 1 5.
Example C71_broadcaster_ex : exists s b, exec mu_step (mu_init 0) (ex_sets 0) = Some s /\ exec bc_step (bc_init (fun a => a)) ex_bacts = Some b
  /\ gives (KSig nat) [Ready (Some 10); Pending; Ready (Some 50); Pending] (fun b => exists a, a = val_of s 0 /\ b = 10 * a).
Proof.
  destruct (C71_mutable_ex 0 ltac:(lia)) as (s & E & V0 & V1 & G0 & G1). exists s.
  destruct (bc_ex (fun a => a) ex_bacts 1 _ [Ready (Some 10); Pending; Ready (Some 50); Pending] (fun a => 10 * a) _ G0) as (b & Eb & Gb); [vm_compute; auto|].
  exists b. auto.
Qed.

(** [left.map_signal(|x| if x = 1 then the signal of the first Mutable else that of the second one)] *)
Definition ex_inner (x : nat) : list (poll (option nat)) :=
  if x =? 1 then [Ready (Some 1); Pending; Ready (Some 5); Pending] else [Ready (Some 2); Pending; Pending].
Example C71_map_signal_ex : exists st s, exec vec_step (sh_init [1]) (ex_left_acts 3) = Some st /\ exec mu_step (mu_init 0) (ex_sets 1) = Some s
  /\ gives (KVec nat) [Ready (Some (Replace [1])); Ready (Some (Push 2)); Ready (Some (UpdateAt 0 5)); Pending]
       (fun l => exists ks, ks = contents st /\ Forall2 (fun x v => v = val_of s (if x =? 1 then 0 else 1)) ks l)
  /\ contents st = [1; 5] /\ val_of s 0 = 5 /\ val_of s 1 = 2.
Proof.
  destruct C71_left_ex as (st & E1 & C1 & G). destruct (C71_mutable_ex 1 ltac:(lia)) as (s & E & V0 & V1 & G0 & G1). exists st, s.
  split; [exact E1|]. split; [exact E|]. split; [|auto].
  refine (g_map_signal nat nat ex_inner _ 4 _ _ _ (fun x v => v = val_of s (if x =? 1 then 0 else 1)) G _ _ _ _).
  - intros k. unfold ex_inner. destruct (k =? 1); do 2 eexists; reflexivity.
  - vm_compute. reflexivity.
  - reflexivity.
  - intros m [<-|[<-|[]]]; cbn; [exact G0|exact G1].
Qed.

(** A MutableVec of two SignalVecs. The first one, which is emptied, is removed; the second one belongs to a MutableVec: [outer.flatten()]. *)
Definition ex_outer_acts : list (act (MutVec.op nat)) :=
  [ASubscribe; APoll 0; APoll 0; ALock 7; AOp 7 (ORemove 0); ASend 7; ASend 7; ASend 7; AUnlock 7 false; APoll 0; APoll 0].
Definition ex_items (k : nat) : list (poll (option (vecdiff nat))) :=
  if k =? 0 then [Ready (Some (Replace [1; 2])); Pending; Ready (Some Clear); Pending]
  else [Ready (Some (Replace [1])); Pending; Ready (Some (Push 5)); Pending; Pending].
Example C71_flatten_ex : exists st1 st2, exec vec_step (sh_init [0; 1]) ex_outer_acts = Some st1 /\ exec vec_step (sh_init [1]) (ex_left_acts 3) = Some st2
  /\ gives (KVec nat) [Ready (Some (Replace [1; 2; 1])); Ready (Some (RemoveAt 1)); Ready (Some (RemoveAt 0)); Ready (Some (InsertAt 1 5)); Pending]
       (fun l => exists ks ls, ks = contents st1 /\ Forall2 (fun k l => k = 1 -> l = contents st2) ks ls /\ l = concat ls)
  /\ contents st1 = [1] /\ contents st2 = [1; 5].
Proof.
  assert (G1 : exists st, exec vec_step (sh_init [0; 1]) ex_outer_acts = Some st /\ contents st = [1]
    /\ gives (KVec nat) [Ready (Some (Replace [0; 1])); Pending; Ready (Some (RemoveAt 0)); Pending] (fun l => l = contents st))
    by (apply (vec_ex _ _ 0); vm_compute; auto).
  destruct G1 as (st1 & E1 & C1 & G1). destruct C71_left_ex as (st2 & E2 & C2 & G2). exists st1, st2.
  split; [exact E1|]. split; [exact E2|]. split; [|auto].
  refine (g_flatten nat nat ex_items _ 5 _ _ _ (fun k l => k = 1 -> l = contents st2) G1 _ _ _ _ _).
  - intros k. unfold ex_items. destruct (k =? 0); vm_compute; discriminate.
  - right. exists 0. split; [left; reflexivity|]. split; [lia|]. intros m Hm. do 5 (destruct m as [|m]; [apply harmless_intro; vm_compute; auto|]). lia.
  - vm_compute. reflexivity.
  - reflexivity.
  - intros f [<-|[]]. cbn. refine (g_other (KVec nat) _ _ _ _); [vm_compute; discriminate|].
    intros Hc. destruct (C71_shows _ _ _ G2) as [_ X]. destruct (X Hc) as (v & Hs & Hv). exists v. auto.
Qed.

(** [first.switch(|v| the second one)] *)
Example C71_switch_ex : exists s, exec mu_step (mu_init 0) (ex_sets 0) = Some s
  /\ gives (KSig nat) [Ready (Some 10); Pending; Ready (Some 2); Pending] (fun b => exists a, a = val_of s 0 /\ (a = 5 -> b = val_of s 1))
  /\ val_of s 0 = 5 /\ val_of s 1 = 2.
Proof.
  destruct (C71_mutable_ex 0 ltac:(lia)) as (s & E & V0 & V1 & G0 & G1). exists s. split; [exact E|]. split; [|auto].
  refine (g_switch nat nat (fun k a => if k =? 0 then [Ready (Some 10)] else [Ready (Some 2); Pending]) _ 4 _ _ _ (fun a b => a = 5 -> b = val_of s 1) G0 _ _ _ _).
  - intros k a. destruct (k =? 0); do 2 eexists; reflexivity.
  - vm_compute. reflexivity.
  - reflexivity.
  - intros older a f H. cbn in H. destruct older as [|x [|y older]].
    + discriminate H.
    + injection H as _ <- <-. cbn. refine (g_other (KSig nat) _ _ I _). intros Hc. destruct (C71_shows _ _ _ G1) as [_ X]. destruct (X Hc) as (v & Hs & Hv). exists v. auto.
    + injection H as _ _ H. destruct older; discriminate H.
Qed.

(** A MutableBTreeMap of keys of the Mutables: [map.map_value_signal(|x| as above)] *)
Definition ex_map_acts : list (act (mop nat nat)) :=
  [ASubscribe; APoll 0; APoll 0; ALock 7; AOp 7 (MOInsert 3 2); ASend 7; ASend 7; ASend 7; AUnlock 7 false; APoll 0; APoll 0; APoll 0].
Example C71_map_ex : exists st, exec (Shared.map_step Nat.compare) (sh_init [(4, 1)]) ex_map_acts = Some st /\ contents st = [(3, 2); (4, 1)]
  /\ gives (KMap Nat.compare nat) [Ready (Some (MReplace [(4, 1)])); Pending; Ready (Some (MInsert 3 2)); Pending; Pending] (fun l => l = contents st).
Proof. apply (map_ex _ _ 0); [repeat constructor|]. vm_compute. auto. Qed.
Example C71_map_value_signal_ex : exists st s, exec (Shared.map_step Nat.compare) (sh_init [(4, 1)]) ex_map_acts = Some st /\ exec mu_step (mu_init 0) (ex_sets 1) = Some s
  /\ gives (KMap Nat.compare nat) [Ready (Some (MReplace [(4, 1)])); Ready (Some (MInsert 3 2)); Ready (Some (MUpdate 4 5)); Pending]
       (fun l => exists es, es = contents st /\ Forall2 (fun e x => fst e = fst x /\ snd x = val_of s (if snd e =? 1 then 0 else 1)) es l)
  /\ contents st = [(3, 2); (4, 1)] /\ val_of s 0 = 5 /\ val_of s 1 = 2.
Proof.
  destruct C71_map_ex as (st & E1 & C1 & G). destruct (C71_mutable_ex 1 ltac:(lia)) as (s & E & V0 & V1 & G0 & G1). exists st, s.
  split; [exact E1|]. split; [exact E|]. split; [|auto].
  refine (g_map_value_signal nat Nat.compare nat nat ex_inner _ 4 _ _ _ (fun x v => v = val_of s (if x =? 1 then 0 else 1)) nat_order G _ _ _ _).
  - intros k. unfold ex_inner. destruct (k =? 1); do 2 eexists; reflexivity.
  - vm_compute. reflexivity.
  - reflexivity.
  - intros m [<-|[<-|[]]]; cbn; [exact G1|exact G0].
Qed.
