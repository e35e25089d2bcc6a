(** Programs with SignalVec pipelines on an executor (VecExec.v): the invariant of all executions. *)
From Verif Require Import Base Conc Spec BaseFacts VecDiff VecFacts VecSpec VecSimple Sort SortSpec
  Chain ChainFacts Slot SlotFacts MutVec MutVecSpec MutVecFacts MutVecRun VecExec VecExecFacts VecExecRun.

Section End.
Context {V : Type}.
Notation ans := (poll (option (vecdiff V))).
Implicit Types (s : sig V) (v : vecs V) (w : world V) (x : task V).

(** ** Events *)

Definition quiet (e : event V) : Prop := match e with EOp _ | EClone | EDrop => True | _ => False end.

Lemma event_subs (e : event V) st : inv st -> quiet e -> forall id y, nth_error (subs st) id = Some y ->
  exists z, nth_error (subs (mv_event e st)) id = Some z /\ alive z = alive y /\ got z = got y.
Proof.
  intros [W Hall] He id y Hy. destruct e as [o| |k|k| |]; try contradiction.
  - destruct ((0 <? owners st) && negb (poisoned st)) eqn:Eb.
    + apply andb_prop in Eb. destruct Eb as [E1 E2]. apply Nat.ltb_lt in E1. apply negb_true_iff in E2.
      destruct (op_event o (values st)) as [(_ & v' & H)|(_ & v' & ds & r & _ & _ & _ & H)]; specialize (H st eq_refl W E1 E2).
      * destruct H as [_ ->]. exists y. auto.
      * destruct H as (_ & _ & _ & -> & _). rewrite nth_error_map, Hy. eexists. split; [reflexivity|]. split; [apply alive_recv|].
        unfold recv. destruct (alive y); reflexivity.
    + unfold mv_event. rewrite Eb. eauto.
  - unfold mv_event. destruct (0 <? owners st); eauto.
  - unfold mv_event. destruct (owners st) as [|[|n]]; eauto. cbn. rewrite nth_error_map, Hy. eexists. split; [reflexivity|]. auto.
Qed.

Lemma event_len (e : event V) st : inv st -> quiet e -> length (subs (mv_event e st)) = length (subs st).
Proof.
  intros [W Hall] He. destruct e as [o| |k|k| |]; try contradiction.
  - destruct ((0 <? owners st) && negb (poisoned st)) eqn:Eb.
    + apply andb_prop in Eb. destruct Eb as [E1 E2]. apply Nat.ltb_lt in E1. apply negb_true_iff in E2.
      destruct (op_event o (values st)) as [(_ & v' & H)|(_ & v' & ds & r & _ & _ & _ & H)]; specialize (H st eq_refl W E1 E2).
      * destruct H as [_ ->]. reflexivity.
      * destruct H as (_ & _ & _ & -> & _). apply map_length.
    + unfold mv_event. rewrite Eb. reflexivity.
  - unfold mv_event. destruct (0 <? owners st); reflexivity.
  - unfold mv_event. destruct (owners st) as [|[|n]]; try reflexivity. cbn. apply map_length.
Qed.

(** Without a handle nothing changes any more. *)
Lemma event_dead (e : event V) st : quiet e -> owners st = 0 -> mv_event e st = st.
Proof. intros He Ho. destruct e; try contradiction; unfold mv_event; rewrite Ho; reflexivity. Qed.

Lemma drop_frame v m id : frame [(m, id)] v (fupd m (mv_event (EDropSub id) (v m)) v).
Proof.
  destruct (nth_error (subs (v m)) id) as [y|] eqn:Hy.
  2:{ assert (E : mv_event (EDropSub id) (v m) = v m) by (unfold mv_event; rewrite Hy; reflexivity).
      rewrite E. constructor; unfold fupd; intros; try (destruct (Nat.eqb_spec m0 m) as [->|?]); auto. }
  constructor.
  - intros H k. unfold fupd. destruct (Nat.eqb_spec k m) as [->|n]; [apply event_inv|]; apply H.
  - intros k. unfold fupd. destruct (Nat.eqb_spec k m) as [->|n]; [|auto]. unfold mv_event. rewrite Hy. auto.
  - intros k i Hni. unfold fupd. destruct (Nat.eqb_spec k m) as [->|n]; [|reflexivity].
    unfold mv_event. rewrite Hy. unfold set_sub. cbn [subs]. rewrite (nth_replace _ _ _ _ _ Hy).
    destruct (Nat.eqb_spec i id) as [->|n]; [|reflexivity]. exfalso. apply Hni. left. reflexivity.
  - intros k. unfold fupd. destruct (Nat.eqb_spec k m) as [->|n]; [|reflexivity].
    unfold mv_event. rewrite Hy. unfold set_sub. cbn [subs]. apply (length_replace _ _ _ _ Hy).
Qed.

Lemma drop_leaves_frame L : forall v, frame L v (fold_left drop_leaf L v).
Proof.
  induction L as [|[m id] L IH]; intros v; cbn [fold_left]; [apply frame_refl|].
  apply (frame_trans _ _ (drop_leaf v (m, id))).
  - apply (frame_sub [(m, id)]); [|apply drop_frame]. intros l [<-|[]]. left. reflexivity.
  - apply (frame_sub L); [|apply IH]. intros l Hl. right. exact Hl.
Qed.

Lemma drop_sig_frame s v : frame (leaves s) v (drop_sig s v).
Proof. apply drop_leaves_frame. Qed.

(** ** The invariant *)

Definition live (p : tpc) : bool := negb (is_over p).

(** What is known of a task that has completed. *)
Definition finished v x : Prop :=
  last_out (t_outs x) (Ready None)
  /\ (forall m id, In (m, id) (leaves (t_sig x)) -> owners (v m) = 0)
  /\ (tame (t_sig x) -> (forall m id, In (m, id) (leaves (t_sig x)) -> poisoned (v m) = false) ->
      exists out, replay (seen x) = Some out /\ shows (fun m => values (v m)) (t_sig x) out).

Definition task_ok w x : Prop :=
  NoDup (leaves (t_sig x)) /\ pipe_of (t_sig x) = t_pipe x
  /\ (forall m id, In (m, id) (leaves (t_sig x)) -> m < w_nvec w /\ id < length (subs (w_vec w m)))
  /\ match t_pc x with
     | TSleep => ok (w_vec w) (t_sig x) (t_outs x) /\ ~ In (Ready None) (t_outs x)
                 /\ (t_woken x = false -> last_out (t_outs x) Pending /\ (tame (t_sig x) -> settled (w_vec w) (leaves (t_sig x))))
     | TRun | TCall | TFut => ok (w_vec w) (t_sig x) (t_outs x) /\ ~ In (Ready None) (t_outs x)
     | TDone => finished (w_vec w) x
     | TGone => True
     | TPanic => ~ tame (t_sig x)
     end.

Definition winv w : Prop :=
  (forall m, inv (w_vec w m))
  /\ (forall t, t < w_nt w -> task_ok w (w_task w t))
  /\ (forall t u l, t < w_nt w -> u < w_nt w -> t <> u -> In l (leaves (t_sig (w_task w t))) -> ~ In l (leaves (t_sig (w_task w u)))).

Lemma init_winv : winv w_init.
Proof. split; [intros m; apply new_inv|]. split; intros t; simpl; lia. Qed.

(** A task that does not take part in what happens. *)
Lemma task_kept w w' x :
  task_ok w x ->
  w_nvec w <= w_nvec w' ->
  (forall m id y, In (m, id) (leaves (t_sig x)) -> nth_error (subs (w_vec w m)) id = Some y -> nth_error (subs (w_vec w' m)) id = Some y) ->
  (forall m id, In (m, id) (leaves (t_sig x)) ->
     values (w_vec w' m) = values (w_vec w m) /\ owners (w_vec w' m) = owners (w_vec w m) /\ poisoned (w_vec w' m) = poisoned (w_vec w m)) ->
  task_ok w' x.
Proof.
  intros (H1 & H2 & H3 & H4) Hn Hs Hv. split; [exact H1|]. split; [exact H2|]. split.
  - intros m id Hi. destruct (H3 m id Hi) as [A B]. split; [lia|].
    destruct (nth_error (subs (w_vec w m)) id) as [y|] eqn:Ey; [|apply nth_error_None in Ey; lia].
    apply nth_error_Some. rewrite (Hs m id y Hi Ey). discriminate.
  - assert (K : forall outs, ok (w_vec w) (t_sig x) outs -> ok (w_vec w') (t_sig x) outs).
    { apply ok_same. intros m id y Hi Hy. exists y. split; [exact (Hs m id y Hi Hy)|auto]. }
    assert (S : settled (w_vec w) (leaves (t_sig x)) -> settled (w_vec w') (leaves (t_sig x))).
    { intros Hset m id Hi. destruct (Hset m id Hi) as (y & Hy & Hw). exists y. split; [exact (Hs m id y Hi Hy)|exact Hw]. }
    destruct (t_pc x); try exact H4.
    + destruct H4 as (A & B & C). split; [exact (K _ A)|]. split; [exact B|]. intros Hw. destruct (C Hw) as [C1 C2]. split; [exact C1|].
      intros T. exact (S (C2 T)).
    + destruct H4 as [A B]. split; [exact (K _ A)|exact B].
    + destruct H4 as [A B]. split; [exact (K _ A)|exact B].
    + destruct H4 as [A B]. split; [exact (K _ A)|exact B].
    + destruct H4 as (A & B & C). split; [exact A|]. split.
      * intros m id Hi. destruct (Hv m id Hi) as (_ & -> & _). exact (B m id Hi).
      * intros T Hp. destruct C as (out & R & Sh); [exact T| |].
        { intros m id Hi. destruct (Hv m id Hi) as (_ & _ & <-). exact (Hp m id Hi). }
        exists out. split; [exact R|]. clear - Sh Hv. revert out Sh Hv. generalize (t_sig x). intros s.
        induction s as [m id|c st log s IH|st s1 IH1 s2 IH2]; intros out Sh Hv; simpl in *.
        -- destruct (Hv m id (or_introl eq_refl)) as (-> & _). exact Sh.
        -- destruct Sh as (l & Sh & M). exists l. split; [exact (IH l Sh Hv)|exact M].
        -- destruct Sh as (l1 & l2 & S1 & S2 & E). exists l1, l2. split; [|split; [|exact E]].
           ++ apply IH1; [exact S1|]. intros m id Hi. apply (Hv m id). apply in_or_app. left. exact Hi.
           ++ apply IH2; [exact S2|]. intros m id Hi. apply (Hv m id). apply in_or_app. right. exact Hi.
Qed.

(** The same task, rescheduled. *)
Lemma task_ok_w w w' x : task_ok w x -> w_vec w' = w_vec w -> w_nvec w' = w_nvec w -> task_ok w' x.
Proof. intros H E1 E2. apply (task_kept w); [exact H|lia| |]; rewrite E1; auto. Qed.

Lemma framed w L v' nt f nvec : winv w -> frame L (w_vec w) v' -> w_nvec w <= nvec -> forall t, t < w_nt w ->
  (forall l, In l (leaves (t_sig (w_task w t))) -> ~ In l L) -> task_ok (mkW v' nvec f nt) (w_task w t).
Proof.
  intros (_ & Ht & _) F Hn t Hlt Hd. apply (task_kept w); [exact (Ht t Hlt)|exact Hn| |]; cbn.
  - intros m id y Hi Hy. rewrite (fr_other _ _ _ F); auto.
  - intros m id _. apply (fr_vals _ _ _ F).
Qed.

Lemma happens_winv m e w : winv w -> quiet e -> winv (happens m e w).
Proof.
  intros (Hv & Ht & Hd) He. split; [|split].
  - intros k. cbn. unfold fupd. destruct (Nat.eqb_spec k m) as [->|n]; [apply event_inv|]; apply Hv.
  - intros t Hlt. cbn in Hlt. destruct (Ht t Hlt) as (H1 & H2 & H3 & H4). cbn [happens w_task].
    split; [exact H1|]. split; [exact H2|]. cbn [t_sig t_pc t_outs t_woken happens w_vec w_nvec].
    assert (Sub : forall k id y, nth_error (subs (w_vec w k)) id = Some y ->
      exists z, nth_error (subs (fupd m (mv_event e (w_vec w m)) (w_vec w) k)) id = Some z /\ alive z = alive y /\ got z = got y).
    { intros k id y Hy. unfold fupd. destruct (Nat.eqb_spec k m) as [->|n]; [exact (event_subs e _ (Hv m) He id y Hy)|eauto]. }
    split.
    { intros k id Hi. destruct (H3 k id Hi) as [A B]. split; [exact A|]. unfold fupd. destruct (Nat.eqb_spec k m) as [->|n]; [|exact B].
      rewrite (event_len e _ (Hv m) He). exact B. }
    assert (K : forall outs, ok (w_vec w) (t_sig (w_task w t)) outs -> ok (fupd m (mv_event e (w_vec w m)) (w_vec w)) (t_sig (w_task w t)) outs).
    { apply ok_same. intros k id y _ Hy. exact (Sub k id y Hy). }
    destruct (t_pc (w_task w t)); try exact H4.
    + destruct H4 as (A & B & C). split; [exact (K _ A)|]. split; [exact B|]. intros Hw. apply orb_false_iff in Hw. destruct Hw as [W1 W2].
      destruct (C W1) as [C1 C2]. split; [exact C1|]. intros T k id Hi. destruct (C2 T k id Hi) as (y & Hy & Hyw).
      destruct (Sub k id y Hy) as (z & Hz & _ & Gz). exists z. split; [exact Hz|]. destruct Hyw as [Hyw|Hyw]; [|right; congruence].
      destruct (Nat.eq_dec k m) as [->|n].
      * left. destruct (waiting z) eqn:Ez; [reflexivity|]. exfalso. apply Bool.not_true_iff_false in W2. apply W2. apply existsb_exists.
        exists (m, id). split; [exact Hi|]. cbn. rewrite Nat.eqb_refl. unfold fired. rewrite fupd_same in Hz. rewrite Hy, Hz, Hyw, Ez. reflexivity.
      * rewrite (fupd_other _ _ _ _ n), Hy in Hz. injection Hz as <-. left. exact Hyw.
    + destruct H4 as [A B]. split; [exact (K _ A)|exact B].
    + destruct H4 as [A B]. split; [exact (K _ A)|exact B].
    + destruct H4 as [A B]. split; [exact (K _ A)|exact B].
    + assert (E : forall k id, In (k, id) (leaves (t_sig (w_task w t))) -> fupd m (mv_event e (w_vec w m)) (w_vec w) k = w_vec w k).
      { intros k id Hi. unfold fupd. destruct (Nat.eqb_spec k m) as [->|n]; [|reflexivity]. apply event_dead; [exact He|].
        destruct H4 as (_ & B & _). exact (B m id Hi). }
      destruct H4 as (A & B & C). split; [exact A|]. split; cbn [t_sig].
      * intros k id Hi. rewrite (E k id Hi). exact (B k id Hi).
      * intros T Hp. destruct C as (out & R & Sh); [exact T| |].
        { intros k id Hi. rewrite <- (E k id Hi). exact (Hp k id Hi). }
        exists out. split; [exact R|]. clear - Sh E. revert out Sh E. generalize (t_sig (w_task w t)). intros s.
        induction s as [k id|c st log s IH|st s1 IH1 s2 IH2]; intros out Sh E; simpl in *.
        -- rewrite (E k id (or_introl eq_refl)). exact Sh.
        -- destruct Sh as (l & Sh & M). exists l. split; [exact (IH l Sh E)|exact M].
        -- destruct Sh as (l1 & l2 & S1 & S2 & Eq). exists l1, l2. split; [|split; [|exact Eq]].
           ++ apply IH1; [exact S1|]. intros k id Hi. apply (E k id). apply in_or_app. left. exact Hi.
           ++ apply IH2; [exact S2|]. intros k id Hi. apply (E k id). apply in_or_app. right. exact Hi.
  - intros t u l Hlt Hu Hne. cbn in *. apply Hd; assumption.
Qed.

(** One task changes. *)
Lemma one_task w t x v' : winv w -> t < w_nt w -> frame (leaves (t_sig (w_task w t))) (w_vec w) v' ->
  leaves (t_sig x) = leaves (t_sig (w_task w t)) ->
  task_ok (mkW v' (w_nvec w) (w_task w) (w_nt w)) x ->
  winv (mkW v' (w_nvec w) (fupd t x (w_task w)) (w_nt w)).
Proof.
  intros Hw Hlt F Hl Hx. pose proof Hw as (Hv & Ht & Hd). split; [exact (fr_inv _ _ _ F Hv)|]. split.
  - intros u Hu. cbn in *. unfold fupd. destruct (Nat.eqb_spec u t) as [->|n].
    + apply (task_ok_w (mkW v' (w_nvec w) (w_task w) (w_nt w))); [exact Hx|reflexivity|reflexivity].
    + apply (framed w (leaves (t_sig (w_task w t)))); [exact Hw|exact F|lia|exact Hu|]. intros l H. apply (Hd u t); auto.
  - intros a b l Ha Hb Hab. cbn in *. unfold fupd. destruct (Nat.eqb_spec a t) as [->|na], (Nat.eqb_spec b t) as [->|nb]; try rewrite Hl.
    + congruence.
    + apply Hd; auto.
    + apply Hd; auto.
    + apply Hd; auto.
Qed.

Lemma set_task_winv w t x : winv w -> t < w_nt w -> t_sig x = t_sig (w_task w t) -> task_ok w x -> winv (set_task t x w).
Proof.
  intros Hw Hlt Hs Hx. unfold set_task. apply (one_task w t x (w_vec w)); auto.
  - apply frame_refl.
  - rewrite Hs. reflexivity.
Qed.

Lemma step_winv w mv w' : winv w -> step w mv = Some w' -> winv w'.
Proof.
  intros Hw E. pose proof Hw as (Hv & Ht & Hd). destruct mv as [vs|m|m|m o|p|t|t|t|t n|t r]; cbn [step] in E.
  - injection E as <-. split; [|split].
    + intros m. cbn. unfold fupd. destruct (m =? w_nvec w); [apply new_inv|apply Hv].
    + intros t Hlt. cbn in *. apply (task_kept w); [exact (Ht t Hlt)|cbn; lia| |]; cbn; destruct (Ht t Hlt) as (_ & _ & H3 & _).
      * intros m id y Hi Hy. rewrite fupd_other; [exact Hy|]. specialize (H3 m id Hi). lia.
      * intros m id Hi. rewrite fupd_other; [auto|]. specialize (H3 m id Hi). lia.
    + exact Hd.
  - destruct (held m w); [|discriminate]. injection E as <-. apply happens_winv; [exact Hw|exact I].
  - destruct (held m w); [|discriminate]. injection E as <-. apply happens_winv; [exact Hw|exact I].
  - destruct (held m w); [|discriminate]. injection E as <-. apply happens_winv; [exact Hw|exact I].
  - destruct (closed (w_nvec w) (w_vec w) p) eqn:Hc; [|discriminate]. destruct (build p (w_vec w)) as [s v] eqn:Eb. injection E as <-.
    destruct (build_ok p _ _ _ _ Eb Hc Hv) as (B1 & B2 & B3 & B4 & B5 & B6 & B7 & B8).
    split; [exact B4|]. split.
    + intros t Hlt. cbn in *. unfold fupd. destruct (Nat.eqb_spec t (w_nt w)) as [->|n].
      * split; [exact B3|]. split; [exact B2|]. split.
        -- intros m id Hi. cbn in *. split; [exact (B8 m id Hi)|]. apply B5. exact Hi.
        -- cbn. split; [exact B1|]. split; [intros []|discriminate].
      * apply (task_kept w); [apply Ht; lia|cbn; lia| |]; cbn; auto.
    + intros t u l Hlt Hu Hne. cbn in *. unfold fupd.
      assert (X : forall t l, t < w_nt w -> In l (leaves (t_sig (w_task w t))) -> ~ In l (leaves s)).
      { intros t0 [m id] Ht0 Hi Hj. destruct (Ht t0 Ht0) as (_ & _ & H3 & _). specialize (H3 m id Hi). specialize (B5 m id Hj). lia. }
      destruct (Nat.eqb_spec t (w_nt w)) as [->|n1], (Nat.eqb_spec u (w_nt w)) as [->|n2]; cbn.
      * congruence.
      * intros Hi Hj. apply (X u l); [lia|exact Hj|exact Hi].
      * apply X. lia.
      * apply Hd; lia.
  - destruct ((t <? w_nt w) && negb (is_over (t_pc (w_task w t)))) eqn:Eg; [|discriminate]. injection E as <-.
    apply andb_prop in Eg. destruct Eg as [Hlt _]. apply Nat.ltb_lt in Hlt.
    pose proof (drop_sig_frame (t_sig (w_task w t)) (w_vec w)) as F.
    unfold set_task. cbn. apply (one_task w t _ _ Hw Hlt F); [reflexivity|]. destruct (Ht t Hlt) as (H1 & H2 & H3 & _).
    split; [exact H1|]. split; [exact H2|]. split; [|exact I]. cbn. intros m id Hi. rewrite (fr_len _ _ _ F). exact (H3 m id Hi).
  - destruct (t <? w_nt w) eqn:Hlt; [|discriminate]. injection E as <-. apply Nat.ltb_lt in Hlt.
    apply set_task_winv; [exact Hw|exact Hlt|reflexivity|]. destruct (Ht t Hlt) as (H1 & H2 & H3 & H4).
    split; [exact H1|]. split; [exact H2|]. split; [exact H3|]. cbn [t_pc t_sig t_outs t_woken]. destruct (t_pc (w_task w t)); try exact H4.
    destruct H4 as (A & B & _). split; [exact A|]. split; [exact B|discriminate].
  - destruct ((t <? w_nt w) && t_woken (w_task w t)) eqn:Eg; [|discriminate].
    apply andb_prop in Eg. destruct Eg as [Hlt _]. apply Nat.ltb_lt in Hlt. destruct (Ht t Hlt) as (H1 & H2 & H3 & H4).
    destruct (t_pc (w_task w t)); try discriminate; injection E as <-; apply set_task_winv; auto;
      (split; [exact H1|]; split; [exact H2|]; split; [exact H3|]; cbn; tauto).
  - destruct (t_pc (w_task w t)) eqn:Epc; try discriminate. destruct (t <? w_nt w) eqn:Hlt; [|discriminate]. apply Nat.ltb_lt in Hlt.
    destruct (Ht t Hlt) as (H1 & H2 & H3 & H4). rewrite Epc in H4. destruct H4 as [Hok Hne].
    pose proof (poll_sig_good n (t_sig (w_task w t)) (w_vec w) _ Hv Hok Hne H1) as X.
    destruct (poll_sig n (t_sig (w_task w t)) (w_vec w)) as [|s v|s v r]; [discriminate| |].
    + destruct X as (X1 & X2 & X3 & X4 & _). injection E as <-. apply one_task; auto.
      split; [cbn; rewrite X2; exact H1|]. split; [cbn; congruence|]. cbn. rewrite X2. split; [|exact X1].
      intros m id Hi. rewrite (fr_len _ _ _ X4). exact (H3 m id Hi).
    + destruct X as (X1 & X2 & X3 & X4 & X5).
      assert (L : forall m id, In (m, id) (leaves (t_sig (w_task w t))) -> m < w_nvec w /\ id < length (subs (v m))).
      { intros m id Hi. rewrite (fr_len _ _ _ X4). exact (H3 m id Hi). }
      assert (Hno : r <> Ready None -> ~ In (Ready None) (t_outs (w_task w t) ++ [r])).
      { intros Hr Hi. apply in_app_or in Hi. destruct Hi as [Hi|[Hi|[]]]; [exact (Hne Hi)|congruence]. }
      destruct r as [|[d|]]; injection E as <-.
      * apply one_task; auto. split; [cbn; rewrite X2; exact H1|]. split; [cbn; congruence|]. cbn. rewrite X2. split; [exact L|].
        split; [exact X1|]. split; [apply Hno; discriminate|]. intros _. split; [eexists; reflexivity|]. exact (X5 eq_refl).
      * apply one_task; auto. split; [cbn; rewrite X2; exact H1|]. split; [cbn; congruence|]. cbn. rewrite X2. split; [exact L|].
        split; [exact X1|]. apply Hno. discriminate.
      * pose proof (drop_sig_frame s v) as F. rewrite X2 in F.
        apply one_task; auto. { exact (frame_trans _ _ _ _ X4 F). }
        split; [cbn; rewrite X2; exact H1|]. split; [cbn; congruence|]. cbn. rewrite X2. split.
        { intros m id Hi. rewrite (fr_len _ _ _ F). exact (L m id Hi). }
        assert (Hend : In (Ready None) (t_outs (w_task w t) ++ [Ready None])) by (apply in_or_app; right; left; reflexivity).
        pose proof (ok_ended v s _ X1 Hend) as He. rewrite X2 in He. pose proof (fr_inv _ _ _ X4 Hv) as Hv1.
        split; [eexists; reflexivity|]. cbn [t_sig]. rewrite X2. split.
        -- intros m id Hi. destruct (fr_vals _ _ _ F m) as (_ & -> & _). destruct (He m id Hi) as (y & Hy & Ha & Hg).
           destruct (Hv1 m) as [_ Hs]. destruct (Hs id y Hy Ha) as (_ & _ & _ & Z). apply Z. exact Hg.
        -- intros T Hp. destruct (ok_shows v s Hv1 _ X1 T) as (out & R & Sh).
           ++ rewrite X2. intros m id y Hi Hy. split; [destruct (fr_vals _ _ _ F m) as (_ & _ & <-); exact (Hp m id Hi)|].
              destruct (He m id Hi) as (y' & Hy' & Ha & Hg). rewrite Hy in Hy'. injection Hy' as <-.
              destruct (Hv1 m) as [_ Hs]. destruct (Hs id y Hy Ha) as (_ & _ & _ & Z). apply Z. exact Hg.
           ++ right. eexists. reflexivity.
           ++ exists out. split; [exact R|].
              assert (Ev : forall m, values (drop_sig s v m) = values (v m)) by (intros m; apply (fr_vals _ _ _ F)).
              clear - Sh Ev. revert out Sh. generalize s at 1 3 as s0. intros s0. induction s0 as [k id|c st log s0 IH|st s1 IH1 s2 IH2]; intros out Sh; simpl in *.
              ** rewrite Ev. exact Sh.
              ** destruct Sh as (l & Sh & M). exists l. split; [exact (IH l Sh)|exact M].
              ** destruct Sh as (l1 & l2 & S1 & S2 & Eq). exists l1, l2. auto.
  - destruct (t_pc (w_task w t)) eqn:Epc; try discriminate. destruct (t <? w_nt w) eqn:Hlt; [|discriminate]. apply Nat.ltb_lt in Hlt.
    injection E as <-. destruct (Ht t Hlt) as (H1 & H2 & H3 & H4). rewrite Epc in H4.
    apply set_task_winv; auto. split; [exact H1|]. split; [exact H2|]. split; [exact H3|]. cbn. destruct r; exact H4.
Qed.

Lemma reach_winv l w : exec step w_init l = Some w -> winv w.
Proof. intros H. exact (exec_inv step winv (fun w m w' Hw E => step_winv w m w' Hw E) l w_init w init_winv H). Qed.

(** ** What follows *)

Lemma pipe_leaves s : forall w, unpoisoned w (pipe_of s) -> forall m id, In (m, id) (leaves s) -> poisoned (w_vec w m) = false.
Proof.
  induction s as [m id|c st log s IH|st s1 IH1 s2 IH2]; intros w H k i Hi; simpl in *.
  - destruct Hi as [Hi|[]]. injection Hi as <- <-. exact H.
  - exact (IH w H k i Hi).
  - apply in_app_or in Hi. destruct H as [Ha Hb], Hi as [Hi|Hi]; eauto.
Qed.

(** A task that sleeps and was not woken. *)
Lemma asleep_shows mvs w t : exec step w_init mvs = Some w -> t < w_nt w ->
  t_pc (w_task w t) = TSleep -> t_woken (w_task w t) = false ->
  tame (t_sig (w_task w t)) -> unpoisoned w (t_pipe (w_task w t)) ->
  pipe_of (t_sig (w_task w t)) = t_pipe (w_task w t)
  /\ exists out, replay (seen (w_task w t)) = Some out /\ shows (contents w) (t_sig (w_task w t)) out.
Proof.
  intros H Hlt Hpc Hwk T Hp. destruct (reach_winv _ _ H) as (Hv & Ht & _). destruct (Ht t Hlt) as (H1 & H2 & H3 & H4).
  rewrite Hpc in H4. destruct H4 as (Hok & Hne & Hs). destruct (Hs Hwk) as [Hl Hset]. split; [exact H2|].
  apply (ok_shows (w_vec w) (t_sig (w_task w t)) Hv (t_outs (w_task w t)) Hok T); [|left; exact Hl].
  intros m id x Hi Hx. split.
  - rewrite <- H2 in Hp. exact (pipe_leaves _ _ Hp m id Hi).
  - destruct (Hset T m id Hi) as (y & Hy & Hw). rewrite Hx in Hy. injection Hy as <-.
    assert (Ha : alive x = true).
    { clear - Hok Hi Hx. revert Hok Hi. generalize (t_outs (w_task w t)). generalize (t_sig (w_task w t)). intros s.
      induction s as [m' id'|c st log s IH|st s1 IH1 s2 IH2]; intros outs Hok Hi; simpl in *.
      - destruct Hi as [Hi|[]]. injection Hi as <- <-. destruct Hok as (y & Hy & Ha & _). rewrite Hx in Hy. injection Hy as <-. exact Ha.
      - destruct Hok as [Hok _]. eauto.
      - destruct Hok as (K1 & K2 & _). apply in_app_or in Hi. destruct Hi; eauto. }
    destruct (Hv m) as [_ Hsub]. destruct (Hsub id x Hx Ha) as (_ & W & _ & Z). destruct Hw as [Hw|Hw]; [apply W|apply Z]; exact Hw.
Qed.

Lemma idle_shows mvs w t : exec step w_init mvs = Some w -> idle w -> t < w_nt w ->
  t_pc (w_task w t) = TSleep -> tame (t_sig (w_task w t)) -> unpoisoned w (t_pipe (w_task w t)) ->
  pipe_of (t_sig (w_task w t)) = t_pipe (w_task w t)
  /\ exists out, replay (seen (w_task w t)) = Some out /\ shows (contents w) (t_sig (w_task w t)) out.
Proof.
  intros H Hi Hlt Hpc. apply (asleep_shows mvs w t H Hlt Hpc). specialize (Hi t Hlt). rewrite Hpc in Hi. exact Hi.
Qed.

Lemma done_shows mvs w t : exec step w_init mvs = Some w -> t < w_nt w -> t_pc (w_task w t) = TDone ->
  pipe_of (t_sig (w_task w t)) = t_pipe (w_task w t)
  /\ (forall m id, In (m, id) (leaves (t_sig (w_task w t))) -> owners (w_vec w m) = 0)
  /\ (tame (t_sig (w_task w t)) -> unpoisoned w (t_pipe (w_task w t)) ->
      exists out, replay (seen (w_task w t)) = Some out /\ shows (contents w) (t_sig (w_task w t)) out).
Proof.
  intros H Hlt Hpc. destruct (reach_winv _ _ H) as (Hv & Ht & _). destruct (Ht t Hlt) as (H1 & H2 & H3 & H4).
  rewrite Hpc in H4. destruct H4 as (Hl & Ho & Hs). split; [exact H2|]. split; [exact Ho|].
  intros T Hp. apply Hs; [exact T|]. rewrite <- H2 in Hp. exact (pipe_leaves _ _ Hp).
Qed.

Lemma panic_wild mvs w t : exec step w_init mvs = Some w -> t < w_nt w -> t_pc (w_task w t) = TPanic -> ~ tame (t_sig (w_task w t)).
Proof.
  intros H Hlt Hpc. destruct (reach_winv _ _ H) as (Hv & Ht & _). destruct (Ht t Hlt) as (H1 & H2 & H3 & H4).
  rewrite Hpc in H4. exact H4.
Qed.

(** A pipeline whose leaves have all ended does not answer Pending. *)
Lemma ok_all_ended v s : (forall m, inv (v m)) -> forall outs, ok v s outs -> tame s ->
  (forall m id y, In (m, id) (leaves s) -> nth_error (subs (v m)) id = Some y -> In (Ready None) (got y)) ->
  obeys_end outs -> done outs -> last_out outs (Ready None).
Proof.
  intros Hv. induction s as [m id|c st log s IH|st s1 IH1 s2 IH2]; intros outs Hok T He Ho Hd; simpl in *.
  - destruct Hok as (x & Hx & Ha & <-). specialize (He m id x (or_introl eq_refl) Hx).
    exact (ended_last _ Ho He).
  - destruct Hok as [H1 (k & H2)]. destruct T as [T1 T2]. destruct (c_wakes c _ _ _ _ _ H2) as (W1 & W2 & W3).
    apply W2. assert (Hd' : done log).
    { destruct Hd as [Hd|Hd]; [left; exact (W1 Hd)|right]. apply ended_last; [exact W3|]. apply W2. exact Hd. }
    destruct (IH log H1 T1 He W3 Hd') as (p & ->). apply in_or_app. right. left. reflexivity.
  - destruct Hok as (H1 & H2 & H3). destruct T as (T1 & T2 & N1 & N2).
    pose proof (ok_good v s1 Hv _ H1 T1) as G1. pose proof (ok_good v s2 Hv _ H2 T2) as G2.
    destruct (cran_done st outs H3 Hd G1 G2 N1 N2) as [D1 D2].
    destruct Hd as [Hd|Hd]; [exfalso|exact Hd]. pose proof H3 as (_ & _ & k & Hk).
    destruct (run_slots _ _ _ _ _ Hk) as [[[O1 _] [O2 _]] _].
    destruct (IH1 _ H1 T1) as (p1 & P1); [|exact O1|exact D1|].
    { intros m id x Hi. apply He. apply in_or_app. left. exact Hi. }
    destruct (IH2 _ H2 T2) as (p2 & P2); [|exact O2|exact D2|].
    { intros m id x Hi. apply He. apply in_or_app. right. exact Hi. }
    destruct (chain_mirror _ _ G1 G2 k) as (st1 & outs1 & L & R & sh & E & _ & _ & _ & _ & _ & _ & _ & _ & X).
    rewrite Hk in E. injection E as <- <-. apply (X Hd). unfold ended. fold (log_of (ch_left st)) (log_of (ch_right st)).
    rewrite P1, P2. split; apply in_or_app; right; left; reflexivity.
Qed.

Lemma leaves_muts s m id : In (m, id) (leaves s) -> In m (muts (pipe_of s)).
Proof.
  induction s as [m' id'|c st log s IH|st s1 IH1 s2 IH2]; simpl; intros Hi.
  - destruct Hi as [Hi|[]]. injection Hi as <- <-. auto.
  - auto.
  - apply in_app_or in Hi. apply in_or_app. tauto.
Qed.

Lemma muts_leaves s m : In m (muts (pipe_of s)) -> exists id, In (m, id) (leaves s).
Proof.
  induction s as [m' id'|c st log s IH|st s1 IH1 s2 IH2]; simpl; intros Hi.
  - destruct Hi as [<-|[]]. eauto.
  - auto.
  - apply in_app_or in Hi. destruct Hi as [Hi|Hi]; [destruct (IH1 Hi) as (id & K)|destruct (IH2 Hi) as (id & K)]; exists id; apply in_or_app; auto.
Qed.

Lemma completes mvs w t : exec step w_init mvs = Some w -> idle w -> t < w_nt w ->
  t_pc (w_task w t) <> TGone -> t_pc (w_task w t) <> TFut -> tame (t_sig (w_task w t)) ->
  (t_pc (w_task w t) = TDone <-> forall m, In m (muts (t_pipe (w_task w t))) -> owners (w_vec w m) = 0).
Proof.
  intros H Hi Hlt Hg Hf T. destruct (reach_winv _ _ H) as (Hv & Ht & _). destruct (Ht t Hlt) as (H1 & H2 & H3 & H4).
  specialize (Hi t Hlt). split.
  - intros Hpc m Hm. rewrite <- H2 in Hm. destruct (muts_leaves _ _ Hm) as (id & Hl).
    destruct (done_shows _ _ _ H Hlt Hpc) as (_ & X & _). exact (X m id Hl).
  - intros Ho. destruct (t_pc (w_task w t)) eqn:Hpc; try contradiction; try congruence. exfalso.
    destruct H4 as (Hok & Hne & Hs). destruct (Hs Hi) as [Hl Hset].
    assert (X : last_out (t_outs (w_task w t)) (Ready None)).
    { apply (ok_all_ended (w_vec w) (t_sig (w_task w t)) Hv _ Hok T); [| |left; exact Hl].
      - intros m id y Hlf Hy. destruct (Hset T m id Hlf) as (z & Hz & Hw). rewrite Hy in Hz. injection Hz as <-.
        destruct Hw as [Hw|Hw]; [|exact Hw]. exfalso. destruct (Hv m) as [_ Hsub].
        assert (Ho' : owners (w_vec w m) = 0) by (apply Ho; rewrite <- H2; exact (leaves_muts _ _ _ Hlf)).
        destruct (alive y) eqn:Ha.
        + destruct (Hsub id y Hy Ha) as (_ & W & _). destruct (W Hw). lia.
        + clear - Hok Hlf Hy Ha. revert Hok Hlf. generalize (t_outs (w_task w t)). generalize (t_sig (w_task w t)). intros s.
          induction s as [m' id'|c st log s IH|st s1 IH1 s2 IH2]; intros outs Hok Hi; simpl in *.
          * destruct Hi as [Hi|[]]. injection Hi as <- <-. destruct Hok as (z & Hz & Ha' & _). congruence.
          * destruct Hok as [Hok _]. eauto.
          * destruct Hok as (K1 & K2 & _). apply in_app_or in Hi. destruct Hi; eauto.
      - intros p q Hp. exfalso. apply Hne. rewrite Hp. apply in_or_app. right. left. reflexivity. }
    destruct X as (p & Hp). apply Hne. rewrite Hp. apply in_or_app. right. left. reflexivity.
Qed.
End End.
