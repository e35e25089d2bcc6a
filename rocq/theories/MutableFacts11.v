(** What Mutable.v guarantees: C49. *)
From Verif Require Import Base Spec BaseFacts Conc Mutable MutableFacts MutableFacts2 MutableFacts3 MutableFacts4 MutableFacts5 MutableFacts6 MutableFacts7.

Section Mu.
Context {A : Type}.
Implicit Types (s : mu_st A).

(** The moves by which calls and signals go on: no new calls, no new polls. *)
Definition own (mv : mu_move A) : Prop := match mv with XOp _ | XSig _ => True | _ => False end.
(** Every swap that is still taking locks takes them upwards in [rank]. *)
Definition ordered (rank : nat -> nat) s : Prop := forall o a b, In o (m_ops s) ->
  o_pc o = QSAcq1 a b \/ o_pc o = QSAcq2 a b -> rank a < rank b.

Lemma own_step rank s mv s' : own mv -> mu_step s mv = Some s' -> ordered rank s ->
  ordered rank s' /\ m_nsig s' = m_nsig s /\ m_born s' = m_born s.
Proof.
  intros O E R. split.
  - intros q a0 b0 Hi Hp. apply In_nth_error in Hi. destruct Hi as [j Hj].
    mu_cases E; simpl in O; try contradiction; fu; inv_ops; simpl in Hp.
    all: try solve [eapply R; eauto using nth_error_In].
    all: try solve [destruct Hp; discriminate].
    all: try solve [destruct Hp as [Hp|Hp]; injection Hp as <- <-; eapply R; [eapply nth_error_In; eauto|rewrite Hpc; auto] || discriminate].
    destruct Hp as [Hp|Hp]; [discriminate|injection Hp as <- <-]. eapply R; [eapply nth_error_In; eauto|rewrite Hpc; auto].
  - mu_cases E; simpl in O; try contradiction; fu; auto.
Qed.

(** ** Progress *)
Definition goes s : Prop := exists mv s', own mv /\ mu_step s mv = Some s'.

Lemma goes_op s i o s' : nth_error (m_ops s) i = Some o -> op_step s i o = Some s' -> goes s.
Proof. intros Ho E. exists (XOp i), s'. split; [exact I|]. simpl. rewrite Ho. exact E. Qed.
Lemma goes_sig s k s' : k < m_nsig s -> sig_step s k = Some s' -> goes s.
Proof. intros Hk E. exists (XSig k), s'. split; [exact I|]. simpl. apply Nat.ltb_lt in Hk. rewrite Hk. exact E. Qed.

Lemma goes_mutex s k i : inv s -> g_mutex (m_sig s k) = Some i -> goes s.
Proof.
  intros I H. destruct (rk_mx s (i_rk s I) k i H) as (o & Ho & Hm).
  destruct (o_pc o) as [| | | | | | | | | | | | |c fl m todo kept st| |] eqn:P; try discriminate.
  destruct todo as [|k' t]; [discriminate|].
  destruct st; try discriminate.
  - destruct fl; eapply goes_op; eauto; unfold op_step; rewrite P; reflexivity.
  - destruct (g_waker (m_sig s k')) eqn:W; eapply goes_op; eauto; unfold op_step; rewrite P; simpl; rewrite W; reflexivity.
Qed.

Lemma goes_notify s i o c fl m todo kept st : inv s -> nth_error (m_ops s) i = Some o -> o_pc o = QNotify c fl m todo kept st -> goes s.
Proof.
  intros I Ho P. destruct todo as [|k t].
  - destruct c; eapply goes_op; eauto; unfold op_step; rewrite P; reflexivity.
  - destruct st.
    + destruct (g_alive (m_sig s k)) eqn:W; eapply goes_op; eauto; unfold op_step; rewrite P; simpl; rewrite W; reflexivity.
    + destruct (g_mutex (m_sig s k)) as [i'|] eqn:W; [eapply goes_mutex; eauto|].
      eapply goes_op; eauto; unfold op_step; rewrite P; simpl; rewrite W; reflexivity.
    + destruct fl; eapply goes_op; eauto; unfold op_step; rewrite P; reflexivity.
    + destruct (g_waker (m_sig s k)) eqn:W; eapply goes_op; eauto; unfold op_step; rewrite P; simpl; rewrite W; reflexivity.
    + eapply goes_op; eauto; unfold op_step; rewrite P; reflexivity.
Qed.

(** Whoever reads goes on. *)
Lemma goes_reader s m w : inv s -> In w (v_r (m_mut s m)) -> goes s.
Proof.
  intros I H. destruct w as [i|k].
  - destruct (rk_r s (i_rk s I) m i H) as (o & v & Ho & P). eapply goes_op; eauto. unfold op_step. rewrite P. reflexivity.
  - destruct (rk_gr s (i_rk s I) m k H) as (Hk & M & P).
    destruct (g_pc (m_sig s k)) eqn:Hg; try contradiction; eapply goes_sig; eauto; unfold sig_step; rewrite Hg; reflexivity.
Qed.

Section Ranked.
Context (rank : nat -> nat).

Lemma goes_writer n : forall s m, inv s -> ordered rank s -> list_max (map rank (seq 0 (m_born s))) - rank m < n ->
  m < m_born s -> v_w (m_mut s m) <> None -> goes s.
Proof.
  induction n as [|n IH]; intros s m I R B Hm H; [lia|].
  destruct (v_w (m_mut s m)) as [[i|k]|] eqn:W; [| |congruence].
  - destruct (rk_w s (i_rk s I) m i W) as (o & Ho & Hi).
    destruct (o_pc o) as [|m' f|m'|m' b|a b|a b|a b| | |m'|m'| | |c fl m' todo kept st|ms|] eqn:P; try contradiction.
    + destruct (f (v_val (m_mut s m'))) as [[v r]|] eqn:F; eapply goes_op; eauto; unfold op_step; rewrite P, F; reflexivity.
    + destruct b; eapply goes_op; eauto; unfold op_step; rewrite P; reflexivity.
    + destruct Hi as [<-|[]].
      assert (L : rank a < rank b) by (apply (R o); [eapply nth_error_In; eauto|auto]).
      assert (Bb : b < m_born s) by (apply (lk_ms s (i_lk s I) i o); auto; rewrite P; simpl; auto).
      destruct (w_free (m_mut s b)) eqn:F.
      * eapply goes_op; eauto; unfold op_step; rewrite P. unfold acq_w. rewrite F. reflexivity.
      * unfold w_free in F. destruct (v_w (m_mut s b)) eqn:Wb.
        -- apply (IH s b); auto; [|congruence].
           assert (rank b <= list_max (map rank (seq 0 (m_born s)))); [|lia].
           assert (X : Forall (fun x => x <= list_max (map rank (seq 0 (m_born s)))) (map rank (seq 0 (m_born s)))) by (apply list_max_le; lia).
           rewrite Forall_forall in X. apply X. apply in_map. apply in_seq. lia.
        -- destruct (v_r (m_mut s b)) as [|w t] eqn:Rb; [discriminate|]. apply (goes_reader s b w I). rewrite Rb. left. reflexivity.
    + eapply goes_op; eauto; unfold op_step; rewrite P; reflexivity.
    + destruct (v_sigs (m_mut s m')) eqn:F; eapply goes_op; eauto; unfold op_step; rewrite P, F; reflexivity.
    + eapply goes_notify; eauto.
    + destruct ms; [contradiction|]. eapply goes_op; eauto; unfold op_step; rewrite P; reflexivity.
  - destruct (rk_gw s (i_rk s I) m k W) as (Hk & M & P). eapply goes_sig; eauto. unfold sig_step. rewrite P. reflexivity.
Qed.

Lemma goes_held s m : inv s -> ordered rank s -> m < m_born s -> w_free (m_mut s m) = false -> goes s.
Proof.
  intros I R B F. unfold w_free in F. destruct (v_w (m_mut s m)) eqn:W.
  - eapply (goes_writer _ s m I R (Nat.lt_succ_diag_r _) B). congruence.
  - destruct (v_r (m_mut s m)) as [|w t] eqn:Rb; [discriminate|]. apply (goes_reader s m w I). rewrite Rb. left. reflexivity.
Qed.
Lemma goes_held_r s m : inv s -> ordered rank s -> m < m_born s -> r_free (m_mut s m) = false -> goes s.
Proof.
  intros I R B F. apply (goes_held s m I R B). unfold w_free, r_free in *. destruct (v_w (m_mut s m)); auto. discriminate.
Qed.

(** As long as some call or poll is not over, something can go on. *)
Lemma mu_progress s : inv s -> ordered rank s -> (mu_quiet s /\ sigs_idle s) \/ goes s.
Proof.
  intros I R.
  assert (Q : mu_quiet s \/ goes s).
  { assert (X : forall l, incl l (m_ops s) -> (forall o, In o l -> o_done o = true) \/ goes s).
    { induction l as [|o l IH]; intros Hi; [left; intros ? []|].
      destruct (IH (fun x Hx => Hi x (or_intror Hx))) as [Y|Y]; auto.
      destruct (In_nth_error _ _ (Hi o (or_introl eq_refl))) as [i Ho].
      assert (Bm : forall m, In m (op_ms (o_pc o)) -> m < m_born s) by (intros; eapply (lk_ms s (i_lk s I)); eauto).
      destruct (o_pc o) as [m f|m f|m|m b|a b|a b|a b|m|m|m|m|m|m v|c fl m todo kept st|ms|] eqn:P; simpl in Bm.
      all: try (right; eapply goes_op; [exact Ho|unfold op_step; rewrite P; reflexivity]; fail).
      all: try (right; destruct (w_free (m_mut s m)) eqn:F;
         [eapply goes_op; [exact Ho|unfold op_step; rewrite P; unfold acq_w; rewrite F; reflexivity]|apply (goes_held s m); auto]; fail).
      - right. destruct (f (v_val (m_mut s m))) as [[v r]|] eqn:F; eapply goes_op; eauto; unfold op_step; rewrite P, F; reflexivity.
      - right. destruct b; eapply goes_op; eauto; unfold op_step; rewrite P; reflexivity.
      - right. destruct (w_free (m_mut s a)) eqn:F;
         [eapply goes_op; [exact Ho|unfold op_step; rewrite P; unfold acq_w; rewrite F; reflexivity]|apply (goes_held s a); auto].
      - right. destruct (w_free (m_mut s b)) eqn:F;
         [eapply goes_op; [exact Ho|unfold op_step; rewrite P; unfold acq_w; rewrite F; reflexivity]|apply (goes_held s b); auto].
      - right. destruct (v_sigs (m_mut s m)) eqn:F; eapply goes_op; eauto; unfold op_step; rewrite P, F; reflexivity.
      - right. destruct (r_free (m_mut s m)) eqn:F;
         [eapply goes_op; [exact Ho|unfold op_step; rewrite P; unfold acq_r; rewrite F; reflexivity]|apply (goes_held_r s m); auto].
      - right. eapply goes_notify; eauto.
      - right. destruct ms; eapply goes_op; eauto; unfold op_step; rewrite P; reflexivity.
      - left. intros o' [<-|Hx]; auto. unfold o_done. rewrite P. reflexivity. }
    destruct (X (m_ops s) (incl_refl _)) as [Y|Y]; auto. }
  destruct Q as [Q|Q]; auto.
  assert (X : forall n, n <= m_nsig s -> (forall k, k < n -> g_pc (m_sig s k) = GIdle \/ g_pc (m_sig s k) = GGone) \/ goes s).
  { induction n as [|n IH]; intros Hn; [left; lia|]. destruct IH as [Y|Y]; [lia| |auto].
    pose proof (lk_mut s (i_lk s I) n Hn) as B.
    assert (Z : (g_pc (m_sig s n) = GIdle \/ g_pc (m_sig s n) = GGone) \/ goes s).
    { destruct (g_pc (m_sig s n)) eqn:P; auto; right.
      all: try (eapply goes_sig; [exact Hn|unfold sig_step; rewrite P; reflexivity]; fail).
      - destruct (w_free (m_mut s (g_mut (m_sig s n)))) eqn:F; [|eapply goes_held; eauto].
        eapply goes_sig; [exact Hn|unfold sig_step, acq_w; rewrite P, F; reflexivity].
      - destruct (r_free (m_mut s (g_mut (m_sig s n)))) eqn:F; [|eapply goes_held_r; eauto].
        eapply goes_sig; [exact Hn|unfold sig_step, acq_r; rewrite P, F; reflexivity].
      - destruct (v_senders (m_mut s (g_mut (m_sig s n))) =? 0) eqn:F; eapply goes_sig; [exact Hn|unfold sig_step; rewrite P, F; reflexivity|exact Hn|unfold sig_step; rewrite P, F; reflexivity].
      - destruct (g_mutex (m_sig s n)) as [i|] eqn:F; [eapply goes_mutex; eauto|].
        eapply goes_sig; [exact Hn|unfold sig_step; rewrite P, F; reflexivity]. }
    destruct Z as [Z|Z]; auto. left. intros k Hk. destruct (Nat.eq_dec k n) as [->|N]; auto. apply Y. lia. }
  destruct (X (m_nsig s) (le_n _)) as [Y|Y]; auto.
Qed.
End Ranked.
End Mu.
