(** More facts about Mutable.v that hold for every interleaving: wake-ups. *)
From Verif Require Import Base Spec BaseFacts Conc Mutable MutableFacts MutableFacts2 MutableFacts3 MutableFacts4.

Section Mu.
Context {A : Type}.
Implicit Types (s : mu_st A).

(** A call is about to take the waker of [k]; has taken waker [p] of [k]; is the last drop and still going to take the waker of [k]. *)
Definition at_take s (k : nat) : Prop := exists i o c fl m t kept,
  nth_error (m_ops s) i = Some o /\ o_pc o = QNotify c fl m (k :: t) kept NTake.
Definition waking s (k p : nat) : Prop := exists i o c fl m t kept,
  nth_error (m_ops s) i = Some o /\ o_pc o = QNotify c fl m (k :: t) kept (NWake p).
Definition pend_drop s (k : nat) : Prop := exists i o, nth_error (m_ops s) i = Some o /\
  match o_pc o with
  | QDropAcq m | QDropChk m => m = g_mut (m_sig s k) /\ In k (v_sigs (m_mut s m))
  | QNotify KDrop _ m todo kept st => m = g_mut (m_sig s k) /\ In k (match st with NWake _ => tl todo | _ => todo end)
  | _ => False
  end.
Definition taken s s' (k : nat) : Prop := m_sig s' k = g_take (m_sig s k) /\ forall w, g_waker (m_sig s k) = Some w -> waking s' k w.

(** At most one call is the last drop. *)
Definition ud s : Prop := forall i j o o' m, nth_error (m_ops s) i = Some o -> nth_error (m_ops s) j = Some o' ->
  last_dropper m (o_pc o) -> last_dropper m (o_pc o') -> i = j.

Lemma ud_init (d : A) : ud (mu_init d).
Proof. intros i j o o' m H. destruct i; discriminate. Qed.

Lemma ud_step s mv s' : lk s -> hd s -> ud s -> mu_step s mv = Some s' -> ud s'.
Proof.
  intros L H U E. intros i1 i2 o1 o2 m0 H1 H2 D1 D2.
  assert (U' : forall o m, nth_error (m_ops s) i1 = Some o -> nth_error (m_ops s) i2 = Some o2 -> last_dropper m (o_pc o) ->
     last_dropper m (o_pc o2) -> i1 = i2) by (intros; eapply U; eauto).
  mu_cases E; fu; auto.
  all: try solve [eapply U; eauto].
  all: try solve [inv_ops; fu; simpl in *; try contradiction; try lia; auto; eapply U; eauto].
  all: try solve [inv_ops; fu; simpl in *; try contradiction; auto; eapply U; eauto; rewrite Hpc; simpl; auto].
  all: inv_ops; fu; simpl in *; auto; subst; try contradiction.
  all: try (pose proof (hd_zero s H _ _ _ ltac:(eassumption) ltac:(eassumption)); lia).
  all: eapply U; eauto.
Qed.

Lemma waking_step s mv s' k0 p : mu_step s mv = Some s' -> waking s k0 p -> waking s' k0 p \/ In (k0, p) (m_woken s').
Proof.
  intros E (j & q & c0 & fl0 & m0 & t0 & kept0 & Hq & Hp).
  assert (K : nth_error (m_ops s') j = Some q -> waking s' k0 p) by (intros; exists j, q; do 5 eexists; eauto).
  mu_cases E; fu.
  all: try solve [left; apply K; try apply snoc_old; assumption].
  all: destruct (Nat.eq_dec i j) as [<-|N]; [|left; apply K; rewrite lupd_other by assumption; assumption].
  all: rewrite Hop in Hq; injection Hq as <-; rewrite Hpc in Hp; try discriminate.
  injection Hp as -> -> -> -> -> -> ->. right. apply in_or_app. simpl. auto.
Qed.

Lemma at_take_step s mv s' k0 : mu_step s mv = Some s' -> at_take s k0 -> at_take s' k0 \/ taken s s' k0.
Proof.
  intros E (j & q & c0 & fl0 & m0 & t0 & kept0 & Hq & Hp).
  assert (K : nth_error (m_ops s') j = Some q -> at_take s' k0) by (intros; exists j, q; do 5 eexists; eauto).
  mu_cases E; fu.
  all: try solve [left; apply K; try apply snoc_old; assumption].
  all: destruct (Nat.eq_dec i j) as [<-|N]; [|left; apply K; rewrite lupd_other by assumption; assumption].
  all: rewrite Hop in Hq; injection Hq as <-; rewrite Hpc in Hp; try discriminate.
  all: injection Hp as -> -> -> -> ->; right; split; cbn [m_sig]; rewrite ?fupd_same; auto.
  all: intros w Hw; rewrite Hwk in Hw; try discriminate; injection Hw as ->.
  exists i. eexists. do 5 eexists. split; [apply (lupd_same _ _ _ _ Hop)|reflexivity].
Qed.

(** Existing signals stay registered until the last drop. *)
Lemma sigs_alive s mv s' k0 n : lk s -> rg s -> mu_step s mv = Some s' -> g_pc (m_sig s k0) <> GGone ->
  In k0 (v_sigs (m_mut s n)) -> In k0 (v_sigs (m_mut s' n))
    \/ exists i o fl kept st, mv = XOp i /\ nth_error (m_ops s) i = Some o /\ o_pc o = QNotify KDrop fl n [] kept st.
Proof.
  intros L R E Al Hi. assert (B : n < m_born s).
  { destruct (lk_sigs s L _ _ Hi) as [B <-]. apply (lk_mut s L). exact B. }
  mu_cases E; fu; frame; auto.
  all: try (pose proof (fun k => rg_noti s R _ _ _ _ _ _ _ _ k Hop Hpc) as Ln').
  all: fsplit; auto; try lia; simpl.
  all: try (left; apply Ln'; assumption).
  - right. exists i, o, fl, kept, st. auto.
  - left. apply in_or_app. auto.
Qed.

Lemma pend_drop_step s mv s' k0 : lk s -> rg s -> ud s -> mu_step s mv = Some s' -> g_pc (m_sig s k0) <> GGone -> k0 < m_nsig s ->
  pend_drop s k0 -> pend_drop s' k0 \/ taken s s' k0.
Proof.
  intros L R U E Al Hk0 (j & q & Hq & Hp).
  assert (M : g_mut (m_sig s' k0) = g_mut (m_sig s k0)).
  { clear - E Hk0. mu_cases E; fu; frame; auto. rewrite fupd_other; auto. lia. }
  assert (K : nth_error (m_ops s') j = Some q -> pend_drop s' k0).
  { intros Hq'. exists j, q. split; auto. rewrite M.
    pose proof (fun n => sigs_alive s mv s' k0 n L R E Al) as G. clear - G Hq Hq' Hp U E.
    destruct (o_pc q) as [| | | | | | | | |m|m| | |c fl m todo kept st| |] eqn:Hpq; try contradiction.
    - destruct Hp as [-> Hp]. split; auto. destruct (G _ Hp) as [?|(i & o & fl & kept & st & -> & Ho & Hpo)]; auto.
      assert (i = j). { eapply U; eauto; [rewrite Hpo|rewrite Hpq]; simpl; reflexivity. } congruence.
    - destruct Hp as [-> Hp]. split; auto. destruct (G _ Hp) as [?|(i & o & fl & kept & st & -> & Ho & Hpo)]; auto.
      assert (i = j). { eapply U; eauto; [rewrite Hpo|rewrite Hpq]; simpl; reflexivity. } congruence.
    - destruct c; try contradiction. exact Hp. }
  mu_cases E; fu.
  all: try solve [left; apply K; try apply snoc_old; assumption].
  all: destruct (Nat.eq_dec i j) as [<-|N]; [|left; apply K; rewrite lupd_other by assumption; assumption].
  all: clear K; rewrite Hop in Hq; injection Hq as <-; rewrite Hpc in Hp; try contradiction.
  all: try (destruct c; try contradiction); destruct Hp as [Hm Hp]; try (destruct st; contradiction).
  all: try solve [left; eexists i, _; split; [apply (lupd_same _ _ _ _ Hop)|simpl; frame; auto]].
  - exfalso. rewrite Heql in Hp. contradiction.
  - left; eexists i, _; split; [apply (lupd_same _ _ _ _ Hop)|simpl; split; auto]. rewrite Heql in Hp. exact Hp.
  - destruct Hp as [<-|Hp].
    + exfalso. unfold g_alive in Hal. destruct (g_pc (m_sig s k)); congruence.
    + left; eexists i, _; split; [apply (lupd_same _ _ _ _ Hop)|simpl; auto].
  - destruct Hp as [<-|Hp].
    + right. split; cbn [m_sig]; rewrite ?fupd_same; auto. intros w Hw. rewrite Hwk in Hw. injection Hw as ->.
      exists i. eexists. do 5 eexists. split; [apply (lupd_same _ _ _ _ Hop)|reflexivity].
    + left; eexists i, _; split; [apply (lupd_same _ _ _ _ Hop)|simpl; frame; auto].
  - destruct Hp as [<-|Hp].
    + right. split; cbn [m_sig]; rewrite ?fupd_same; auto. intros w Hw. rewrite Hwk in Hw. discriminate.
    + left; eexists i, _; split; [apply (lupd_same _ _ _ _ Hop)|simpl; frame; auto].
Qed.

Lemma woken_step s mv s' x : mu_step s mv = Some s' -> In x (m_woken s) -> In x (m_woken s').
Proof. intros E H. mu_cases E; fu; auto. apply in_or_app. auto. Qed.

(** Where a zero comes from. *)
Lemma senders_zero s mv s' k0 : lk s -> rg s -> mu_step s mv = Some s' -> k0 < m_nsig s -> g_created (m_sig s k0) ->
  v_senders (m_mut s' (g_mut (m_sig s k0))) = 0 -> v_senders (m_mut s (g_mut (m_sig s k0))) = 0 \/ pend_drop s' k0.
Proof.
  intros L R E Hk0 C. pose proof (rg_reg s R k0 Hk0 C) as G. pose proof (lk_mut s L k0 Hk0) as B.
  mu_cases E; fu; frame; auto.
  - fsplit; auto. lia.
  - fsplit; auto. simpl. lia.
  - fsplit; auto. intros _. right. eexists i, _. split; [apply (lupd_same _ _ _ _ Hop)|simpl; frame]. split; auto. apply G. lia.
  - fsplit; auto. simpl. lia.
Qed.

Record wkp s k : Prop := {
  wk_chg : g_pc (m_sig s k) = GLoad \/ g_pc (m_sig s k) = GSet -> g_raced (m_sig s k) = false ->
    g_changed (m_sig s k) = true -> at_take s k;
  wk_drp : g_pc (m_sig s k) = GSet -> g_raced (m_sig s k) = false -> v_senders (m_mut s (g_mut (m_sig s k))) = 0 -> pend_drop s k;
  wk_wait : g_waiting (m_sig s k) = true -> g_pc (m_sig s k) = GIdle -> g_raced (m_sig s k) = false ->
    In (k, g_polls (m_sig s k)) (m_woken s) \/ waking s k (g_polls (m_sig s k))
    \/ g_waker (m_sig s k) = Some (g_polls (m_sig s k))
       /\ (g_changed (m_sig s k) = true -> at_take s k)
       /\ (v_senders (m_mut s (g_mut (m_sig s k))) = 0 -> pend_drop s k);
  wk_idle : g_waiting (m_sig s k) = true -> g_pc (m_sig s k) = GIdle \/ g_pc (m_sig s k) = GGone }.

Lemma wkp_taken s mv s' k : mu_step s mv = Some s' -> wkp s k -> taken s s' k -> wkp s' k.
Proof.
  intros E [W1 W2 W3 W4] [T1 T2]. constructor; rewrite T1; simpl; auto.
  - intros [X|X]; rewrite X, orb_true_r; discriminate.
  - intros X; rewrite X, orb_true_r; discriminate.
  - intros Hw Hp Hr. rewrite Hp, orb_false_r in Hr. destruct (W3 Hw Hp Hr) as [X|[X|[X _]]].
    + left. eapply woken_step; eauto.
    + destruct (waking_step _ _ _ _ _ E X); auto.
    + auto.
Qed.

Lemma wkp_same s mv s' k : lk s -> rg s -> ud s -> mu_step s mv = Some s' -> k < m_nsig s -> wkp s k ->
  g_mut (m_sig s' k) = g_mut (m_sig s k) ->
  g_pc (m_sig s' k) = g_pc (m_sig s k) -> g_raced (m_sig s' k) = g_raced (m_sig s k) ->
  g_waiting (m_sig s' k) = g_waiting (m_sig s k) -> g_polls (m_sig s' k) = g_polls (m_sig s k) ->
  g_waker (m_sig s' k) = g_waker (m_sig s k) ->
  (g_changed (m_sig s' k) = true -> g_changed (m_sig s k) = true \/ at_take s' k) -> wkp s' k.
Proof.
  intros L R U E Hk W S0 S1 S2 S3 S4 S5 S6. pose proof (wkp_taken s mv s' k E W) as T. destruct W as [W1 W2 W3 W4].
  assert (C : forall p, g_pc (m_sig s k) = p -> match p with GLoad | GSet | GIdle => g_created (m_sig s k) | _ => True end).
  { intros p <-. unfold g_created. destruct (g_pc (m_sig s k)); auto. }
  constructor.
  - rewrite S1, S2. intros Hp Hr Hc. destruct (S6 Hc) as [X|X]; auto.
    destruct (at_take_step _ _ _ _ E (W1 Hp Hr X)) as [Y|Y]; auto. apply (wk_chg _ _ (T Y)); auto; congruence.
  - rewrite S0, S1, S2. intros Hp Hr Hz. destruct (senders_zero s mv s' k L R E Hk (C _ Hp) Hz) as [X|X]; auto.
    destruct (pend_drop_step s mv s' k L R U E ltac:(congruence) Hk (W2 Hp Hr X)) as [Y|Y]; auto.
    apply (wk_drp _ _ (T Y)); auto; congruence.
  - rewrite S0, S1, S2, S3, S4, S5. intros Hw Hp Hr.
    assert (D : taken s s' k -> In (k, g_polls (m_sig s k)) (m_woken s') \/ waking s' k (g_polls (m_sig s k)) \/
      g_waker (m_sig s k) = Some (g_polls (m_sig s k)) /\ (g_changed (m_sig s' k) = true -> at_take s' k)
       /\ (v_senders (m_mut s' (g_mut (m_sig s k))) = 0 -> pend_drop s' k)).
    { intros Y. destruct (wk_wait _ _ (T Y)) as [X|[X|X]]; try congruence; rewrite ?S0, ?S4, ?S5 in X; auto. }
    destruct (W3 Hw Hp Hr) as [X|[X|(X & Y & Z)]].
    + left. eapply woken_step; eauto.
    + destruct (waking_step _ _ _ _ _ E X); auto.
    + assert (Y' : taken s s' k \/ (g_changed (m_sig s' k) = true -> at_take s' k)).
      { destruct (g_changed (m_sig s' k)) eqn:Hc; [|right; discriminate]. destruct (S6 eq_refl) as [Q|Q]; auto.
        destruct (at_take_step _ _ _ _ E (Y Q)); auto. }
      destruct Y' as [Y'|Y']; auto.
      destruct (Nat.eq_dec (v_senders (m_mut s' (g_mut (m_sig s k)))) 0) as [Q|Q]; [|right; right; repeat split; auto; contradiction].
      destruct (senders_zero s mv s' k L R E Hk (C _ Hp) Q) as [Q'|Q']; [|auto 7].
      destruct (pend_drop_step s mv s' k L R U E ltac:(congruence) Hk (Z Q')) as [Q2|Q2]; auto 7.
  - rewrite S1, S3. exact W4.
Qed.

Definition wk s : Prop := forall k, k < m_nsig s -> wkp s k.
Lemma wk_init (d : A) : wk (mu_init d).
Proof. intros k H. simpl in H. lia. Qed.

Lemma wk_step s mv s' : lk s -> rg s -> ud s -> wk s -> mu_step s mv = Some s' -> wk s'.
Proof.
  intros L R U W E k0 Hk0. pose proof (W k0) as W0.
  pose proof (wkp_same s mv s' k0 L R U E) as S. pose proof (wkp_taken s mv s' k0 E) as T.
  mu_cases E; fu; bools.
  all: try solve [apply S; frame; auto].
  { apply S; frame; auto. intros Hc. destruct (Nat.eq_dec k0 k) as [->|NE]; [right|left; rewrite fupd_other in Hc; auto].
    exists i. eexists. do 5 eexists. split; [apply (lupd_same _ _ _ _ Hop)|reflexivity]. }
  { destruct (Nat.eq_dec k0 k) as [->|NE]; [apply T; auto|apply S; rewrite ?(fupd_other _ _ _ _ NE); auto].
    split; cbn [m_sig]; rewrite ?fupd_same; auto. intros w Hw. rewrite Hwk in Hw. injection Hw as ->.
    exists i. eexists. do 5 eexists. split; [apply (lupd_same _ _ _ _ Hop)|reflexivity]. }
  { destruct (Nat.eq_dec k0 k) as [->|NE]; [apply T; auto|apply S; rewrite ?(fupd_other _ _ _ _ NE); auto].
    split; cbn [m_sig]; rewrite ?fupd_same; auto. intros w Hw. rewrite Hwk in Hw. discriminate. }
  { destruct (Nat.eq_dec k0 (m_nsig s)) as [->|NE]; [|apply S; rewrite ?(fupd_other _ _ _ _ NE); auto; try lia; apply W0; lia].
    constructor; cbn [m_sig]; rewrite fupd_same; simpl; try discriminate. intros [X|X]; discriminate. }
  all: destruct (Nat.eq_dec k0 k) as [->|NE]; [|apply S; rewrite ?(fupd_other _ _ _ _ NE); solve [auto]].
  all: clear S T; specialize (W0 Hk0); pose proof (wk_idle s k W0) as I; rewrite Hg in I.
  all: constructor; cbn [m_sig m_mut]; rewrite fupd_same; simpl; rewrite ?Hg.
  all: try discriminate; try (intros [X|X]; discriminate); try contradiction; auto.
  all: try solve [intros X; destruct (I X) as [Y|Y]; discriminate].
  - intros _ Hr Hc. exact (wk_chg s k W0 (or_introl Hg) Hr Hc).
  - intros _ _ Hr. right. right. split; [reflexivity|]. split.
    + intros Hc. exact (wk_chg s k W0 (or_intror Hg) Hr Hc).
    + intros Hz. destruct (wk_drp s k W0 Hg Hr Hz) as (i & o & Ho & Hp). exists i, o. split; [exact Ho|].
      cbn [m_sig m_mut]. rewrite fupd_same. exact Hp.
Qed.
End Mu.
