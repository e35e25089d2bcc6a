(** More facts about Mutable.v that hold for every interleaving: who holds the locks. *)
From Verif Require Import Base Spec BaseFacts Conc Mutable MutableFacts MutableFacts2 MutableFacts3 MutableFacts4 MutableFacts5.

Section Mu.
Context {A : Type}.
Implicit Types (s : mu_st A).

Record rk s : Prop := {
  rk_w : forall m i, v_w (m_mut s m) = Some (WOp i) -> exists o, nth_error (m_ops s) i = Some o /\ In m (op_w (o_pc o));
  rk_gw : forall m k, v_w (m_mut s m) = Some (WSig k) -> k < m_nsig s /\ g_mut (m_sig s k) = m /\ g_pc (m_sig s k) = GPushDo;
  rk_r : forall m i, In (WOp i) (v_r (m_mut s m)) -> exists o v, nth_error (m_ops s) i = Some o /\ o_pc o = QRHold m v;
  rk_gr : forall m k, In (WSig k) (v_r (m_mut s m)) -> k < m_nsig s /\ g_mut (m_sig s k) = m /\
    match g_pc (m_sig s k) with GRead | GRRel _ => True | _ => False end;
  rk_mx : forall k i, g_mutex (m_sig s k) = Some i -> exists o, nth_error (m_ops s) i = Some o /\ op_mx (o_pc o) = Some k }.

Lemma rk_init (d : A) : rk (mu_init d).
Proof. constructor; simpl; intros; discriminate || contradiction. Qed.

Lemma in_r_remove_inv w w' l : In w (r_remove w' l) -> In w l /\ w <> w'.
Proof.
  intros H. apply filter_In in H. destruct H as [H E]. split; auto. intros ->.
  destruct w'; simpl in E; rewrite Nat.eqb_refl in E; discriminate.
Qed.

(** Calls that were there before: either left alone or the one that moved. *)
Lemma rk_step s mv s' : lk s -> rk s -> mu_step s mv = Some s' -> rk s'.
Proof.
  intros L R E. mu_cases E; bools; fu.
  all: try (pose proof (fun m => lk_w s L _ _ m Hop) as Lw; rewrite Hpc in Lw; simpl in Lw).
  all: try (pose proof (fun k => lk_mx s L _ _ k Hop) as Lm; rewrite Hpc in Lm; simpl in Lm; try specialize (Lm _ eq_refl)).
  all: try (pose proof (lk_nodup s L _ _ Hop) as Ld; rewrite Hpc in Ld; simpl in Ld).
  all: constructor.
  all: intros; fu; frame; simpl in *.
  all: try solve [eapply rk_gw; eauto | eapply rk_gr; eauto
        | edestruct (rk_w s R) as (q & Hq & Hp); [eassumption|]; eauto using snoc_old
        | edestruct (rk_mx s R) as (q & Hq & Hp); [eassumption|]; eauto using snoc_old
        | edestruct (rk_r s R) as (q & v0 & Hq & Hp); [eassumption|]; eauto using snoc_old].
  all: fsplit; simpl in *; try discriminate; try contradiction.
  all: try match goal with H : Some _ = Some _ |- _ => injection H as ?; subst end.
  all: try match goal with H : _ = _ \/ In _ _ |- _ => destruct H as [[= ?]|H]; subst end.
  all: try match goal with H : In _ (r_remove _ _) |- _ => apply in_r_remove_inv in H; destruct H as [H ?] end.
  all: try solve [eexists; split; [apply (lupd_same _ _ _ _ Hop)|simpl; auto]].
  all: try solve [eexists _, _; split; [apply (lupd_same _ _ _ _ Hop)|reflexivity]].
  all: try match goal with
    | R : rk ?s, H : v_w (m_mut ?s _) = Some (WOp _) |- _ => destruct (rk_w s R _ _ H) as (q & Hq & Hp)
    | R : rk ?s, H : v_w (m_mut ?s _) = Some (WSig _) |- _ => destruct (rk_gw s R _ _ H) as (Hq & Hm & Hp)
    | R : rk ?s, H : In (WOp _) (v_r (m_mut ?s _)) |- _ => destruct (rk_r s R _ _ H) as (q & v0 & Hq & Hp)
    | R : rk ?s, H : In (WSig _) (v_r (m_mut ?s _)) |- _ => destruct (rk_gr s R _ _ H) as (Hq & Hm & Hp)
    | R : rk ?s, H : g_mutex (m_sig ?s _) = Some _ |- _ => destruct (rk_mx s R _ _ H) as (q & Hq & Hp)
    end.
  all: try match goal with Hop : nth_error (m_ops ?s) ?i = Some ?o, Hq : nth_error (m_ops ?s) ?j = Some ?q |- context [lupd ?i] =>
     destruct (Nat.eq_dec i j) as [->|NE];
      [assert (q = o) by congruence; subst q; rewrite Hpc in Hp; simpl in Hp; try contradiction; try discriminate
      |rewrite lupd_other by assumption; eauto; fail] end.
  all: try (destruct todo; discriminate).
  all: try solve [eexists; split; [apply (lupd_same _ _ _ _ Hop)|simpl; tauto]].
  all: eauto.
  all: try solve [repeat split; auto; try lia; try congruence].
  all: try solve [rewrite Hg in Hp; contradiction || discriminate].
  destruct Hp; [congruence|]. eexists; split; [apply (lupd_same _ _ _ _ Hop)|assumption].
Qed.

(** Everything at once. *)
Record inv s : Prop := { i_lk : lk s; i_hd : hd s; i_rg : rg s; i_vl : vl s; i_ud : ud s; i_wk : wk s; i_rk : rk s }.
Lemma inv_init (d : A) : inv (mu_init d).
Proof. constructor; [apply lk_init|apply hd_init|apply rg_init|apply vl_init|apply ud_init|apply wk_init|apply rk_init]. Qed.
Lemma inv_step s mv s' : inv s -> mu_step s mv = Some s' -> inv s'.
Proof.
  intros [L H R V U W K] E. constructor.
  - eapply lk_step; eauto.
  - eapply hd_step; eauto.
  - eapply rg_step; eauto.
  - eapply vl_step; eauto.
  - eapply ud_step; eauto.
  - eapply wk_step; eauto.
  - eapply rk_step; eauto.
Qed.
Lemma inv_exec (d : A) l s : exec mu_step (mu_init d) l = Some s -> inv s.
Proof. apply exec_inv; [apply inv_step|apply inv_init]. Qed.
Lemma inv_exec_from s l s' : inv s -> exec mu_step s l = Some s' -> inv s'.
Proof. intros I. apply exec_inv; [apply inv_step|exact I]. Qed.
End Mu.
