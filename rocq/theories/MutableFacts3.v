(** More facts about Mutable.v that hold for every interleaving: registration, values. *)
From Verif Require Import Base BaseFacts Conc Mutable MutableFacts MutableFacts2.

Section Mu.
Context {A : Type}.
Implicit Types (s : mu_st A).

(** The signal exists and its creation is over. *)
Definition g_created (g : sig A) : Prop :=
  match g_pc g with GNew | GPushAcq | GPushDo | GGone => False | _ => True end.

Record rg s : Prop := {
  rg_reg : forall k, k < m_nsig s -> g_created (m_sig s k) -> 0 < v_senders (m_mut s (g_mut (m_sig s k))) ->
    In k (v_sigs (m_mut s (g_mut (m_sig s k))));
  rg_noti : forall i o c fl m todo kept st k, nth_error (m_ops s) i = Some o -> o_pc o = QNotify c fl m todo kept st ->
    In k (v_sigs (m_mut s m)) -> g_pc (m_sig s k) <> GGone -> In k (todo ++ kept) }.

Lemma rg_init (d : A) : rg (mu_init d).
Proof. constructor; simpl; intros; try (destruct i; discriminate); lia. Qed.

Ltac rg_solve := try solve [eapply rg_reg; eauto | eapply rg_noti; eauto
    | discriminate | contradiction | lia | exfalso; lia | auto | congruence ].

Lemma rg_step s mv s' : lk s -> hd s -> rg s -> mu_step s mv = Some s' -> rg s'.
Proof.
  intros L H R E. mu_cases E.
  all: bools; fu.
  all: repeat match goal with H : lookup _ _ = Some _ |- _ => apply lookup_In in H; pose proof (lk_live s L _ _ H) end.
  all: try (pose proof (fun m => lk_w s L _ _ m Hop) as Lw; rewrite Hpc in Lw; simpl in Lw;
            try pose proof (Lw _ (or_introl eq_refl)); try pose proof (Lw _ (or_intror (or_introl eq_refl)))).
  all: try (pose proof (fun m => hd_pos s _ _ m H Hop) as Ln; rewrite Hpc in Ln; simpl in Ln).
  all: try (pose proof (fun m => hd_zero s H _ _ m Hop) as Lz; rewrite Hpc in Lz; simpl in Lz; try specialize (Lz _ eq_refl)).
  all: try (pose proof (fun k => rg_noti s R _ _ _ _ _ _ _ _ k Hop Hpc) as Ln').
  all: constructor.
  all: intros; fu; inv_ops; fu; frame; simpl in *.
  all: rg_solve.
  all: unfold g_created in *.
  all: fsplit; simpl in *; try congruence; rg_solve.
  all: try match goal with H : QNotify _ _ _ _ _ _ = QNotify _ _ _ _ _ _ |- _ => injection H as ? ? ? ? ? ?; subst end.
  all: rg_solve.
  all: rewrite ?app_nil_r in *; rg_solve.
  all: try solve [apply (rg_reg s R); auto; unfold g_created; rewrite Hg; exact Logic.I].
  all: try solve [eapply (rg_noti s R); eauto; rewrite Hg; discriminate].
  all: try solve [apply in_or_app; simpl; auto].
  all: try solve [rewrite !in_app_iff in *; simpl in *; match goal with H : forall k, In k _ -> _ -> _, H0 : In ?k _, H1 : _ <> _ |- _ => specialize (H k H0 H1); intuition congruence end].
  all: try solve [apply Ln'; [apply (rg_reg s R); auto|intros X; rewrite X in *; contradiction]].
  all: try solve [exfalso; match goal with H : nth_error _ _ = Some ?o, H1 : o_pc ?o = QNotify _ _ _ _ _ _ |- _ =>
     pose proof (fun m => lk_w s L _ _ m H) as Lw2; rewrite H1 in Lw2; specialize (Lw2 _ (or_introl eq_refl)); try congruence end].
  - pose proof (lk_mut s L k H0). lia.
  - apply (rg_reg s R); auto. lia.
  - exfalso. pose proof (lk_nodup s L _ _ Hop) as D. rewrite Hpc in D. inversion D. simpl in *. tauto.
  - destruct (Ln' k0 H3 H4) as [<-|X]; auto. exfalso. unfold g_alive in Hal. destruct (g_pc (m_sig s k)); try discriminate. congruence.
  - destruct (Ln' k0 H3 H4) as [<-|X]; rewrite !in_app_iff in *; simpl; tauto.
  - destruct (Ln' k0 H3 H4) as [<-|X]; rewrite !in_app_iff in *; simpl; tauto.
  - apply (rg_reg s R); auto. lia.
  - destruct (lk_sigs s L _ _ H2). lia.
  - apply in_or_app. left. rewrite <- e. apply (rg_reg s R); auto.
  - exfalso. pose proof (fun m => lk_w s L _ _ m H0) as Lw2. rewrite H1 in Lw2. specialize (Lw2 _ (or_introl eq_refl)).
    pose proof (lk_gw s L k Hg). congruence.
  - exfalso. pose proof (fun m => lk_w s L _ _ m H0) as Lw2. rewrite H1 in Lw2. specialize (Lw2 _ (or_introl eq_refl)).
    pose proof (lk_gw s L k Hg). congruence.
Qed.
End Mu.
