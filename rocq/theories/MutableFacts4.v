(** More facts about Mutable.v that hold for every interleaving: what the signals show. *)
From Verif Require Import Base Spec BaseFacts Conc Mutable MutableFacts MutableFacts2 MutableFacts3.

Section Mu.
Context {A : Type}.
Implicit Types (s : mu_st A).

(** A call at [p] is still going to set the flag of signal [k]. *)
Definition wm s (p : opc A) (k : nat) : Prop :=
  match p with
  | QGuard m true => In k (v_sigs (m_mut s m))
  | QNotify c true m todo _ st =>
      In k (match st with NTake | NWake _ => tl todo | _ => todo end)
      \/ match c with KSwap b => In k (v_sigs (m_mut s b)) | _ => False end
  | _ => False
  end.
Definition will_mark s (k : nat) : Prop := exists i o, nth_error (m_ops s) i = Some o /\ wm s (o_pc o) k.

(** Calls that a move leaves alone. *)
Lemma sigs_kept s mv s' j q n : lk s -> mu_step s mv = Some s' -> nth_error (m_ops s) j = Some q ->
  nth_error (m_ops s') j = Some q -> In n (op_w (o_pc q)) -> v_sigs (m_mut s' n) = v_sigs (m_mut s n).
Proof.
  intros L E Ho Ho' Hm.
  pose proof (lk_w s L j q n Ho Hm) as W.
  assert (B : n < m_born s).
  { apply (lk_ms s L j q); auto. revert Hm. clear. destruct (o_pc q); simpl; tauto. }
  mu_cases E; bools; fu; frame; auto.
  all: fsplit; simpl in *; auto; try lia; try congruence.
  all: try (match goal with Hg : g_pc _ = GPushDo |- _ => pose proof (lk_gw s L _ Hg); congruence end).
  all: try (fsplit; simpl; auto; congruence).
  all: pose proof (fun m => lk_w s L _ _ m Hop) as Lw; rewrite Hpc in Lw; simpl in Lw;
       specialize (Lw _ (or_introl eq_refl)); rewrite W in Lw; injection Lw as ->;
       rewrite (lupd_same _ _ _ _ Hop) in Ho'; injection Ho' as Ho';
       rewrite Hop in Ho; injection Ho as Ho; rewrite <- Ho in Ho'; apply (f_equal o_pc) in Ho'; simpl in Ho'; congruence.
Qed.

Lemma wm_kept s mv s' i o k : lk s -> mu_step s mv = Some s' -> nth_error (m_ops s) i = Some o ->
  nth_error (m_ops s') i = Some o -> wm s (o_pc o) k -> wm s' (o_pc o) k.
Proof.
  intros L E Ho Ho' W. pose proof (fun m => sigs_kept s mv s' i o m L E Ho Ho') as K.
  destruct (o_pc o) as [| | |m b| | | | | | | | | |c fl m todo kept st| |]; simpl in *; auto.
  - destruct b; auto. rewrite K; auto.
  - destruct fl; auto. destruct W as [W|W]; [left; auto|right]. destruct c; auto. rewrite K; simpl; auto.
Qed.

Definition shown (g : sig A) : option A := match g_pc g with GRRel v => Some v | _ => latest_of (g_ans g) end.
Record vl s : Prop := {
  vl_new : forall k, k < m_nsig s -> match g_pc (m_sig s k) with GNew | GPushAcq | GPushDo => g_changed (m_sig s k) = true | _ => True end;
  vl_val : forall k, k < m_nsig s -> g_created (m_sig s k) ->
    g_changed (m_sig s k) = true \/ g_pc (m_sig s k) = GRAcq \/ g_pc (m_sig s k) = GRead \/ will_mark s k
    \/ shown (m_sig s k) = Some (v_val (m_mut s (g_mut (m_sig s k)))) }.

Lemma vl_init (d : A) : vl (mu_init d).
Proof. constructor; simpl; intros; lia. Qed.

(** What [will_mark] becomes in one step. *)
Lemma will_mark_step s mv s' k0 : lk s -> rg s -> mu_step s mv = Some s' -> will_mark s k0 ->
  g_pc (m_sig s' k0) <> GGone -> will_mark s' k0 \/ g_changed (m_sig s' k0) = true.
Proof.
  intros L R E (j & q & Hq & W) Al.
  pose proof (fun Hq' => wm_kept s mv s' j q k0 L E Hq Hq' W) as K.
  mu_cases E; fu.
  all: try (left; exists j, q; split; [apply snoc_old|apply K; apply snoc_old]; assumption).
  all: try (left; exists j, q; split; [|apply K]; assumption).
  all: destruct (Nat.eq_dec i j) as [<-|N];
    [|left; exists j, q; split; [|apply K]; cbn [m_ops]; rewrite lupd_other by assumption; assumption].
  all: rewrite Hop in Hq; injection Hq as <-; rewrite Hpc in W; simpl in W; try contradiction.
  all: clear K; try (destruct fl; [|contradiction]); try (destruct b; [|contradiction]).
  all: try solve [exfalso; destruct W as [W|W]; [destruct st; contradiction|contradiction]].
  all: try solve [left; eexists i, _; split; [apply (lupd_same _ _ _ _ Hop)|simpl; frame; tauto]].
  - destruct W as [W|W]; [destruct st; contradiction|].
    left; eexists i, _; split; [apply (lupd_same _ _ _ _ Hop)|simpl; tauto].
  - left; eexists i, _; split; [apply (lupd_same _ _ _ _ Hop)|simpl].
    destruct W as [[<-|W]|W]; auto. unfold g_alive in Hal. destruct (g_pc (m_sig s k)); congruence.
  - destruct W as [[<-|W]|W]; [right; rewrite fupd_same; reflexivity| |];
    left; eexists i, _; (split; [apply (lupd_same _ _ _ _ Hop)|simpl; tauto]).
Qed.

(** A change of the value is going to be marked. *)
Lemma val_change s mv s' k0 : lk s -> hd s -> rg s -> mu_step s mv = Some s' -> k0 < m_nsig s -> g_created (m_sig s k0) ->
  v_val (m_mut s' (g_mut (m_sig s k0))) = v_val (m_mut s (g_mut (m_sig s k0))) \/ will_mark s' k0.
Proof.
  intros L H R E Hk0 C. pose proof (rg_reg s R k0 Hk0 C) as G. pose proof (lk_mut s L k0 Hk0) as B.
  mu_cases E; fu; frame; auto.
  all: try (pose proof (fun m => hd_pos s _ _ m H Hop) as Ln; rewrite Hpc in Ln; simpl in Ln).
  - fsplit; [lia|auto].
  - fsplit; auto. right. eexists i, _. split; [apply (lupd_same _ _ _ _ Hop)|simpl; frame; auto].
  - fsplit; auto. right. eexists i, _. split; [apply (lupd_same _ _ _ _ Hop)|simpl; frame; auto].
  - destruct (Nat.eq_dec (g_mut (m_sig s k0)) b) as [e|n]; [|destruct (Nat.eq_dec (g_mut (m_sig s k0)) a) as [e'|n']].
    + right. eexists i, _. split; [apply (lupd_same _ _ _ _ Hop)|]. simpl. right. rewrite fupd_same. simpl. frame. rewrite <- e. apply G. rewrite e; auto.
    + right. eexists i, _. split; [apply (lupd_same _ _ _ _ Hop)|]. simpl. left. rewrite <- e'. apply G. rewrite e'; auto.
    + left. rewrite !fupd_other; auto.
Qed.

Lemma vl_same s mv s' k0 : lk s -> hd s -> rg s -> vl s -> mu_step s mv = Some s' ->
  g_mut (m_sig s' k0) = g_mut (m_sig s k0) ->
  k0 < m_nsig s -> g_created (m_sig s k0) -> g_created (m_sig s' k0) -> shown (m_sig s' k0) = shown (m_sig s k0) ->
  (g_changed (m_sig s k0) = true -> g_changed (m_sig s' k0) = true) -> 
  (g_pc (m_sig s k0) = GRAcq \/ g_pc (m_sig s k0) = GRead ->
     g_pc (m_sig s' k0) = GRAcq \/ g_pc (m_sig s' k0) = GRead) ->
  g_changed (m_sig s' k0) = true \/ g_pc (m_sig s' k0) = GRAcq \/ g_pc (m_sig s' k0) = GRead \/ will_mark s' k0
    \/ shown (m_sig s' k0) = Some (v_val (m_mut s' (g_mut (m_sig s' k0)))).
Proof.
  intros L H R V E M Hk C C' S1 S2 S3. destruct (vl_val s V k0 Hk C) as [D|[D|[D|[D|D]]]]; auto; try tauto.
  - destruct (will_mark_step s mv s' k0 L R E D); auto. intros X. unfold g_created in C'. rewrite X in C'. exact C'.
  - destruct (val_change s mv s' k0 L H R E Hk C) as [X|X]; auto. right. right. right. right. rewrite S1, M, X. exact D.
Qed.

Lemma vl_step s mv s' : lk s -> hd s -> rg s -> vl s -> mu_step s mv = Some s' -> vl s'.
Proof.
  intros L H R V E. constructor.
  - intros k0 Hk0. pose proof (vl_new s V k0) as N. revert Hk0. mu_cases E; fu; frame; auto; intros.
    all: unfold fupd; destruct (Nat.eqb_spec k0 k) || destruct (Nat.eqb_spec k0 (m_nsig s)); subst; simpl; auto; bools; try apply N; auto; try lia.
    all: rewrite ?Hg in N; auto. destruct (g_pc (m_sig s k)); auto.
  - intros k0 Hk0 C0. pose proof (vl_new s V k0) as N. pose proof (vl_same s mv s' k0 L H R V E) as S.
    mu_cases E; fu; bools.
    all: try solve [apply S; frame; auto].
    { destruct (Nat.eq_dec k0 k) as [->|NE]; [left; rewrite fupd_same; reflexivity|].
      rewrite (fupd_other _ _ _ _ NE) in *. apply S; auto. }
    { destruct (Nat.eq_dec k0 (m_nsig s)) as [->|NE]; [rewrite fupd_same in *; contradiction|].
      rewrite (fupd_other _ _ _ _ NE) in *. apply S; auto. lia. }
    all: destruct (Nat.eq_dec k0 k) as [->|NE]; [rewrite ?fupd_same in *|rewrite ?(fupd_other _ _ _ _ NE) in *; solve [apply S; auto]].
    all: unfold g_created, shown in *; simpl in *; rewrite ?Hg in *; try contradiction; rewrite ?latest_of_app, ?latest_of_end, ?latest_of_pending in *.
    all: auto.
    all: try solve [apply S; auto; try congruence; intros [D|D]; discriminate D].
Qed.
End Mu.
