(** What Mutable.v guarantees: C48 (set_neq), C32. *)
From Verif Require Import Base Spec BaseFacts Conc Mutable MutableFacts MutableFacts2 MutableFacts3 MutableFacts4 MutableFacts5 MutableFacts6 MutableFacts7.

Section Mu.
Context {A : Type}.
Implicit Types (s : mu_st A).

(** ** set_neq *)
(** A write that never writes the value that is already there. *)
Definition strict (f : eff A) : Prop := forall a b r, f a = Some (b, r) -> b <> a.
(** Only such writes; no guards and swaps. *)
Definition strict_mv (mv : mu_move A) : Prop :=
  match mv with XWrite _ f => strict f | XLockMut _ | XSwap _ _ => False | _ => True end.

Definition tame (p : opc A) : Prop :=
  match p with
  | QAcq _ f | QBody _ f => strict f
  | QGAcq _ | QGuard _ _ | QSAcq1 _ _ | QSAcq2 _ _ | QSBody _ _ => False
  | QNotify (KSwap _ | KSwapEnd _) _ _ _ _ _ => False
  | _ => True
  end.
Record nv (k : nat) (v0 : A) (l0 : list (poll (option A))) s : Prop := {
  nv_lt : k < m_nsig s;
  nv_tame : forall i o, nth_error (m_ops s) i = Some o -> tame (o_pc o);
  nv_mark : forall i o, nth_error (m_ops s) i = Some o -> ~ wm s (o_pc o) k;
  nv_chg : g_changed (m_sig s k) = false;
  nv_pc : match g_pc (m_sig s k) with GNew | GPushAcq | GPushDo | GRAcq | GRead | GRRel _ => False | _ => True end;
  nv_val : val_of s k = v0;
  nv_ans : exists rest, g_ans (m_sig s k) = l0 ++ rest /\ forall v, ~ In (Ready (Some v)) rest }.

Lemma tame_wm s s' p k : tame p -> wm s p k -> wm s' p k.
Proof.
  destruct p as [| | | | | | | | | | | | |c fl m todo kept st| |]; simpl; try contradiction.
  destruct fl; auto. intros T [W|W]; auto. destruct c; contradiction.
Qed.

Lemma nv_step k0 v0 l0 s mv s' : inv s -> nv k0 v0 l0 s -> strict_mv mv -> mu_step s mv = Some s' ->
  nv k0 v0 l0 s' \/ val_of s' k0 <> v0.
Proof.
  intros I [Hlt Ht Hm Hc Hp Hv (rest & Ha & Hr)] Sm E.
  destruct (mut_of_step _ _ _ _ E Hlt) as [M Hlt'].
  assert (An : exists rest, g_ans (m_sig s' k0) = l0 ++ rest /\ forall v, ~ In (Ready (Some v)) rest).
  { destruct (ans_step _ _ _ _ E Hlt) as [[X _]|(r & X & Y & _)]; [rewrite X; eauto|].
    rewrite X, Ha. exists (rest ++ [r]). rewrite app_assoc. split; [reflexivity|]. intros v Hi. apply in_app_or in Hi.
    destruct Hi as [Hi|[->|[]]]; [exact (Hr v Hi)|]. rewrite (Y v eq_refl) in Hp. exact Hp. }
  assert (Tm : forall i o, nth_error (m_ops s') i = Some o -> tame (o_pc o)).
  { clear Hm Hc Hp Ha Hr M Hlt' An. intros j q Hq.
    mu_cases E; fu; inv_ops; simpl in *; auto; try contradiction; eauto.
    all: pose proof (Ht _ _ Hop) as T; rewrite Hpc in T; simpl in T; auto; try contradiction. }
  assert (Pc : g_changed (m_sig s' k0) = false /\
    match g_pc (m_sig s' k0) with GNew | GPushAcq | GPushDo | GRAcq | GRead | GRRel _ => False | _ => True end
    \/ exists i o, nth_error (m_ops s) i = Some o /\ wm s (o_pc o) k0).
  { clear Hm Ha Hr M Hlt' An Tm. mu_cases E; fu; frame; auto.
    all: unfold fupd; try (destruct (Nat.eqb_spec k0 (m_nsig s)); [lia|auto]; fail).
    all: destruct (Nat.eqb_spec k0 k) as [->|N]; auto; simpl; rewrite ?Hg in Hp; try contradiction; auto; try congruence.
    right. exists i, o. split; auto. rewrite Hpc. simpl. auto. }
  destruct Pc as [[Pc1 Pc2]|(j & q & Hq & W)]; [|destruct (Hm j q Hq W)].
  enough (X : ((forall i o, nth_error (m_ops s') i = Some o -> ~ wm s' (o_pc o) k0) /\ val_of s' k0 = val_of s k0) \/ val_of s' k0 <> val_of s k0).
  { destruct X as [[X Y]|X]; [left; constructor; auto; congruence|right; congruence]. }
  clear Hc Hp Ha Hr An Pc1 Pc2 Hlt' rest.
  assert (Old : forall j q, nth_error (m_ops s) j = Some q -> ~ wm s' (o_pc q) k0).
  { intros j q Hq W. apply (Hm j q Hq). revert W. apply tame_wm. eauto. }
  unfold val_of. rewrite M. unfold mut_of. 
  pose proof (fun m => lk_sigs s (i_lk s I) m k0) as Ls.
  mu_cases E; fu; try contradiction.
  all: frame; try (left; split; [|reflexivity]).
  all: try solve [intros j q Hq W; inv_ops; simpl in W; try contradiction; eapply Old; eauto].
  all: try solve [intros j q Hq W; inv_ops; [simpl in W|eapply Old; eauto];
        apply (Hm _ _ Hop); rewrite Hpc; simpl; try (destruct fl; [|contradiction]); tauto].
  all: try solve [pose proof (Ht _ _ Hop) as T; rewrite Hpc in T; contradiction].
  - left. split; [|rewrite fupd_other by (pose proof (lk_mut s (i_lk s I) k0 Hlt); lia); reflexivity].
    intros j q Hq W. eapply Old; eauto.
  - destruct (Nat.eq_dec (g_mut (m_sig s k0)) m) as [->|N].
    + right. rewrite fupd_same. simpl. pose proof (Ht _ _ Hop) as T; rewrite Hpc in T. eapply T; eauto.
    + left. split; [|rewrite fupd_other by auto; reflexivity]. intros j q Hq W. inv_ops; [|eapply Old; eauto]. simpl in W. destruct W as [W|[]]. destruct (Ls _ W). congruence.
Qed.

(** After a quiet moment at which the signal was up to date, it outputs again only if the value was
    different in between. *)
Theorem mu_neq (d : A) l s k l2 s2 rest v : exec mu_step (mu_init d) l = Some s -> mu_quiet s -> k < m_nsig s ->
  g_pc (m_sig s k) = GIdle -> g_changed (m_sig s k) = false -> Forall strict_mv l2 -> exec mu_step s l2 = Some s2 ->
  g_ans (m_sig s2 k) = g_ans (m_sig s k) ++ rest -> In (Ready (Some v)) rest ->
  exists l3 l4 s3, l2 = l3 ++ l4 /\ exec mu_step s l3 = Some s3 /\ val_of s3 k <> val_of s k.
Proof.
  intros E Q Hk P C F E2 Ha Hi. pose proof (inv_exec d l s E) as I.
  assert (N : nv k (val_of s k) (g_ans (m_sig s k)) s).
  { constructor; auto.
    - intros i o Ho. rewrite (quiet_pc s i o Q Ho). exact Logic.I.
    - intros i o Ho. rewrite (quiet_pc s i o Q Ho). auto.
    - rewrite P. exact Logic.I.
    - exists []. rewrite app_nil_r. auto. }
  assert (X : nv k (val_of s k) (g_ans (m_sig s k)) s2 \/ exists l3 l4 s3, l2 = l3 ++ l4 /\ exec mu_step s l3 = Some s3 /\ val_of s3 k <> val_of s k).
  { clear Ha Hi Q P C E Hk. remember (g_ans (m_sig s k)) as l0 eqn:E0. clear E0. remember (val_of s k) as v0 eqn:V. clear V.
    revert s I N E2. induction F as [|mv l2 Hs F IH]; cbn [exec]; intros s I N E2; [injection E2 as <-; auto|].
    destruct (mu_step s mv) as [s1|] eqn:E1; [|discriminate].
    destruct (nv_step k v0 l0 s mv s1 I N Hs E1) as [N'|D].
    - destruct (IH s1) as [Y|(l3 & l4 & s3 & -> & Y & Z)]; auto; [eapply inv_step; eauto|].
      right. exists (mv :: l3), l4, s3. split; [reflexivity|]. split; [cbn [exec]; rewrite E1; exact Y|exact Z].
    - right. exists [mv], l2, s1. split; [reflexivity|]. split; [cbn [exec]; rewrite E1; reflexivity|exact D]. }
  destruct X as [X|X]; auto. exfalso. destruct (nv_ans _ _ _ _ X) as (rest' & Y & Z). rewrite Ha in Y.
  apply app_inv_head in Y. subst. exact (Z v Hi).
Qed.

Lemma set_neq_strict h (v : A) eqb : (forall a b, eqb a b = false -> a <> b) -> strict_mv (XSetNeq h v eqb).
Proof.
  intros H a b r. destruct (eqb a v) eqn:X; simpl; [discriminate|]. intros [= <- <-]. specialize (H _ _ X). congruence.
Qed.

(** ** C32: the first poll of a signal of a Mutable *)
Definition firstp (g : sig A) : Prop := g_ans g = [] ->
  match g_pc g with GRAcq | GRead | GRRel _ | GGone => True | GLoad | GSet => False | _ => g_changed g = true end.
Lemma first_step s mv s' k0 : mu_step s mv = Some s' -> (forall k, firstp (m_sig s k)) -> firstp (m_sig s' k0).
Proof.
  intros E H. pose proof (H k0) as H0. mu_cases E; fu; auto.
  all: fsplit; auto.
  all: unfold firstp in *; simpl; auto.
  all: try (intros X; specialize (H0 X); rewrite ?Hg in H0; auto).
  all: try (intros X; apply app_eq_nil in X; destruct X; discriminate).
  all: try (destruct (g_pc (m_sig s k)); auto; contradiction).
  congruence.
Qed.

Lemma first_inv (d : A) l s : exec mu_step (mu_init d) l = Some s -> forall k, firstp (m_sig s k).
Proof.
  intros E. refine (exec_inv mu_step (fun s => forall k, firstp (m_sig s k)) _ l _ s _ E); simpl.
  - intros x mv x' H Ex k. eapply first_step; eauto.
  - intros k _. reflexivity.
Qed.

Lemma empty_unborn (d : A) l s k : exec mu_step (mu_init d) l = Some s -> m_nsig s <= k -> g_ans (m_sig s k) = [].
Proof.
  intros E. refine (exec_inv mu_step (fun s => m_nsig s <= k -> g_ans (m_sig s k) = []) _ l _ s _ E); simpl; auto.
  clear. rename k into k0. intros s mv s' H E Hge. mu_cases E; fu; frame; auto.
  all: bools; rewrite fupd_other by lia; apply H; lia.
Qed.

Theorem mu_first (d : A) l s k r rest : exec mu_step (mu_init d) l = Some s -> k < m_nsig s -> g_ans (m_sig s k) = r :: rest ->
  exists v, r = Ready (Some v).
Proof.
  intros E _. revert s E rest. induction l as [|mv l IH] using rev_ind; intros s E rest.
  - injection E as <-. discriminate.
  - rewrite exec_app in E. destruct (exec mu_step (mu_init d) l) as [s0|] eqn:E0; [|discriminate].
    cbn [exec] in E. destruct (mu_step s0 mv) as [s1|] eqn:E1; [|discriminate]. injection E as <-. intros Ha.
    destruct (Nat.lt_ge_cases k (m_nsig s0)) as [Hk'|Hk'].
    + destruct (ans_step _ _ _ _ E1 Hk') as [[X _]|(r' & X & Y)]; [rewrite X in Ha; eauto|].
      destruct (g_ans (m_sig s0 k)) as [|r0 rest0] eqn:A0; [|rewrite X in Ha; injection Ha as <- _; eapply IH; eauto].
      rewrite X in Ha. injection Ha as <- <-. clear Y.
      pose proof (first_inv d l s0 E0 k A0) as F.
      revert X. clear - E1 F A0 Hk'. rename k into k0, s0 into s. intros X.
      mu_cases E1; fu; frame; try congruence.
      all: revert X; fsplit; simpl; try congruence; try lia.
      all: rewrite A0; intros X; try discriminate X; injection X as <-; eauto.
      all: rewrite Hg in F; contradiction.
    + exfalso. pose proof (empty_unborn d l s0 k E0 Hk') as X.
      revert X Ha. clear - E1 Hk'. rename k into k0, s0 into s, r into r0. intros X Ha.
      mu_cases E1; fu; frame; try congruence.
      all: bools; revert Ha; fsplit; simpl; try congruence; try lia.
Qed.
End Mu.
