(** What Mutable.v guarantees: C48. *)
From Verif Require Import Base Spec BaseFacts Conc Mutable MutableFacts MutableFacts2 MutableFacts3 MutableFacts4 MutableFacts5 MutableFacts6 MutableFacts7.

Section Mu.
Context {A : Type}.
Implicit Types (s : mu_st A).

(** ** What the log of marks says *)
Lemma mark_step s mv s' : mu_step s mv = Some s' ->
  m_marks s' = m_marks s \/ exists i k, mv = XOp i /\ m_marks s' = m_marks s ++ [(i, k)] /\ g_changed (m_sig s' k) = true.
Proof.
  intros E. mu_cases E; fu; auto. right. exists i, k. rewrite fupd_same. auto.
Qed.

Lemma flag_step s mv s' k0 : mu_step s mv = Some s' -> k0 < m_nsig s -> g_changed (m_sig s k0) = false ->
  g_changed (m_sig s' k0) = true -> exists i, mv = XOp i /\ m_marks s' = m_marks s ++ [(i, k0)].
Proof.
  intros E Hlt F T. mu_cases E; fu; frame; try congruence.
  all: try (revert T; fsplit; simpl; intros; try congruence; try lia; fail).
  exists i. revert T. fsplit; simpl; intros; [auto|congruence].
Qed.

(** ** The calls that mark *)
(** A call of which it is clear that it will write to [m]. *)
Definition bound (m : nat) (p : opc A) : Prop :=
  match p with
  | QAcq m' f | QBody m' f => m' = m /\ forall v, f v <> None
  | QSAcq1 a b | QSAcq2 a b | QSBody a b => m = a \/ m = b
  | _ => False
  end.

Definition cov (i m k : nat) s : Prop :=
  k < m_nsig s /\ mut_of s k = m /\
  (g_pc (m_sig s k) = GGone \/ g_created (m_sig s k) /\
    exists o, nth_error (m_ops s) i = Some o /\ (bound m (o_pc o) \/ wm s (o_pc o) k \/ In (i, k) (m_marks s))).

Lemma created_step s mv s' k0 : mu_step s mv = Some s' -> k0 < m_nsig s -> 
  g_created (m_sig s k0) -> g_created (m_sig s' k0) \/ g_pc (m_sig s' k0) = GGone.
Proof.
  intros E Hlt C. unfold g_created in *. mu_cases E; fu; frame; auto.
  all: unfold fupd; destruct (Nat.eqb_spec k0 (m_nsig s)); try lia; auto.
  all: try (destruct (Nat.eqb_spec k0 k); subst; simpl; rewrite ?Hg in *; auto).
Qed.

Lemma gone_step s mv s' k0 : mu_step s mv = Some s' -> k0 < m_nsig s -> 
  g_pc (m_sig s k0) = GGone -> g_pc (m_sig s' k0) = GGone.
Proof.
  intros E Hlt C. mu_cases E; fu; frame; auto.
  all: unfold fupd; destruct (Nat.eqb_spec k0 (m_nsig s)); try lia; auto.
  all: try (destruct (Nat.eqb_spec k0 k); subst; simpl; rewrite ?Hg in *; auto; discriminate).
Qed.

Lemma marks_step s mv s' e : mu_step s mv = Some s' -> In e (m_marks s) -> In e (m_marks s').
Proof.
  intros E Hi. destruct (mark_step s mv s' E) as [->|(i & k & _ & -> & _)]; auto. apply in_or_app. auto.
Qed.

Lemma ops_step s mv s' j q : mu_step s mv = Some s' -> nth_error (m_ops s) j = Some q ->
  exists q', nth_error (m_ops s') j = Some q' /\ (mv <> XOp j /\ (forall v, mv <> XGuard j v) -> q' = q).
Proof.
  intros E Hq. mu_cases E; fu; eauto using snoc_old.
  all: (destruct (Nat.eq_dec i j) as [<-|N]; [eexists; split; [apply (lupd_same _ _ _ _ Hop)|intros [X Y]]; try congruence; destruct (Y v); reflexivity
       |eexists; split; [rewrite lupd_other by auto; eassumption|auto]]).
Qed.

Lemma cov_step i0 m0 k0 s mv s' : inv s -> mu_step s mv = Some s' -> cov i0 m0 k0 s -> cov i0 m0 k0 s'.
Proof.
  intros I E (Hlt & M & D). destruct (mut_of_step _ _ _ _ E Hlt) as [M' Hlt'].
  split; [exact Hlt'|]. split; [congruence|].
  destruct D as [D|[C (q & Hq & D)]]; [left; eapply gone_step; eauto|].
  destruct (created_step _ _ _ _ E Hlt C) as [C'|]; [right; split; [exact C'|]|auto].
  destruct D as [D|[D|D]].
  2,1: cycle 1.
  3: { destruct (ops_step _ _ _ _ _ E Hq) as (q' & Hq' & _). exists q'. split; auto. right. right. eapply marks_step; eauto. }
  - (* will mark *)
    pose proof (fun Hq' => wm_kept s mv s' i0 q k0 (i_lk s I) E Hq Hq' D) as K. clear Hlt' M' .
    assert (Al : g_pc (m_sig s' k0) <> GGone) by (intros X; unfold g_created in C'; rewrite X in C'; exact C').
    clear C C'.
    mu_cases E; fu.
    all: try (exists q; split; [apply snoc_old|right; left; apply K; apply snoc_old]; assumption).
    all: try (exists q; split; [|right; left; apply K]; assumption).
    all: destruct (Nat.eq_dec i i0) as [<-|N];
      [|exists q; split; [|right; left; apply K]; cbn [m_ops]; rewrite lupd_other by assumption; assumption].
    all: rewrite Hop in Hq; injection Hq as <-; rewrite Hpc in D; simpl in D; try contradiction.
    all: clear K; try (destruct fl; [|contradiction]); try (destruct b; [|contradiction]).
    all: try solve [exfalso; destruct D as [D|D]; [destruct st; contradiction|contradiction]].
    all: try solve [eexists _; split; [apply (lupd_same _ _ _ _ Hop)|simpl; frame; tauto]].
    + eexists; split; [apply (lupd_same _ _ _ _ Hop)|simpl]. right; left.
      destruct D as [D|D]; [destruct st; contradiction|auto].
    + eexists; split; [apply (lupd_same _ _ _ _ Hop)|simpl]. right; left.
      destruct D as [[<-|D]|D]; auto. unfold g_alive in Hal. destruct (g_pc (m_sig s k)); congruence.
    + eexists; split; [apply (lupd_same _ _ _ _ Hop)|simpl]. right.
      destruct D as [[<-|D]|D]; auto. right. apply in_or_app. simpl. auto.
  - (* about to write *)
    pose proof (rg_reg s (i_rg s I) k0 Hlt C) as Rg. fold (mut_of s k0) in Rg. rewrite M in Rg.
    pose proof (fun m => hd_pos s i0 q m (i_hd s I) Hq) as Ps. clear Hlt' M' C C'.
    mu_cases E; fu.
    all: try (exists q; split; [apply snoc_old|]; auto; fail).
    all: try (exists q; split; auto; fail).
    all: destruct (Nat.eq_dec i i0) as [<-|N];
      [|exists q; split; [rewrite lupd_other by assumption|]; auto].
    all: rewrite Hop in Hq; injection Hq as <-; rewrite Hpc in D, Ps; simpl in D, Ps; try contradiction.
    all: eexists; split; [apply (lupd_same _ _ _ _ Hop)|simpl]; auto.
    + destruct D as [<- D]. right. left. left. apply Rg. apply Ps. auto.
    + destruct D as [_ D]. destruct (D (v_val (m_mut s m))). assumption.
    + right. left. destruct D as [->| ->]; [left; apply Rg; apply Ps; auto|right; frame; apply Rg; apply Ps; auto].
Qed.

Lemma cov_exec i m k s l s' o : inv s -> exec mu_step s l = Some s' -> cov i m k s -> nth_error (m_ops s') i = Some o ->
  o_done o = true -> g_pc (m_sig s' k) <> GGone -> In (i, k) (m_marks s').
Proof.
  intros I E C Ho Dn Al.
  assert (X : inv s' /\ cov i m k s').
  { refine (exec_inv mu_step (fun x => inv x /\ cov i m k x) _ l s s' _ E); [|auto].
    intros x mv x' [X1 X2] Ex. split; [eapply inv_step|eapply cov_step]; eauto. }
  destruct X as [_ (_ & _ & [X|[_ (q & Hq & X)]])]; [contradiction|].
  assert (q = o) by congruence. subst q. unfold o_done in Dn. destruct (o_pc o); try discriminate.
  simpl in X. intuition.
Qed.

(** set, replace, replace_with *)
Theorem mu_write_marks (d : A) l s h f m s1 l2 s2 o k : exec mu_step (mu_init d) l = Some s ->
  lookup h (m_live s) = Some m -> (forall v, f v <> None) -> mu_step s (XWrite h f) = Some s1 -> exec mu_step s1 l2 = Some s2 ->
  nth_error (m_ops s2) (length (m_ops s)) = Some o -> o_done o = true ->
  k < m_nsig s -> mut_of s k = m -> g_created (m_sig s k) -> g_pc (m_sig s2 k) <> GGone ->
  In (length (m_ops s), k) (m_marks s2).
Proof.
  intros E Hl Hf E1 E2 Ho Dn Hk M C Al. pose proof (inv_exec d l s E) as I.
  apply (cov_exec (length (m_ops s)) m k s1 l2 s2 o); auto; [eapply inv_step; eauto|].
  simpl in E1. rewrite Hl in E1. injection E1 as <-. split; [exact Hk|]. split; [exact M|]. right. split; [exact C|].
  eexists. split; [apply snoc_new|]. left. simpl. auto.
Qed.

(** swap, both Mutables *)
Theorem mu_swap_marks (d : A) l s h h' m m' s1 l2 s2 o k : exec mu_step (mu_init d) l = Some s ->
  lookup h (m_live s) = Some m -> lookup h' (m_live s) = Some m' -> mu_step s (XSwap h h') = Some s1 -> exec mu_step s1 l2 = Some s2 ->
  nth_error (m_ops s2) (length (m_ops s)) = Some o -> o_done o = true ->
  k < m_nsig s -> mut_of s k = m \/ mut_of s k = m' -> g_created (m_sig s k) -> g_pc (m_sig s2 k) <> GGone ->
  In (length (m_ops s), k) (m_marks s2).
Proof.
  intros E Hl Hl' E1 E2 Ho Dn Hk M C Al. pose proof (inv_exec d l s E) as I.
  apply (cov_exec (length (m_ops s)) (mut_of s k) k s1 l2 s2 o); auto; [eapply inv_step; eauto|].
  simpl in E1. rewrite Hl, Hl' in E1. injection E1 as <-. split; [exact Hk|]. split; [reflexivity|]. right. split; [exact C|].
  eexists. split; [apply snoc_new|]. left. simpl. exact M.
Qed.

(** lock_mut whose guard was mutably dereferenced *)
Theorem mu_guard_marks (d : A) l s i o m b v s1 l2 s2 o2 k : exec mu_step (mu_init d) l = Some s ->
  nth_error (m_ops s) i = Some o -> o_pc o = QGuard m b -> mu_step s (XGuard i v) = Some s1 -> exec mu_step s1 l2 = Some s2 ->
  nth_error (m_ops s2) i = Some o2 -> o_done o2 = true ->
  k < m_nsig s -> mut_of s k = m -> g_created (m_sig s k) -> g_pc (m_sig s2 k) <> GGone ->
  In (i, k) (m_marks s2).
Proof.
  intros E Ho Hp E1 E2 Ho2 Dn Hk M C Al. pose proof (inv_exec d l s E) as I.
  apply (cov_exec i m k s1 l2 s2 o2); auto; [eapply inv_step; eauto|].
  pose proof (rg_reg s (i_rg s I) k Hk C) as Rg. fold (mut_of s k) in Rg. rewrite M in Rg.
  pose proof (hd_pos s i o m (i_hd s I) Ho) as Ps. rewrite Hp in Ps. specialize (Ps (or_introl eq_refl)).
  simpl in E1. rewrite Ho, Hp in E1. injection E1 as <-. split; [exact Hk|]. split; [exact M|]. right. split; [exact C|].
  eexists. split; [apply (lupd_same _ _ _ _ Ho)|]. right. left. simpl. rewrite fupd_same. simpl. apply Rg. exact Ps.
Qed.

(** ** The calls that do not *)
(** A call that has not written and, unless a guard is mutably dereferenced, will not. *)
Definition silent (p : opc A) : Prop :=
  match p with
  | QGAcq _ | QGuard _ false | QClone _ | QDropSub _ | QDropAcq _ | QDropChk _ | QRAcq _ | QRHold _ _ | QRel _ | QRet => True
  | QNotify KDrop fl _ _ _ _ => fl = false
  | _ => False
  end.
Definition sil (i : nat) s : Prop :=
  (exists o, nth_error (m_ops s) i = Some o /\ silent (o_pc o)) /\ (forall k, ~ In (i, k) (m_marks s)).

Lemma sil_step i0 s mv s' : mu_step s mv = Some s' -> (forall v, mv <> XGuard i0 v) -> sil i0 s -> sil i0 s'.
Proof.
  intros E NG ((q & Hq & Sl) & N). mu_cases E; fu; (split; cbn [m_ops m_marks]; [|try exact N]).
  all: try (exists q; split; [apply snoc_old|]; auto; fail).
  all: try (exists q; split; auto; fail).
  all: try match goal with |- ex _ => destruct (Nat.eq_dec i i0) as [<-|Ni]; [|exists q; split; [rewrite lupd_other by assumption; assumption|assumption]] end.
  all: try (rewrite Hop in Hq; injection Hq as <-; rewrite Hpc in Sl; simpl in Sl; try contradiction).
  all: try solve [eexists; split; [apply (lupd_same _ _ _ _ Hop)|simpl; auto]].
  - destruct (NG v); reflexivity.
  - intros j X. apply in_app_or in X. destruct X as [X|[[= -> ->]|[]]]; [eapply N; eauto|].
    rewrite Hop in Hq; injection Hq as <-; rewrite Hpc in Sl. simpl in Sl. destruct c; try contradiction. discriminate.
Qed.

Lemma sil_exec i s l s' k : exec mu_step s l = Some s' -> (forall v, ~ In (XGuard i v) l) -> sil i s -> ~ In (i, k) (m_marks s').
Proof.
  revert s. induction l as [|mv l IH]; cbn [exec]; intros s E NG Z.
  - injection E as <-. apply Z.
  - destruct (mu_step s mv) as [s1|] eqn:E1; [|discriminate]. apply (IH s1 E).
    + intros v X. apply (NG v). right. exact X.
    + eapply sil_step; eauto. intros v ->. apply (NG v). left. reflexivity.
Qed.

Lemma sil_noguard i s mv s' v : mu_step s mv = Some s' -> mv = XGuard i v -> exists o m b, nth_error (m_ops s) i = Some o /\ o_pc o = QGuard m b.
Proof.
  intros E ->. simpl in E. destruct (nth_error (m_ops s) i) as [o|]; [|discriminate].
  destruct (o_pc o) eqn:P; try discriminate. eauto.
Qed.

(** Calls never mentioned in the log so far. *)
Lemma marks_lt (d : A) l s i k : exec mu_step (mu_init d) l = Some s -> In (i, k) (m_marks s) -> i < length (m_ops s).
Proof.
  intros E.
  refine (exec_inv mu_step (fun x => forall j k, In (j, k) (m_marks x) -> j < length (m_ops x)) _ l _ s _ E i k); simpl; [|contradiction].
  intros x mv x' H Ex j k0. destruct (mark_step x mv x' Ex) as [->|(i0 & k1 & -> & -> & _)].
  - intros X. specialize (H j k0 X). apply nth_error_Some in H. destruct (nth_error (m_ops x) j) as [q|] eqn:Q; [|congruence].
    destruct (ops_step x mv x' j q Ex Q) as (q' & Q' & _). apply nth_error_Some. congruence.
  - intros X. apply in_app_or in X. assert (Y : j < length (m_ops x)).
    { destruct X as [X|[[= -> ->]|[]]]; [eauto|]. simpl in Ex. apply nth_error_Some. destruct (nth_error (m_ops x) j); congruence. }
    apply nth_error_Some in Y. destruct (nth_error (m_ops x) j) as [q|] eqn:Q; [|congruence].
    destruct (ops_step x _ x' j q Ex Q) as (q' & Q' & _). apply nth_error_Some. congruence.
Qed.

(** get, lock_ref, clone, drop *)
Theorem mu_read_silent (d : A) l s mv s1 l2 s2 k : exec mu_step (mu_init d) l = Some s ->
  match mv with XRead _ | XClone _ | XDrop _ => True | _ => False end ->
  mu_step s mv = Some s1 -> exec mu_step s1 l2 = Some s2 -> ~ In (length (m_ops s), k) (m_marks s2).
Proof.
  intros E Hm E1 E2.
  set (i0 := length (m_ops s)).
  assert (Z : (exists o, nth_error (m_ops s1) i0 = Some o /\ silent (o_pc o) /\ match o_pc o with QGAcq _ | QGuard _ _ => False | _ => True end)
      /\ forall k, ~ In (i0, k) (m_marks s1)).
  { assert (N : forall k, ~ In (i0, k) (m_marks s)) by (intros k0 X; pose proof (marks_lt d l s _ _ E X); unfold i0 in *; lia).
    destruct mv; try contradiction; simpl in E1.
    - destruct (lookup h (m_live s)); [|discriminate]. injection E1 as <-. split; [|exact N]. eexists. split; [apply snoc_new|]. simpl. auto.
    - destruct (lookup h (m_live s)); [|discriminate]. destruct (borrowed s h); [discriminate|]. injection E1 as <-.
      split; [|exact N]. eexists. split; [apply snoc_new|]. simpl. auto.
    - destruct (m <? m_born s); [|discriminate]. injection E1 as <-. split; [|exact N]. eexists. split; [apply snoc_new|]. simpl. auto. }
  clearbody i0. clear E1 E Hm.
  assert (Y : (exists o, nth_error (m_ops s2) i0 = Some o /\ silent (o_pc o) /\ match o_pc o with QGAcq _ | QGuard _ _ => False | _ => True end)
      /\ forall k, ~ In (i0, k) (m_marks s2)).
  { refine (exec_inv mu_step (fun x => (exists o, nth_error (m_ops x) i0 = Some o /\ silent (o_pc o) /\ match o_pc o with QGAcq _ | QGuard _ _ => False | _ => True end)
      /\ forall k, ~ In (i0, k) (m_marks x)) _ l2 s1 s2 Z E2). clear. intros s mv s' ((q & Hq & Sl & G) & N) E.
    assert (NG : forall v, mv <> XGuard i0 v).
    { intros v ->. destruct (sil_noguard i0 _ _ _ v E eq_refl) as (o & m & b & Ho & P). assert (q = o) by congruence. subst q.
      rewrite P in G. exact G. }
    destruct (sil_step i0 s mv s' E NG) as ((q' & Hq' & Sl') & N'); [split; eauto|].
    split; [|exact N']. exists q'. repeat split; auto. clear N N' Sl'.
    mu_cases E; fu; try (assert (q' = q) by congruence; subst; exact G).
    all: try (rewrite (snoc_old _ _ _ _ Hq) in Hq'; injection Hq' as <-; exact G).
    all: try (destruct (NG v); f_equal; congruence).
    all: destruct (Nat.eq_dec i i0) as [<-|Ni]; [|rewrite lupd_other in Hq' by assumption; assert (q' = q) by congruence; subst; exact G].
    all: rewrite (lupd_same _ _ _ _ Hop) in Hq'; injection Hq' as <-; simpl; auto.
    all: rewrite Hop in Hq; injection Hq as <-; rewrite Hpc in Sl, G; simpl in Sl, G; contradiction. }
  apply Y.
Qed.

(** A guard that is not mutably dereferenced. *)
Theorem mu_guard_silent (d : A) l s h s1 l2 s2 k : exec mu_step (mu_init d) l = Some s ->
  mu_step s (XLockMut h) = Some s1 -> exec mu_step s1 l2 = Some s2 -> (forall v, ~ In (XGuard (length (m_ops s)) v) l2) ->
  ~ In (length (m_ops s), k) (m_marks s2).
Proof.
  intros E E1 E2 NG. apply (sil_exec _ s1 l2 s2 k E2 NG). simpl in E1. destruct (lookup h (m_live s)); [|discriminate].
  injection E1 as <-. split; [eexists; split; [apply snoc_new|exact I]|].
  intros k0 X. pose proof (marks_lt d l s _ _ E X). lia.
Qed.

(** set_if and set_neq whose predicate rejects: when the call, with the lock, looks at the value. *)
Lemma unmarked (d : A) l s : exec mu_step (mu_init d) l = Some s -> forall i o k, nth_error (m_ops s) i = Some o ->
  match o_pc o with QAcq _ _ | QBody _ _ => ~ In (i, k) (m_marks s) | _ => True end.
Proof.
  intros E. refine (proj2 (exec_inv mu_step (fun x => (forall j k, In (j, k) (m_marks x) -> j < length (m_ops x)) /\
     (forall i o k, nth_error (m_ops x) i = Some o ->
      match o_pc o with QAcq _ _ | QBody _ _ => ~ In (i, k) (m_marks x) | _ => True end)) _ l _ s _ E)); simpl.
  2: { split; [contradiction|]. intros [] ?; discriminate. }
  intros x mv x' [Lt H] Ex. split.
  { clear H. intros j k0. destruct (mark_step x mv x' Ex) as [->|(i0 & k1 & -> & -> & _)].
  - intros X. specialize (Lt j k0 X). apply nth_error_Some in Lt. destruct (nth_error (m_ops x) j) as [q|] eqn:Q; [|congruence].
    destruct (ops_step x mv x' j q Ex Q) as (q' & Q' & _). apply nth_error_Some. congruence.
  - intros X. apply in_app_or in X. assert (Y : j < length (m_ops x)).
    { destruct X as [X|[[= -> ->]|[]]]; [eauto|]. simpl in Ex. apply nth_error_Some. destruct (nth_error (m_ops x) j); congruence. }
    apply nth_error_Some in Y. destruct (nth_error (m_ops x) j) as [q|] eqn:Q; [|congruence].
    destruct (ops_step x _ x' j q Ex Q) as (q' & Q' & _). apply nth_error_Some. congruence. }
  intros j q n Hq. specialize (Lt j n). mu_cases Ex; fu; inv_ops; simpl; auto.
  all: try solve [eapply H; eauto].
  all: try solve [intros X; specialize (Lt X); lia].
  - specialize (H _ _ n Hop). rewrite Hpc in H. exact H.
  - specialize (H _ _ n Hq). destruct (o_pc q); auto; intros X; apply in_app_or in X; destruct X as [X|[[= -> ->]|[]]]; auto.
Qed.

Theorem mu_reject_silent (d : A) l s i o m f l2 s2 k : exec mu_step (mu_init d) l = Some s ->
  nth_error (m_ops s) i = Some o -> o_pc o = QBody m f -> f (v_val (m_mut s m)) = None ->
  exec mu_step s (XOp i :: l2) = Some s2 -> ~ In (i, k) (m_marks s2).
Proof.
  intros E Ho P F E2. cbn [exec] in E2. destruct (mu_step s (XOp i)) as [s1|] eqn:E1; [|discriminate].
  pose proof (fun k => unmarked d l s E i o k Ho) as U. rewrite P in U.
  assert (Z : (exists o, nth_error (m_ops s1) i = Some o /\ match o_pc o with QRel _ | QRet => True | _ => False end) /\ forall k, ~ In (i, k) (m_marks s1)).
  { simpl in E1. rewrite Ho in E1. unfold op_step in E1. rewrite P, F in E1. injection E1 as <-. split; [|exact U].
    eexists. split; [apply (lupd_same _ _ _ _ Ho)|exact I]. }
  refine (proj2 (exec_inv mu_step (fun x => (exists o, nth_error (m_ops x) i = Some o /\ match o_pc o with QRel _ | QRet => True | _ => False end) /\ forall k, ~ In (i, k) (m_marks x)) _ l2 s1 s2 Z E2) k).
  clear. rename i into i0. intros s mv s' ((q & Hq & Sl) & N) E.
  mu_cases E; fu; (split; cbn [m_ops m_marks]; [|try exact N]).
  all: try (exists q; split; [apply snoc_old|]; auto; fail).
  all: try (exists q; split; auto; fail).
  all: try match goal with |- ex _ => destruct (Nat.eq_dec i i0) as [<-|Ni]; [|exists q; split; [rewrite lupd_other by assumption; assumption|assumption]] end.
  all: try (rewrite Hop in Hq; injection Hq as <-; rewrite Hpc in Sl; simpl in Sl; try contradiction).
  all: try solve [eexists; split; [apply (lupd_same _ _ _ _ Hop)|simpl; auto]].
  intros j X. apply in_app_or in X. destruct X as [X|[[= -> ->]|[]]]; [eapply N; eauto|].
  rewrite Hop in Hq; injection Hq as <-; rewrite Hpc in Sl. exact Sl.
Qed.
End Mu.
