(** What Mutable.v guarantees: C46, C47. *)
From Verif Require Import Base Spec BaseFacts Conc Mutable MutableFacts MutableFacts2 MutableFacts3 MutableFacts4 MutableFacts5 MutableFacts6 MutableFacts7.

Section Mu.
Context {A : Type}.
Implicit Types (s : mu_st A).

(** ** C46 *)
Lemma at_take_notifying s k : at_take s k -> notifying s k.
Proof. intros (i & o & c & fl & m & t & kept & H). exists i, o, c, fl, m, t, kept, NTake. exact H. Qed.
Lemma waking_notifying s k p : waking s k p -> notifying s k.
Proof. intros (i & o & c & fl & m & t & kept & H). exists i, o, c, fl, m, t, kept, (NWake p). exact H. Qed.

Theorem mu_woken (d : A) l s k : exec mu_step (mu_init d) l = Some s -> k < m_nsig s -> g_pc (m_sig s k) = GIdle ->
  g_waiting (m_sig s k) = true -> g_raced (m_sig s k) = false -> g_changed (m_sig s k) = true ->
  In (k, g_polls (m_sig s k)) (m_woken s) \/ notifying s k.
Proof.
  intros E Hk Hp Hw Hr Hc. pose proof (inv_exec d l s E) as I.
  destruct (wk_wait s k (i_wk s I k Hk) Hw Hp Hr) as [X|[X|(_ & X & _)]]; auto.
  - right. eapply waking_notifying; eauto.
  - right. apply at_take_notifying. auto.
Qed.

Lemma gone_senders s m : hd s -> mu_quiet s -> all_gone s m -> v_senders (m_mut s m) = 0.
Proof.
  intros H Q G. rewrite (hd_cnt s H). 
  destruct (Nat.eq_0_gt_0_cases (count (fun e => snd e =? m) (m_live s))) as [X|X].
  - destruct (Nat.eq_0_gt_0_cases (count (at_sub m) (m_ops s))) as [Y|Y]; [lia|].
    destruct (count_ex _ _ Y) as (i & o & Ho & Hs). unfold at_sub in Hs. rewrite (quiet_pc s i o Q Ho) in Hs. discriminate.
  - destruct (count_ex _ _ X) as (i & [h m'] & Ho & Hs). simpl in Hs. apply Nat.eqb_eq in Hs. subst.
    destruct (G h). eapply nth_error_In; eauto.
Qed.

Lemma mu_woken_inv s k : inv s -> mu_quiet s -> k < m_nsig s ->
  g_pc (m_sig s k) = GIdle -> g_waiting (m_sig s k) = true -> g_raced (m_sig s k) = false ->
  latest_of (g_ans (m_sig s k)) <> Some (val_of s k) \/ all_gone s (mut_of s k) ->
  In (k, g_polls (m_sig s k)) (m_woken s).
Proof.
  intros I Q Hk Hp Hw Hr D.
  destruct (wk_wait s k (i_wk s I k Hk) Hw Hp Hr) as [X|[X|(_ & X & Y)]]; auto.
  - destruct (quiet_no_notify s k Q). eapply waking_notifying; eauto.
  - exfalso. destruct D as [D|D].
    + destruct (vl_val s (i_vl s I) k Hk) as [Z|[Z|[Z|[Z|Z]]]]; try congruence.
      * unfold g_created. rewrite Hp. exact Logic.I.
      * destruct (quiet_no_notify s k Q). apply at_take_notifying. auto.
      * destruct (quiet_no_mark s k Q Z).
      * unfold shown in Z. rewrite Hp in Z. contradiction.
    + destruct (Y (gone_senders s _ (i_hd s I) Q D)) as (i & o & Ho & Z). rewrite (quiet_pc s i o Q Ho) in Z. exact Z.
Qed.

Theorem mu_woken_quiet (d : A) l s k : exec mu_step (mu_init d) l = Some s -> mu_quiet s -> k < m_nsig s ->
  g_pc (m_sig s k) = GIdle -> g_waiting (m_sig s k) = true -> g_raced (m_sig s k) = false ->
  latest_of (g_ans (m_sig s k)) <> Some (val_of s k) \/ all_gone s (mut_of s k) ->
  In (k, g_polls (m_sig s k)) (m_woken s).
Proof. intros E. apply mu_woken_inv. eapply inv_exec; eauto. Qed.

(** A signal that is not being polled. *)
Lemma rest_step s mv s' k0 : mu_step s mv = Some s' -> k0 < m_nsig s -> g_pc (m_sig s k0) = GIdle \/ g_pc (m_sig s k0) = GGone ->
  (g_polls (m_sig s' k0) = g_polls (m_sig s k0) /\ (g_pc (m_sig s' k0) = GIdle \/ g_pc (m_sig s' k0) = GGone)
    /\ g_raced (m_sig s' k0) = g_raced (m_sig s k0) /\ g_waiting (m_sig s' k0) = g_waiting (m_sig s k0)
    /\ g_ans (m_sig s' k0) = g_ans (m_sig s k0))
  \/ g_polls (m_sig s k0) < g_polls (m_sig s' k0).
Proof.
  intros E Hlt P. mu_cases E; fu; frame; auto 7.
  all: try (rewrite fupd_other by lia; auto 7).
  all: destruct (Nat.eq_dec k0 k) as [->|N]; [rewrite fupd_same|rewrite fupd_other by auto; auto 7].
  all: simpl; try solve [destruct P as [P|P]; rewrite P in Hg; discriminate].
  all: try solve [left; repeat split; auto; destruct P as [P|P]; rewrite P, orb_false_r; reflexivity].
  all: right; lia.
Qed.

Lemma polls_step s mv s' k0 : mu_step s mv = Some s' -> k0 < m_nsig s -> g_polls (m_sig s k0) <= g_polls (m_sig s' k0).
Proof.
  intros E Hlt. mu_cases E; fu; frame; auto.
  - rewrite fupd_other by lia; auto.
  - destruct (Nat.eq_dec k0 k) as [->|N]; [rewrite fupd_same|rewrite fupd_other by auto; auto]. simpl. lia.
Qed.

Lemma rest_exec s l s' k : exec mu_step s l = Some s' -> k < m_nsig s -> g_pc (m_sig s k) = GIdle \/ g_pc (m_sig s k) = GGone ->
  g_polls (m_sig s' k) = g_polls (m_sig s k) ->
  k < m_nsig s' /\ g_raced (m_sig s' k) = g_raced (m_sig s k) /\ g_waiting (m_sig s' k) = g_waiting (m_sig s k)
  /\ g_ans (m_sig s' k) = g_ans (m_sig s k).
Proof.
  revert s. induction l as [|mv l IH]; cbn [exec]; intros s E Hk Hp He.
  - injection E as <-. auto.
  - destruct (mu_step s mv) as [s1|] eqn:E1; [|discriminate].
    destruct (mut_of_step _ _ _ _ E1 Hk) as [_ Hk1].
    assert (M : g_polls (m_sig s1 k) <= g_polls (m_sig s' k)).
    { refine (proj2 (exec_inv mu_step (fun x => k < m_nsig x /\ g_polls (m_sig s1 k) <= g_polls (m_sig x k)) _ l s1 s' _ E)); auto.
      intros x m x' [X1 X2] Ex. destruct (mut_of_step _ _ _ _ Ex X1). pose proof (polls_step _ _ _ _ Ex X1). split; [auto|lia]. }
    destruct (rest_step _ _ _ _ E1 Hk Hp) as [(X1 & X2 & X3 & X4 & X5)|X]; [|lia].
    destruct (IH s1 E Hk1 X2) as (Y1 & Y2 & Y3 & Y4); [congruence|]. repeat split; auto; congruence.
Qed.

Lemma raced_alone s k n s' : k < m_nsig s -> exec mu_step s (XPoll k :: repeat (XSig k) n) = Some s' ->
  g_raced (m_sig s' k) = false /\ k < m_nsig s'.
Proof.
  intros Hk E. cbn [exec] in E. destruct (mu_step s (XPoll k)) as [s0|] eqn:E0; [|discriminate].
  assert (X : g_raced (m_sig s0 k) = false /\ k < m_nsig s0).
  { unfold mu_step in E0. destruct (k <? m_nsig s); [|discriminate]. destruct (g_pc (m_sig s k)); try discriminate.
    injection E0 as <-. simpl. rewrite fupd_same. auto. }
  clear E0 Hk. revert s0 E X. induction n as [|n IH]; cbn [exec repeat]; intros s0 E X.
  - injection E as <-. exact X.
  - destruct (mu_step s0 (XSig k)) as [s1|] eqn:E1; [|discriminate]. apply (IH s1 E).
    destruct X as [X1 X2]. destruct (mut_of_step _ _ _ _ E1 X2) as [_ X3]. split; auto. rewrite <- X1.
    unfold mu_step in E1. destruct (k <? m_nsig s0); [|discriminate]. unfold sig_step, acq_w, acq_r in E1.
    destruct (g_pc (m_sig s0 k)); try discriminate;
    repeat match type of E1 with
    | context [if ?b then Some _ else None] => destruct b; [|discriminate E1]
    | context [match g_mutex ?x with _ => _ end] => destruct (g_mutex x); [discriminate E1|]
    | context [if ?b then Some _ else Some _] => destruct b
    end; injection E1 as <-; cbn [m_sig set_sig]; rewrite fupd_same; reflexivity.
Qed.

(** A poll without anything in between, and then anything except a poll of the same signal. *)
Theorem mu_woken_alone (d : A) l s k n s1 l2 s2 : exec mu_step (mu_init d) l = Some s -> k < m_nsig s ->
  exec mu_step s (XPoll k :: repeat (XSig k) n) = Some s1 -> g_pc (m_sig s1 k) = GIdle -> g_waiting (m_sig s1 k) = true ->
  exec mu_step s1 l2 = Some s2 -> g_polls (m_sig s2 k) = g_polls (m_sig s1 k) -> g_pc (m_sig s2 k) = GIdle -> mu_quiet s2 ->
  latest_of (g_ans (m_sig s2 k)) <> Some (val_of s2 k) \/ all_gone s2 (mut_of s2 k) ->
  In (k, g_polls (m_sig s2 k)) (m_woken s2).
Proof.
  intros E Hk E1 P1 W1 E2 N2 P2 Q2 D.
  destruct (raced_alone s k n s1 Hk E1) as [R1 Hk1].
  destruct (rest_exec s1 l2 s2 k E2 Hk1 (or_introl P1) N2) as (Hk2 & R2 & W2 & _).
  apply mu_woken_inv; auto; try congruence.
  eapply inv_exec_from; [|exact E2]. eapply inv_exec_from; [|exact E1]. eapply inv_exec; eauto.
Qed.

(** ** C47 *)
Lemma zero_step s mv s' m0 : inv s -> mu_step s mv = Some s' -> m0 < m_born s -> v_senders (m_mut s m0) = 0 ->
  m0 < m_born s' /\ v_senders (m_mut s' m0) = 0 /\ v_val (m_mut s' m0) = v_val (m_mut s m0).
Proof.
  intros I E B Z. mu_cases E; fu.
  all: try (pose proof (fun m => hd_pos s _ _ m (i_hd s I) Hop) as Ln; rewrite Hpc in Ln; simpl in Ln).
  all: repeat split; frame; auto; try lia.
  all: try solve [fsplit; auto; lia].
  all: try solve [fsplit; auto; simpl; lia].
  all: try solve [fsplit; auto; pose proof (Ln _ (or_introl eq_refl)); lia].
  rewrite !fupd_other; auto; intros ->; [pose proof (Ln _ (or_introl eq_refl))|pose proof (Ln _ (or_intror (or_introl eq_refl)))]; lia.
Qed.

Lemma zero_exec s l s' m : inv s -> exec mu_step s l = Some s' -> m < m_born s -> v_senders (m_mut s m) = 0 ->
  m < m_born s' /\ v_senders (m_mut s' m) = 0 /\ v_val (m_mut s' m) = v_val (m_mut s m).
Proof.
  intros I E B Z.
  refine (proj2 (exec_inv mu_step (fun x => inv x /\ m < m_born x /\ v_senders (m_mut x m) = 0 /\ v_val (m_mut x m) = v_val (m_mut s m)) _ l s s' _ E)); auto.
  intros x mv x' (X1 & X2 & X3 & X4) Ex. split; [eapply inv_step; eauto|].
  destruct (zero_step x mv x' m X1 Ex X2 X3) as (Y1 & Y2 & Y3). repeat split; auto. congruence.
Qed.

Lemma ended_zero (d : A) l s k : exec mu_step (mu_init d) l = Some s -> k < m_nsig s ->
  In (Ready None) (g_ans (m_sig s k)) -> v_senders (m_mut s (mut_of s k)) = 0.
Proof.
  intros E.
  refine (proj2 (exec_inv mu_step (fun x => inv x /\ (k < m_nsig x -> In (Ready None) (g_ans (m_sig x k)) -> v_senders (m_mut x (mut_of x k)) = 0))
    _ l _ s _ E)).
  - intros x mv x' [X1 X2] Ex. split; [eapply inv_step; eauto|]. intros Hk Hi.
    destruct (Nat.lt_ge_cases k (m_nsig x)) as [Hk'|Hk'].
    + destruct (mut_of_step _ _ _ _ Ex Hk') as [M _]. rewrite M.
      assert (Z : v_senders (m_mut x (mut_of x k)) = 0 -> v_senders (m_mut x' (mut_of x k)) = 0).
      { intros Z. apply (zero_step x mv x'); auto. apply (lk_mut x (i_lk x X1)). exact Hk'. }
      destruct (ans_step _ _ _ _ Ex Hk') as [[Y _]|(r & Y & _ & _ & _ & Y')].
      * apply Z. apply X2; auto. congruence.
      * rewrite Y in Hi. apply in_app_or in Hi. destruct Hi as [Hi|[->|[]]]; [apply Z; auto|].
        apply Z. apply Y'. reflexivity.
    + exfalso. assert (G : g_ans (m_sig x' k) = []).
      { clear - X1 Ex Hk Hk'. pose proof (lk_unborn x (i_lk x X1) k Hk') as U. clear U. revert Hk.
        rename k into k0. mu_cases Ex; fu; try lia. intros. rewrite fupd_eq by lia. reflexivity. }
      rewrite G in Hi. exact Hi.
  - split; [apply inv_init|]. simpl. lia.
Qed.

Lemma zero_gone s m : hd s -> v_senders (m_mut s m) = 0 -> all_gone s m.
Proof.
  intros H Z h Hi. rewrite (hd_cnt s H) in Z. apply In_nth_error in Hi. destruct Hi as [n Hn].
  pose proof (count_pos (fun e => snd e =? m) _ _ _ Hn (Nat.eqb_refl m)). lia.
Qed.

Theorem mu_ends_only (d : A) l s k : exec mu_step (mu_init d) l = Some s -> k < m_nsig s ->
  In (Ready None) (g_ans (m_sig s k)) -> all_gone s (mut_of s k).
Proof.
  intros E Hk Hi. apply zero_gone; [apply i_hd; eapply inv_exec; eauto|]. eapply ended_zero; eauto.
Qed.

(** If no change came between the two looks of the ending poll, the last value was shown before. *)
Theorem mu_last_value (d : A) l s k s' l2 s2 : exec mu_step (mu_init d) l = Some s -> k < m_nsig s ->
  mu_step s (XSig k) = Some s' -> g_ans (m_sig s' k) = g_ans (m_sig s k) ++ [Ready None] ->
  g_changed (m_sig s k) = false -> exec mu_step s' l2 = Some s2 ->
  latest_of (g_ans (m_sig s k)) = Some (val_of s k) /\ val_of s2 k = val_of s k.
Proof.
  intros E Hk Es Ha Hc E2. pose proof (inv_exec d l s E) as I.
  destruct (ans_step _ _ _ _ Es Hk) as [[X _]|(r & X & _ & _ & _ & Y)].
  - exfalso. rewrite X in Ha. rewrite <- (app_nil_r (g_ans (m_sig s k))) in Ha at 1. apply app_inv_head in Ha. discriminate.
  - rewrite X in Ha. apply app_inv_head in Ha. injection Ha as ->. destruct (Y eq_refl) as (P & Z & Mm).
    assert (B : mut_of s k < m_born s) by (apply (lk_mut s (i_lk s I)); exact Hk).
    split.
    + destruct (vl_val s (i_vl s I) k Hk) as [Q|[Q|[Q|[Q|Q]]]]; try congruence.
      * unfold g_created. rewrite P. exact Logic.I.
      * exfalso. destruct Q as (i & o & Ho & W).
        pose proof (fun m => hd_pos s i o m (i_hd s I) Ho) as Ps.
        pose proof (fun m k => lk_sigs s (i_lk s I) m k) as Ls.
        pose proof (lk_todo s (i_lk s I) i o k Ho) as Lt.
        pose proof (hd_flag s (i_hd s I) i o) as Lf.
        unfold mut_of in *.
        destruct (o_pc o) as [| | |m b| | | | | | | | | |c fl m todo kept st| |] eqn:Hpo; try contradiction.
        -- destruct b; [|contradiction]. destruct (Ls _ _ W) as [_ M]. pose proof (Ps m (or_introl eq_refl)). rewrite M in Z. lia.
        -- destruct fl; [|contradiction]. destruct W as [W|W].
           ++ destruct Lt as [_ M]. { apply in_or_app. left. destruct st; auto; destruct todo; simpl in *; auto. }
              pose proof (Lf c true m todo kept st Ho eq_refl) as F. destruct c; try discriminate; simpl in Ps; pose proof (Ps m (or_introl eq_refl)); rewrite M in Z; lia.
           ++ destruct c; try contradiction. destruct (Ls _ _ W) as [_ M]. simpl in Ps.
              pose proof (Ps b (or_intror (or_introl eq_refl))). rewrite M in Z. lia.
      * unfold shown in Q. rewrite P in Q. exact Q.
    + destruct (mut_of_step _ _ _ _ Es Hk) as [M1 Hk1].
      assert (I' : inv s') by (eapply inv_step; eauto).
      assert (B' : m_born s' = m_born s).
      { unfold mu_step in Es. destruct (k <? m_nsig s); [|discriminate]. unfold sig_step in Es. rewrite P in Es.
        destruct (v_senders _ =? 0); injection Es as <-; reflexivity. }
      destruct (zero_exec s' l2 s2 (mut_of s k) I' E2) as (_ & _ & V); [rewrite B'; exact B|rewrite Mm; exact Z|].
      assert (M2 : mut_of s2 k = mut_of s' k).
      { refine (proj2 (exec_inv mu_step (fun x => k < m_nsig x /\ mut_of x k = mut_of s' k) _ l2 s' s2 _ E2)); auto.
        intros x m x' [X1 X2] Ex. destruct (mut_of_step _ _ _ _ Ex X1). split; [auto|congruence]. }
      unfold val_of. rewrite M2, M1, V, Mm. reflexivity.
Qed.

(** With no handle left and everything quiet, a poll or two end the signal, after the last value. *)
Theorem mu_ends (d : A) l s k : exec mu_step (mu_init d) l = Some s -> mu_quiet s -> sigs_idle s -> k < m_nsig s ->
  g_pc (m_sig s k) = GIdle -> all_gone s (mut_of s k) ->
  exists n1 n2 s', exec mu_step s ((XPoll k :: repeat (XSig k) n1) ++ (XPoll k :: repeat (XSig k) n2)) = Some s'
    /\ last_out (g_ans (m_sig s' k)) (Ready None) /\ latest_of (g_ans (m_sig s' k)) = Some (val_of s k).
Proof.
  intros E Q S Hk Hp G. pose proof (inv_exec d l s E) as I. destruct (quiet_free s I Q S) as [Fm Fx].
  destruct (poll_alone s k Hk Hp (proj1 (Fm _)) (Fx k)) as (n & s1 & E1 & P1 & P2 & P3 & P4 & P5 & P6 & P7 & P8 & P9 & P10 & P11 & P12 & P13).
  assert (Er : exec mu_step (mu_init d) (l ++ XPoll k :: repeat (XSig k) n) = Some s1) by (rewrite exec_app, E; exact E1).
  pose proof (inv_exec d _ s1 Er) as I1.
  assert (Q1 : mu_quiet s1) by (intros o Ho; rewrite P8 in Ho; auto).
  assert (S1 : sigs_idle s1).
  { intros k' Hk'. destruct (Nat.eq_dec k' k) as [->|N]; auto. rewrite P13 by auto. apply S. rewrite P10 in Hk'. exact Hk'. }
  destruct (quiet_free s1 I1 Q1 S1) as [Fm1 Fx1].
  assert (V : val_of s1 k = val_of s k) by (unfold val_of, mut_of; rewrite P6; apply P12).
  destruct (poll_alone s1 k ltac:(rewrite P10; exact Hk) P1 (proj1 (Fm1 _)) (Fx1 k)) as (n2 & s2 & E2 & R1 & R2 & _).
  exists n, n2, s2. split; [rewrite exec_app, E1; exact E2|].
  assert (Z : v_senders (m_mut s1 (mut_of s1 k)) = 0).
  { apply gone_senders; auto. apply (i_hd s1 I1). unfold mut_of. rewrite P6. intros h. rewrite P9. apply G. }
  unfold next_answer in R2. rewrite P4, Z in R2. simpl in R2. split.
  - exists (g_ans (m_sig s1 k)). exact R2.
  - rewrite R2, latest_of_end, <- V. apply (mu_current d _ s1 k Er Q1); auto. rewrite P10. exact Hk.
Qed.
End Mu.
