(** What Mutable.v guarantees: C45, C46, C47. *)
From Verif Require Import Base Spec BaseFacts Conc Mutable MutableFacts MutableFacts2 MutableFacts3 MutableFacts4 MutableFacts5 MutableFacts6.

(** No call is in progress; no signal is being created or polled; no handle of Mutable [m] is left. *)
Definition mu_quiet {A} (s : mu_st A) : Prop := forall o, In o (m_ops s) -> o_done o = true.
Definition sigs_idle {A} (s : mu_st A) : Prop :=
  forall k, k < m_nsig s -> g_pc (m_sig s k) = GIdle \/ g_pc (m_sig s k) = GGone.
Definition all_gone {A} (s : mu_st A) (m : nat) : Prop := forall h, ~ In (h, m) (m_live s).
(** The Mutable of signal [k], and its value. *)
Definition mut_of {A} (s : mu_st A) (k : nat) : nat := g_mut (m_sig s k).
Definition val_of {A} (s : mu_st A) (k : nat) : A := v_val (m_mut s (mut_of s k)).
(** A call is at the waker of [k], to wake it. *)
Definition notifying {A} (s : mu_st A) (k : nat) : Prop := exists i o c fl m t kept st,
  nth_error (m_ops s) i = Some o /\ o_pc o = QNotify c fl m (k :: t) kept st.

Section Mu.
Context {A : Type}.
Implicit Types (s : mu_st A).

Lemma quiet_pc s i o : mu_quiet s -> nth_error (m_ops s) i = Some o -> o_pc o = QRet.
Proof.
  intros Q H. specialize (Q o (nth_error_In _ _ H)). unfold o_done in Q. destruct (o_pc o); try discriminate. reflexivity.
Qed.

Lemma quiet_no_mark s k : mu_quiet s -> ~ will_mark s k.
Proof. intros Q (i & o & Ho & W). rewrite (quiet_pc s i o Q Ho) in W. exact W. Qed.

Lemma quiet_no_notify s k : mu_quiet s -> ~ notifying s k.
Proof. intros Q (i & o & c & fl & m & t & kept & st & Ho & W). rewrite (quiet_pc s i o Q Ho) in W. discriminate. Qed.

Theorem mu_current (d : A) l s k : exec mu_step (mu_init d) l = Some s -> mu_quiet s -> k < m_nsig s ->
  g_pc (m_sig s k) = GIdle -> g_changed (m_sig s k) = false -> latest_of (g_ans (m_sig s k)) = Some (val_of s k).
Proof.
  intros E Q Hk Hp Hc. pose proof (inv_exec d l s E) as I.
  destruct (vl_val s (i_vl s I) k Hk) as [X|[X|[X|[X|X]]]].
  - unfold g_created. rewrite Hp. exact Logic.I.
  - congruence.
  - congruence.
  - congruence.
  - destruct (quiet_no_mark s k Q X).
  - unfold shown in X. rewrite Hp in X. exact X.
Qed.

(** With every call over and every signal at rest, all locks are free. *)
Lemma quiet_free s : inv s -> mu_quiet s -> sigs_idle s ->
  (forall m, v_w (m_mut s m) = None /\ v_r (m_mut s m) = []) /\ (forall k, g_mutex (m_sig s k) = None).
Proof.
  intros I Q S. split; [intros m; split|intros k].
  - destruct (v_w (m_mut s m)) as [[i|k]|] eqn:E; auto; exfalso.
    + destruct (rk_w s (i_rk s I) _ _ E) as (o & Ho & W). rewrite (quiet_pc s i o Q Ho) in W. exact W.
    + destruct (rk_gw s (i_rk s I) _ _ E) as (Hk & _ & W). destruct (S k Hk); congruence.
  - destruct (v_r (m_mut s m)) as [|[i|k] t] eqn:E; auto; exfalso.
    + destruct (rk_r s (i_rk s I) m i) as (o & v & Ho & W); [rewrite E; left; reflexivity|].
      rewrite (quiet_pc s i o Q Ho) in W. discriminate.
    + destruct (rk_gr s (i_rk s I) m k) as (Hk & _ & W); [rewrite E; left; reflexivity|].
      destruct (S k Hk) as [X|X]; rewrite X in W; exact W.
  - destruct (g_mutex (m_sig s k)) as [i|] eqn:E; auto; exfalso.
    destruct (rk_mx s (i_rk s I) _ _ E) as (o & Ho & W). rewrite (quiet_pc s i o Q Ho) in W. discriminate.
Qed.

(** A poll without anything in between. *)
Definition next_answer s (k : nat) : poll (option A) :=
  if g_changed (m_sig s k) then Ready (Some (val_of s k))
  else if v_senders (m_mut s (mut_of s k)) =? 0 then Ready None else Pending.

Definition polled s s' (k : nat) (r : poll (option A)) : Prop :=
  g_pc (m_sig s' k) = GIdle /\ g_ans (m_sig s' k) = g_ans (m_sig s k) ++ [r] /\ g_polls (m_sig s' k) = S (g_polls (m_sig s k))
  /\ g_changed (m_sig s' k) = false /\ g_raced (m_sig s' k) = false /\ g_mut (m_sig s' k) = g_mut (m_sig s k)
  /\ g_waiting (m_sig s' k) = match r with Pending => true | _ => false end
  /\ m_ops s' = m_ops s /\ m_live s' = m_live s /\ m_nsig s' = m_nsig s /\ m_woken s' = m_woken s
  /\ (forall m, v_val (m_mut s' m) = v_val (m_mut s m) /\ v_senders (m_mut s' m) = v_senders (m_mut s m))
  /\ (forall k', k' <> k -> m_sig s' k' = m_sig s k').

(** What a step of the poll leaves alone. *)
Definition frz s s' (k : nat) : Prop :=
  m_ops s' = m_ops s /\ m_live s' = m_live s /\ m_nsig s' = m_nsig s /\ m_woken s' = m_woken s
  /\ (forall m, v_val (m_mut s' m) = v_val (m_mut s m) /\ v_senders (m_mut s' m) = v_senders (m_mut s m)
        /\ v_w (m_mut s' m) = v_w (m_mut s m))
  /\ (forall k', k' <> k -> m_sig s' k' = m_sig s k')
  /\ g_mut (m_sig s' k) = g_mut (m_sig s k) /\ g_polls (m_sig s' k) = g_polls (m_sig s k)
  /\ g_raced (m_sig s' k) = g_raced (m_sig s k) /\ g_mutex (m_sig s' k) = g_mutex (m_sig s k).

Ltac sig1 := unfold sig_step, frz; fu; repeat split; intros; cbn -[fupd]; rewrite ?fupd_same, ?fupd_other by assumption; frame; auto.

Lemma gs_swap s k : k < m_nsig s -> g_pc (m_sig s k) = GSwap -> exists s', mu_step s (XSig k) = Some s' /\ frz s s' k
  /\ g_pc (m_sig s' k) = (if g_changed (m_sig s k) then GRAcq else GLoad) /\ g_changed (m_sig s' k) = false
  /\ g_ans (m_sig s' k) = g_ans (m_sig s k) /\ g_waiting (m_sig s' k) = g_waiting (m_sig s k).
Proof.
  intros Hk Hp. apply Nat.ltb_lt in Hk. eexists. split; [unfold mu_step, sig_step; rewrite Hk, Hp; reflexivity|]. sig1.
Qed.

Lemma gs_racq s k : k < m_nsig s -> g_pc (m_sig s k) = GRAcq -> v_w (m_mut s (mut_of s k)) = None ->
  exists s', mu_step s (XSig k) = Some s' /\ frz s s' k
  /\ g_pc (m_sig s' k) = GRead /\ g_changed (m_sig s' k) = g_changed (m_sig s k)
  /\ g_ans (m_sig s' k) = g_ans (m_sig s k) /\ g_waiting (m_sig s' k) = g_waiting (m_sig s k).
Proof.
  intros Hk Hp Hw. apply Nat.ltb_lt in Hk. eexists. split.
  { unfold mu_step, sig_step, acq_r, r_free. rewrite Hk, Hp. unfold mut_of in Hw. rewrite Hw. reflexivity. }
  sig1.
Qed.

Lemma gs_read s k : k < m_nsig s -> g_pc (m_sig s k) = GRead -> exists s', mu_step s (XSig k) = Some s' /\ frz s s' k
  /\ g_pc (m_sig s' k) = GRRel (val_of s k) /\ g_changed (m_sig s' k) = g_changed (m_sig s k)
  /\ g_ans (m_sig s' k) = g_ans (m_sig s k) /\ g_waiting (m_sig s' k) = g_waiting (m_sig s k).
Proof.
  intros Hk Hp. apply Nat.ltb_lt in Hk. eexists. split; [unfold mu_step, sig_step; rewrite Hk, Hp; reflexivity|]. sig1.
Qed.

Lemma gs_rrel s k v : k < m_nsig s -> g_pc (m_sig s k) = GRRel v -> exists s', mu_step s (XSig k) = Some s' /\ frz s s' k
  /\ g_pc (m_sig s' k) = GIdle /\ g_changed (m_sig s' k) = g_changed (m_sig s k)
  /\ g_ans (m_sig s' k) = g_ans (m_sig s k) ++ [Ready (Some v)] /\ g_waiting (m_sig s' k) = false.
Proof.
  intros Hk Hp. apply Nat.ltb_lt in Hk. eexists. split; [unfold mu_step, sig_step; rewrite Hk, Hp; reflexivity|]. sig1.
Qed.

Lemma gs_load s k : k < m_nsig s -> g_pc (m_sig s k) = GLoad -> exists s', mu_step s (XSig k) = Some s' /\ frz s s' k
  /\ g_changed (m_sig s' k) = g_changed (m_sig s k)
  /\ if v_senders (m_mut s (mut_of s k)) =? 0
     then g_pc (m_sig s' k) = GIdle /\ g_ans (m_sig s' k) = g_ans (m_sig s k) ++ [Ready None] /\ g_waiting (m_sig s' k) = false
     else g_pc (m_sig s' k) = GSet /\ g_ans (m_sig s' k) = g_ans (m_sig s k) /\ g_waiting (m_sig s' k) = g_waiting (m_sig s k).
Proof.
  intros Hk Hp. apply Nat.ltb_lt in Hk. unfold mu_step, sig_step, mut_of. rewrite Hk, Hp.
  destruct (v_senders (m_mut s (g_mut (m_sig s k))) =? 0); (eexists; split; [reflexivity|sig1]).
Qed.

Lemma gs_set s k : k < m_nsig s -> g_pc (m_sig s k) = GSet -> g_mutex (m_sig s k) = None ->
  exists s', mu_step s (XSig k) = Some s' /\ frz s s' k
  /\ g_pc (m_sig s' k) = GIdle /\ g_changed (m_sig s' k) = g_changed (m_sig s k)
  /\ g_ans (m_sig s' k) = g_ans (m_sig s k) ++ [Pending] /\ g_waiting (m_sig s' k) = true.
Proof.
  intros Hk Hp Hx. apply Nat.ltb_lt in Hk. eexists. split; [unfold mu_step, sig_step; rewrite Hk, Hp, Hx; reflexivity|]. sig1.
Qed.

Lemma frz_trans s s1 s2 k : frz s s1 k -> frz s1 s2 k -> frz s s2 k.
Proof.
  unfold frz. intros (A1 & A2 & A3 & A4 & A5 & A6 & A7 & A8 & A9 & A10) (B1 & B2 & B3 & B4 & B5 & B6 & B7 & B8 & B9 & B10).
  repeat split; try congruence.
  - destruct (A5 m), (B5 m). congruence.
  - destruct (A5 m) as (_ & ? & ?), (B5 m) as (_ & ? & ?). congruence.
  - destruct (A5 m) as (_ & ? & ?), (B5 m) as (_ & ? & ?). congruence.
  - intros k' N. rewrite B6, A6; auto.
Qed.
Lemma frz_mut s s' k : frz s s' k -> mut_of s' k = mut_of s k /\ val_of s' k = val_of s k
  /\ v_senders (m_mut s' (mut_of s k)) = v_senders (m_mut s (mut_of s k)) /\ v_w (m_mut s' (mut_of s k)) = v_w (m_mut s (mut_of s k))
  /\ m_nsig s' = m_nsig s /\ g_mutex (m_sig s' k) = g_mutex (m_sig s k).
Proof.
  unfold frz, mut_of, val_of, mut_of. intros (A1 & A2 & A3 & A4 & A5 & A6 & A7 & A8 & A9 & A10). rewrite A7.
  destruct (A5 (g_mut (m_sig s k))) as (? & ? & ?). auto 7.
Qed.

Lemma poll_alone s k : k < m_nsig s -> g_pc (m_sig s k) = GIdle -> v_w (m_mut s (mut_of s k)) = None ->
  g_mutex (m_sig s k) = None ->
  exists n s', exec mu_step s (XPoll k :: repeat (XSig k) n) = Some s' /\ polled s s' k (next_answer s k).
Proof.
  intros Hk Hp Hw Hx. unfold next_answer.
  assert (Hk' : (k <? m_nsig s) = true) by (apply Nat.ltb_lt; exact Hk).
  set (s0 := set_sig s k (g_poll (m_sig s k))).
  assert (E0 : mu_step s (XPoll k) = Some s0) by (unfold mu_step; rewrite Hk', Hp; reflexivity).
  assert (F0 : g_mut (m_sig s0 k) = g_mut (m_sig s k) /\ g_changed (m_sig s0 k) = g_changed (m_sig s k)
    /\ g_mutex (m_sig s0 k) = g_mutex (m_sig s k) /\ g_pc (m_sig s0 k) = GSwap /\ g_ans (m_sig s0 k) = g_ans (m_sig s k)
    /\ g_raced (m_sig s0 k) = false /\ g_polls (m_sig s0 k) = S (g_polls (m_sig s k)) /\ g_waiting (m_sig s0 k) = false).
  { unfold s0. simpl. rewrite fupd_same. simpl. auto 10. }
  assert (G0 : forall k', k' <> k -> m_sig s0 k' = m_sig s k') by (intros; unfold s0; simpl; apply fupd_other; auto).
  assert (M0 : m_mut s0 = m_mut s /\ m_nsig s0 = m_nsig s /\ m_ops s0 = m_ops s /\ m_live s0 = m_live s /\ m_woken s0 = m_woken s)
    by (repeat split).
  clearbody s0. destruct F0 as (F1 & F2 & F3 & F4 & F5 & F6 & F7 & F8), M0 as (M1 & M2 & M3 & M4 & M5).
  assert (FV : val_of s0 k = val_of s k) by (unfold val_of, mut_of; congruence).
  assert (FM : mut_of s0 k = mut_of s k) by (unfold mut_of; congruence).
  destruct (gs_swap s0 k) as (s1 & E1 & Z1 & P1 & C1 & A1 & W1); [congruence|exact F4|].
  destruct (frz_mut _ _ _ Z1) as (Q1 & Q2 & Q3 & Q4 & Q5 & Q6).
  assert (Fin : forall n s' r, exec mu_step s1 (repeat (XSig k) n) = Some s' -> frz s0 s' k -> g_pc (m_sig s' k) = GIdle ->
    g_changed (m_sig s' k) = false -> g_ans (m_sig s' k) = g_ans (m_sig s k) ++ [r] ->
    g_waiting (m_sig s' k) = match r with Pending => true | _ => false end ->
    exists n s', exec mu_step s (XPoll k :: repeat (XSig k) n) = Some s' /\ polled s s' k r).
  { intros n s' r E Z X1 X2 X3 X4. exists (S n), s'. split; [cbn [repeat exec]; rewrite E0, E1; exact E|].
    destruct Z as (D1 & D2 & D3 & D4 & D5 & D6 & D7 & D8 & D9 & D10). unfold polled.
    split; [exact X1|]. split; [exact X3|]. split; [congruence|]. split; [exact X2|]. split; [congruence|]. split; [congruence|].
    split; [exact X4|]. split; [congruence|]. split; [congruence|]. split; [congruence|]. split; [congruence|].
    split; [intros m; destruct (D5 m) as (V1 & V2 & _); rewrite V1, V2, M1; auto|].
    intros k' N. rewrite D6, G0; auto. }
  rewrite F2 in P1. destruct (g_changed (m_sig s k)) eqn:Hc.
  - destruct (gs_racq s1 k) as (s2 & E2 & Z2 & P2 & C2 & A2 & W2); [congruence|exact P1|rewrite Q1, Q4, FM, M1; exact Hw|].
    pose proof (frz_trans _ _ _ _ Z1 Z2) as Z2'. destruct (frz_mut _ _ _ Z2') as (R1 & R2 & _ & _ & R5 & _).
    destruct (gs_read s2 k) as (s3 & E3 & Z3 & P3 & C3 & A3 & W3); [congruence|exact P2|].
    pose proof (frz_trans _ _ _ _ Z2' Z3) as Z3'. destruct (frz_mut _ _ _ Z3') as (_ & _ & _ & _ & T5 & _).
    destruct (gs_rrel s3 k _ ltac:(congruence) P3) as (s4 & E4 & Z4 & P4 & C4 & A4 & W4).
    pose proof (frz_trans _ _ _ _ Z3' Z4) as Z4'.
    apply (Fin 3 s4); auto; try congruence.
    cbn [repeat exec]. rewrite E2, E3, E4. reflexivity.
  - destruct (gs_load s1 k) as (s2 & E2 & Z2 & C2 & P2); [congruence|exact P1|].
    rewrite Q1, Q3, FM, M1 in P2. pose proof (frz_trans _ _ _ _ Z1 Z2) as Z2'. destruct (frz_mut _ _ _ Z2') as (_ & _ & _ & _ & R5 & R6).
    destruct (v_senders (m_mut s (mut_of s k)) =? 0) eqn:Hz; destruct P2 as (P2 & A2 & W2).
    + apply (Fin 1 s2); auto; try congruence. cbn [repeat exec]. rewrite E2. reflexivity.
    + destruct (gs_set s2 k) as (s3 & E3 & Z3 & P3 & C3 & A3 & W3); [congruence|exact P2|congruence|].
      pose proof (frz_trans _ _ _ _ Z2' Z3) as Z3'.
      apply (Fin 2 s3); auto; try congruence. cbn [repeat exec]. rewrite E2, E3. reflexivity.
Qed.

(** In a quiet state one poll brings the last output up to date. *)
Theorem mu_next_poll (d : A) l s k : exec mu_step (mu_init d) l = Some s -> mu_quiet s -> sigs_idle s -> k < m_nsig s ->
  g_pc (m_sig s k) = GIdle ->
  exists n s', exec mu_step s (XPoll k :: repeat (XSig k) n) = Some s' /\ g_pc (m_sig s' k) = GIdle /\
    val_of s' k = val_of s k /\ m_ops s' = m_ops s /\ latest_of (g_ans (m_sig s' k)) = Some (val_of s k).
Proof.
  intros E Q S Hk Hp. pose proof (inv_exec d l s E) as I. destruct (quiet_free s I Q S) as [Fm Fx].
  destruct (poll_alone s k Hk Hp (proj1 (Fm _)) (Fx k)) as (n & s' & E' & P1 & P2 & P3 & P4 & P5 & P6 & P7 & P8 & P9 & P10 & P11 & P12 & P13).
  assert (V : val_of s' k = val_of s k) by (unfold val_of, mut_of; rewrite P6; apply P12).
  exists n, s'. repeat split; auto. rewrite <- V.
  apply (mu_current d (l ++ XPoll k :: repeat (XSig k) n)); auto.
  - rewrite exec_app, E. exact E'.
  - intros o Ho. rewrite P8 in Ho. auto.
  - rewrite P10. exact Hk.
Qed.

(** The Mutable of an existing signal stays the same. *)
Lemma mut_of_step s mv s' k0 : mu_step s mv = Some s' -> k0 < m_nsig s -> mut_of s' k0 = mut_of s k0 /\ k0 < m_nsig s'.
Proof.
  intros E Hlt. unfold mut_of. mu_cases E; fu; frame; auto. rewrite fupd_other; auto. lia.
Qed.

(** What a step does to the answers and the value read by a poll. *)
Lemma ans_step s mv s' k0 : mu_step s mv = Some s' -> k0 < m_nsig s ->
  (g_ans (m_sig s' k0) = g_ans (m_sig s k0) /\
     (forall v, g_pc (m_sig s' k0) = GRRel v -> g_pc (m_sig s k0) = GRRel v \/ v = val_of s k0))
  \/ exists r, g_ans (m_sig s' k0) = g_ans (m_sig s k0) ++ [r]
       /\ (forall v, r = Ready (Some v) -> g_pc (m_sig s k0) = GRRel v) /\ mv = XSig k0 /\ g_pc (m_sig s' k0) = GIdle
       /\ (r = Ready None -> g_pc (m_sig s k0) = GLoad /\ v_senders (m_mut s (mut_of s k0)) = 0 /\ m_mut s' = m_mut s).
Proof.
  intros E Hlt. unfold val_of, mut_of. mu_cases E; fu; frame; auto.
  all: try solve [left; split; [auto|]; intros v0; unfold fupd; destruct (Nat.eqb_spec k0 k); subst; simpl; auto; discriminate].
  - rewrite fupd_other by lia. auto.
  - destruct (Nat.eq_dec k0 k) as [->|N]; [rewrite fupd_same|rewrite fupd_other by auto; auto].
    left. simpl. split; auto. intros v0 [= <-]. auto.
  - destruct (Nat.eq_dec k0 k) as [->|N]; [rewrite fupd_same|rewrite fupd_other by auto; auto].
    right. exists (Ready (Some v)). simpl. repeat split; auto; try discriminate. intros v0 [= <-]. auto.
  - destruct (Nat.eq_dec k0 k) as [->|N]; [rewrite fupd_same|rewrite fupd_other by auto; auto].
    right. exists (Ready None). simpl. repeat split; auto; discriminate.
  - destruct (Nat.eq_dec k0 k) as [->|N]; [rewrite fupd_same|rewrite fupd_other by auto; auto].
    right. exists Pending. simpl. repeat split; auto; discriminate.
Qed.

(** Each output was the value at some moment between the start of that poll and its end. *)
Theorem mu_within_poll s k l s' v t : k < m_nsig s -> g_pc (m_sig s k) = GIdle -> exec mu_step s (XPoll k :: l) = Some s' ->
  g_ans (m_sig s' k) = g_ans (m_sig s k) ++ Ready (Some v) :: t ->
  exists l1 l2 s1, l = l1 ++ l2 /\ exec mu_step s (XPoll k :: l1) = Some s1 /\ val_of s1 k = v
    /\ g_ans (m_sig s1 k) = g_ans (m_sig s k).
Proof.
  intros Hk Hp E Ha.
  assert (X : k < m_nsig s' /\
    ((g_ans (m_sig s' k) = g_ans (m_sig s k) /\ forall w, g_pc (m_sig s' k) = GRRel w ->
       exists l1 l2 s1, l = l1 ++ l2 /\ exec mu_step s (XPoll k :: l1) = Some s1 /\ val_of s1 k = w /\ g_ans (m_sig s1 k) = g_ans (m_sig s k))
    \/ exists r u, g_ans (m_sig s' k) = g_ans (m_sig s k) ++ r :: u /\ forall w, r = Ready (Some w) ->
       exists l1 l2 s1, l = l1 ++ l2 /\ exec mu_step s (XPoll k :: l1) = Some s1 /\ val_of s1 k = w /\ g_ans (m_sig s1 k) = g_ans (m_sig s k))).
  { clear Ha t v. revert s' E. induction l as [|mv l IH] using rev_ind; intros s' E.
    - cbn [exec] in E. destruct (mu_step s (XPoll k)) as [s0|] eqn:E0; [|discriminate]. injection E as <-.
      destruct (mut_of_step _ _ _ _ E0 Hk) as [_ Hk']. split; auto. left.
      destruct (ans_step _ _ _ _ E0 Hk) as [[X Y]|(r & _ & _ & X & _)]; [|discriminate]. split; auto.
      intros w Hw. unfold mu_step in E0. apply Nat.ltb_lt in Hk. rewrite Hk, Hp in E0. injection E0 as <-.
      simpl in Hw. rewrite fupd_same in Hw. discriminate.
    - change (exec mu_step s ((XPoll k :: l) ++ [mv]) = Some s') in E. rewrite exec_app in E.
      destruct (exec mu_step s (XPoll k :: l)) as [s1|] eqn:E1; [|discriminate]. cbn [exec] in E.
      destruct (mu_step s1 mv) as [s2|] eqn:E2; [|discriminate]. injection E as <-.
      destruct (IH s1 eq_refl) as [Hk1 IH']. destruct (mut_of_step _ _ _ _ E2 Hk1) as [_ Hk2]. split; auto.
      assert (Ext : forall w, (exists l1 l2 s1, l = l1 ++ l2 /\ exec mu_step s (XPoll k :: l1) = Some s1 /\ val_of s1 k = w /\ g_ans (m_sig s1 k) = g_ans (m_sig s k)) ->
        exists l1 l2 s1, l ++ [mv] = l1 ++ l2 /\ exec mu_step s (XPoll k :: l1) = Some s1 /\ val_of s1 k = w /\ g_ans (m_sig s1 k) = g_ans (m_sig s k)).
      { intros w (l1 & l2 & s3 & -> & X). exists l1, (l2 ++ [mv]), s3. split; [rewrite app_assoc; reflexivity|exact X]. }
      destruct (ans_step _ _ _ _ E2 Hk1) as [[X Y]|(r & X & Y & _)]; destruct IH' as [[Z W]|(r' & u & Z & W)].
      + left. split; [congruence|]. intros w Hw. destruct (Y w Hw) as [Q|Q]; [apply Ext; apply W; exact Q|].
        exists l, [mv], s1. auto.
      + right. exists r', u. split; [congruence|]. intros w Hw. apply Ext. apply W. exact Hw.
      + right. exists r, []. split; [congruence|]. intros w Hw. apply Ext. apply W. apply Y. exact Hw.
      + right. exists r', (u ++ [r]). split; [rewrite X, Z, <- app_assoc; reflexivity|]. intros w Hw. apply Ext. apply W. exact Hw. }
  destruct X as [_ [[X _]|(r & u & X & Y)]].
  - exfalso. rewrite X in Ha. rewrite <- (app_nil_r (g_ans (m_sig s k))) in Ha at 1. apply app_inv_head in Ha. discriminate.
  - rewrite X in Ha. apply app_inv_head in Ha. injection Ha as -> ->. apply Y. reflexivity.
Qed.
End Mu.
