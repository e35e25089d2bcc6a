(** The invariant of whole programs (Executor.v), and what follows from it. *)
From Verif Require Import Base Conc Executor ExecutorFacts.

Section Run.
Context {V : Type}.
Implicit Types (w : world V) (s : sig V) (ss : slots V) (o : wk) (p : pipe V).

(** ** Wake-ups *)
Definition roused w o : Prop :=
  match o with WTask t => t_woken (w_task w t) = true | WNote b => b_changed (w_bc w b) = true end.

Record woke (F : nat -> Prop) w w' : Prop := mkWoke {
  wo_mu : forall m, u_value (w_mu w' m) = u_value (w_mu w m) /\ u_senders (w_mu w' m) = u_senders (w_mu w m);
  wo_sigs : forall m i, In i (u_signals (w_mu w' m)) -> In i (u_signals (w_mu w m));
  wo_sigs' : forall m i, c_alive (w_cw w i) = true -> In i (u_signals (w_mu w m)) -> In i (u_signals (w_mu w' m));
  wo_nmu : w_nmu w' = w_nmu w; wo_ncw : w_ncw w' = w_ncw w; wo_nbc : w_nbc w' = w_nbc w; wo_nt : w_nt w' = w_nt w;
  wo_alive : forall j, c_alive (w_cw w' j) = c_alive (w_cw w j);
  wo_owner : forall j, c_owner (w_cw w' j) = c_owner (w_cw w j);
  wo_src : forall j, c_src (w_cw w' j) = c_src (w_cw w j);
  wo_flag : forall j, c_changed (w_cw w j) = true -> c_changed (w_cw w' j) = true;
  wo_flag' : forall j, c_changed (w_cw w' j) = true -> c_changed (w_cw w j) = true \/ F j;
  wo_waker : forall j, c_waker (w_cw w' j) = c_waker (w_cw w j) \/ c_waker (w_cw w' j) = None;
  wo_taken : forall j o, c_waker (w_cw w j) = Some o -> c_waker (w_cw w' j) = None -> roused w' o;
  wo_task : forall t, t_sig (w_task w' t) = t_sig (w_task w t) /\ t_pc (w_task w' t) = t_pc (w_task w t)
    /\ t_seen (w_task w' t) = t_seen (w_task w t) /\ t_pipe (w_task w' t) = t_pipe (w_task w t);
  wo_bc : forall b, b_signal (w_bc w' b) = b_signal (w_bc w b) /\ b_live (w_bc w' b) = b_live (w_bc w b)
    /\ b_value (w_bc w' b) = b_value (w_bc w b) /\ b_epoch (w_bc w' b) = b_epoch (w_bc w b);
  wo_roused : forall o, roused w o -> roused w' o;
  wo_list : forall b i, In i (b_wakers (w_bc w' b)) -> In i (b_wakers (w_bc w b));
  wo_list' : forall b i, c_alive (w_cw w i) = true -> In i (b_wakers (w_bc w b)) -> In i (b_wakers (w_bc w' b));
  wo_new : forall b, b_changed (w_bc w' b) = true -> b_changed (w_bc w b) = true \/
    forall i, In i (b_wakers (w_bc w b)) -> c_alive (w_cw w i) = true -> c_waker (w_cw w' i) = None }.

Lemma woke_refl (F : nat -> Prop) w : woke F w w.
Proof. constructor; auto. intros j o h1 h2. congruence. Qed.

Lemma woke_trans (F F1 F2 : nat -> Prop) w w1 w2 : woke F1 w w1 -> woke F2 w1 w2 -> (forall j, F1 j -> F j) -> (forall j, F2 j -> F j) -> woke F w w2.
Proof.
  intros e1 e2 h1 h2. destruct e1, e2. constructor; try congruence; auto.
  - intros m. destruct (wo_mu0 m), (wo_mu1 m). split; congruence.
  - intros m i ha hi. apply wo_sigs'1; [congruence|]. auto.
  - intros j h. destruct (wo_flag'1 j h); auto. destruct (wo_flag'0 j H); auto.
  - intros j. destruct (wo_waker1 j) as [->| ->]; auto.
  - intros j o a1 a2. destruct (wo_waker0 j) as [E|E]; [|eauto]. apply (wo_taken1 j); auto. congruence.
  - intros t. destruct (wo_task0 t) as (a1 & a2 & a3 & a4), (wo_task1 t) as (b1 & b2 & b3 & b4). repeat split; congruence.
  - intros b. destruct (wo_bc0 b) as (a1 & a2 & a3 & a4), (wo_bc1 b) as (b1 & b2 & b3 & b4). repeat split; congruence.
  - intros b i ha hi. apply wo_list'1; [congruence|]. auto.
  - intros b h. destruct (wo_new1 b h) as [h3|h3].
    + destruct (wo_new0 b h3) as [h4|h4]; [auto|right]. intros i hi ha. specialize (h4 i hi ha). destruct (wo_waker1 i); congruence.
    + right. intros i hi ha. apply h3; [auto|congruence].
Qed.

Definition woke_all (ch : bool) (l : list nat) w w' : Prop :=
  woke (fun j => ch = true /\ In j l) w w' /\
  forall i, In i l -> c_alive (w_cw w i) = true -> c_waker (w_cw w' i) = None /\ (ch = true -> c_changed (w_cw w' i) = true).

Lemma each_woke (f : nat -> world V -> option (world V)) ch : (forall i w w', f i w = Some w' -> woke_all ch [i] w w') ->
  forall l w w', each_alive f l w = Some w' -> woke_all ch l w w'.
Proof.
  intros hf. induction l as [|i l IH]; intros w w' H; simpl in H.
  { injection H as <-. split; [apply woke_refl|]. intros i []. }
  assert (exists w1, each_alive f l w1 = Some w' /\ woke (fun j => ch = true /\ In j [i]) w w1 /\
    (c_alive (w_cw w i) = true -> c_waker (w_cw w1 i) = None /\ (ch = true -> c_changed (w_cw w1 i) = true))) as (w1 & h1 & h2 & h3).
  { destruct (c_alive (w_cw w i)) eqn:Ea.
    - destruct (f i w) as [w1|] eqn:Ef; [|discriminate]. exists w1. split; [auto|]. destruct (hf _ _ _ Ef) as [a b]. split; [auto|]. intros _. apply b; simpl; auto.
    - exists w. split; [auto|]. split; [apply woke_refl|discriminate]. }
  destruct (IH _ _ h1) as [h4 h5].
  split. { eapply woke_trans; [exact h2|exact h4| |]; intros j [a b]; split; auto; simpl in *; tauto. }
  intros j [<-|hj] ha.
  - destruct (h3 ha) as [a b]. split; [destruct (wo_waker _ _ _ h4 i); congruence|]. intros hc. apply (wo_flag _ _ _ h4), b; auto.
  - apply h5; auto. rewrite (wo_alive _ _ _ h2). auto.
Qed.

Lemma wake_woke n : forall ch i w w', wake n ch i w = Some w' -> woke_all ch [i] w w'.
Proof.
  induction n as [|n IH]; intros ch i w w' H; [discriminate|]. cbn [wake] in H. cbv zeta in H.
  set (w1 := set_cw i _ w) in H.
  assert (hc1 : forall j, w_cw w1 j = if j =? i then arm_cw None (if ch then flag_cw true (w_cw w i) else w_cw w i) else w_cw w j) by reflexivity.
  assert (base : forall x : world V, (forall j, w_cw x j = w_cw w1 j) -> c_waker (w_cw x i) = None /\ (ch = true -> c_changed (w_cw x i) = true)).
  { intros x hx. rewrite hx, hc1, Nat.eqb_refl. split; [reflexivity|]. intros ->. reflexivity. }
  destruct (c_waker (w_cw w i)) as [[t|b]|] eqn:Ew.
  - injection H as <-. split.
    + constructor; simpl; auto; try (intros j; unfold fupd; destruct (Nat.eqb_spec j i) as [->|]; [destruct ch; simpl|]; auto; fail).
      * intros j o h. unfold fupd at 1. destruct (Nat.eqb_spec j i) as [->|n0]; [|congruence]. intros _. rewrite Ew in h. injection h as <-. simpl. rewrite fupd_same. reflexivity.
      * intros t0. unfold fupd. destruct (Nat.eqb_spec t0 t) as [->|]; auto.
      * intros [t0|b0]; simpl; auto. unfold fupd. destruct (Nat.eqb_spec t0 t) as [->|]; auto.
    + intros j [<-|[]] _. apply base. reflexivity.
  - set (w2 := set_bc b (flag_bc true (w_bc w1 b)) w1) in H.
    destruct (each_alive (wake n false) (b_wakers (w_bc w2 b)) w2) as [w3|] eqn:E3; [|discriminate]. injection H as <-.
    apply (each_woke _ false (IH false)) in E3 as [e3 e4].
    assert (hb2 : b_wakers (w_bc w2 b) = b_wakers (w_bc w b)) by (unfold w2; simpl; rewrite fupd_same; reflexivity).
    assert (hf3 : b_changed (w_bc w3 b) = true).
    { apply (wo_roused _ _ _ e3 (WNote b)). unfold w2. simpl. rewrite fupd_same. reflexivity. }
    assert (ha : forall j, c_alive (w_cw w2 j) = c_alive (w_cw w j)).
    { intros j. unfold w2. simpl. unfold fupd. destruct (Nat.eqb_spec j i) as [->|]; [destruct ch|]; reflexivity. }
    assert (same : forall b0, b_signal (w_bc w2 b0) = b_signal (w_bc w b0) /\ b_live (w_bc w2 b0) = b_live (w_bc w b0)
      /\ b_value (w_bc w2 b0) = b_value (w_bc w b0) /\ b_epoch (w_bc w2 b0) = b_epoch (w_bc w b0)).
    { intros b0. unfold w2. simpl. unfold fupd. destruct (Nat.eqb_spec b0 b) as [->|]; simpl; auto. }
    assert (sameL : forall b0, b_wakers (w_bc w2 b0) = b_wakers (w_bc w b0)).
    { intros b0. unfold w2. simpl. unfold fupd. destruct (Nat.eqb_spec b0 b) as [->|]; simpl; auto. }
    split.
    + constructor; simpl; try apply e3.
      * intros m i0 hal. apply (wo_sigs' _ _ _ e3). rewrite ha. exact hal.
      * intros j. rewrite (wo_alive _ _ _ e3). apply ha.
      * intros j. rewrite (wo_owner _ _ _ e3). unfold w2. simpl. unfold fupd. destruct (Nat.eqb_spec j i) as [->|]; [destruct ch|]; reflexivity.
      * intros j. rewrite (wo_src _ _ _ e3). unfold w2. simpl. unfold fupd. destruct (Nat.eqb_spec j i) as [->|]; [destruct ch|]; reflexivity.
      * intros j h. apply (wo_flag _ _ _ e3). unfold w2. simpl. unfold fupd. destruct (Nat.eqb_spec j i) as [->|]; [destruct ch|]; auto.
      * intros j h. destruct (wo_flag' _ _ _ e3 j h) as [h1|[h1 _]]; [|discriminate]. revert h1. unfold w2. simpl. unfold fupd. destruct (Nat.eqb_spec j i) as [->|]; [destruct ch|]; auto.
      * intros j. destruct (wo_waker _ _ _ e3 j) as [->| ->]; auto. unfold w2. simpl. unfold fupd. destruct (Nat.eqb_spec j i) as [->|]; [destruct ch|]; auto.
      * intros j o h h'. assert (roused w3 o) as hr.
        { destruct (Nat.eq_dec j i) as [->|n0]; [rewrite Ew in h; injection h as <-; exact hf3|].
          apply (wo_taken _ _ _ e3 j); auto. unfold w2. simpl. rewrite fupd_other; auto. }
        destruct o as [t0|b0]; simpl in *; auto. unfold fupd. destruct (Nat.eqb_spec b0 b) as [->|]; auto.
      * intros b0. destruct (wo_bc _ _ _ e3 b0) as (a1 & a2 & a3 & a4). destruct (same b0) as (c1 & c2 & c3 & c4).
        unfold fupd. destruct (Nat.eqb_spec b0 b) as [E|E]; [rewrite <- E; simpl|]; repeat split; congruence.
      * intros o h. assert (roused w3 o) as hr.
        { apply (wo_roused _ _ _ e3). destruct o as [t0|b0]; simpl in *; auto. unfold fupd. destruct (Nat.eqb_spec b0 b) as [->|]; auto. }
        destruct o as [t0|b0]; simpl in *; auto. unfold fupd. destruct (Nat.eqb_spec b0 b) as [->|]; auto.
      * intros b0 i0 h. rewrite <- sameL. apply (wo_list _ _ _ e3). revert h. unfold fupd. destruct (Nat.eqb_spec b0 b) as [E|E]; [|auto].
        simpl. rewrite filter_In, E. tauto.
      * intros b0 i0 hal hin. assert (In i0 (b_wakers (w_bc w3 b0))) as h.
        { apply (wo_list' _ _ _ e3); [rewrite ha; auto|]. rewrite sameL. auto. }
        unfold fupd. destruct (Nat.eqb_spec b0 b) as [->|]; auto. simpl. rewrite filter_In. split; auto. rewrite (wo_alive _ _ _ e3), ha. auto.
      * intros b0 h. destruct (Nat.eq_dec b0 b) as [->|n0].
        { right. intros i0 hi hal. rewrite <- hb2 in hi. apply e4; auto. rewrite ha. auto. }
        rewrite fupd_other in h by auto. destruct (wo_new _ _ _ e3 b0 h) as [h1|h1].
        { left. revert h1. unfold w2. simpl. rewrite fupd_other; auto. }
        right. intros i0 hi hal. apply h1; [|rewrite ha; auto]. unfold w2. simpl. rewrite fupd_other; auto.
    + intros j [<-|[]] _. simpl. assert (c_waker (w_cw w2 i) = None /\ (ch = true -> c_changed (w_cw w2 i) = true)) as [a b0] by (apply base; reflexivity).
      split; [destruct (wo_waker _ _ _ e3 i); congruence|]. intros hc. apply (wo_flag _ _ _ e3). auto.
  - injection H as <-. split.
    + constructor; simpl; auto; try (intros j; unfold fupd; destruct (Nat.eqb_spec j i) as [->|]; [destruct ch; simpl|]; auto; fail).
      intros j o h. unfold fupd. destruct (Nat.eqb_spec j i) as [->|n0]; congruence.
    + intros j [<-|[]] _. apply base. reflexivity.
Qed.

Lemma notify_woke m ch w w' : notify m ch w = Some w' -> woke_all ch (u_signals (w_mu w m)) w w'.
Proof.
  unfold notify. destruct (each_alive _ _ _) as [w1|] eqn:E; [|discriminate]. intros H. injection H as <-.
  apply (each_woke _ ch (wake_woke _ ch)) in E as [e1 e2]. split; [|exact e2].
  assert (hal : forall j, c_alive (w_cw w1 j) = c_alive (w_cw w j)) by apply e1.
  constructor; simpl; try apply e1.
  - intros m0. destruct (wo_mu _ _ _ e1 m0). unfold fupd. destruct (Nat.eqb_spec m0 m) as [->|]; simpl; auto.
  - intros m0 i h. apply (wo_sigs _ _ _ e1). revert h. unfold fupd. destruct (Nat.eqb_spec m0 m) as [->|]; simpl; auto. rewrite filter_In. tauto.
  - intros m0 i ha hi. pose proof (wo_sigs' _ _ _ e1 m0 i ha hi) as h. unfold fupd. destruct (Nat.eqb_spec m0 m) as [->|]; simpl; auto.
    rewrite filter_In, hal. auto.
Qed.

(** ** Everything that is not a poll *)

(** [M]: the Mutables that are written. *)
Record kick (M : nat -> Prop) w w' : Prop := mkKick {
  k_nmu : w_nmu w <= w_nmu w'; k_ncw : w_ncw w <= w_ncw w'; k_nbc : w_nbc w <= w_nbc w'; k_nt : w_nt w <= w_nt w';
  k_M : forall m, M m -> u_senders (w_mu w m) <> 0;
  k_senders : forall m, m < w_nmu w -> u_senders (w_mu w m) = 0 -> u_senders (w_mu w' m) = 0;
  k_value : forall m, m < w_nmu w -> M m \/ u_value (w_mu w' m) = u_value (w_mu w m);
  k_list : forall m i, m < w_nmu w -> c_alive (w_cw w i) = true -> u_senders (w_mu w' m) <> 0 -> In i (u_signals (w_mu w m)) -> In i (u_signals (w_mu w' m));
  k_alive : forall j, j < w_ncw w -> c_alive (w_cw w' j) = c_alive (w_cw w j);
  k_owner : forall j, j < w_ncw w -> c_owner (w_cw w' j) = c_owner (w_cw w j);
  k_src : forall j, j < w_ncw w -> c_src (w_cw w' j) = c_src (w_cw w j);
  k_flag : forall j, j < w_ncw w -> c_changed (w_cw w j) = true -> c_changed (w_cw w' j) = true;
  k_flag' : forall j, j < w_ncw w -> c_changed (w_cw w' j) = true -> c_changed (w_cw w j) = true \/ exists m, c_src (w_cw w j) = FMut m /\ M m;
  k_set : forall m i, M m -> In i (u_signals (w_mu w m)) -> c_alive (w_cw w i) = true -> c_changed (w_cw w' i) = true /\ c_waker (w_cw w' i) = None;
  k_end : forall m i, m < w_nmu w -> u_senders (w_mu w m) <> 0 -> u_senders (w_mu w' m) = 0 -> In i (u_signals (w_mu w m)) -> c_alive (w_cw w i) = true ->
    c_waker (w_cw w' i) = None;
  k_waker : forall j, j < w_ncw w -> c_waker (w_cw w' j) = c_waker (w_cw w j) \/ c_waker (w_cw w' j) = None;
  k_taken : forall j o, j < w_ncw w -> c_waker (w_cw w j) = Some o -> c_waker (w_cw w' j) = None -> roused w' o;
  k_task : forall t, t < w_nt w -> t_sig (w_task w' t) = t_sig (w_task w t) /\ t_pc (w_task w' t) = t_pc (w_task w t)
    /\ t_seen (w_task w' t) = t_seen (w_task w t) /\ t_pipe (w_task w' t) = t_pipe (w_task w t);
  k_woken : forall t, t < w_nt w -> t_woken (w_task w t) = true -> t_woken (w_task w' t) = true;
  k_bc : forall b, b < w_nbc w -> b_signal (w_bc w' b) = b_signal (w_bc w b) /\ b_live (w_bc w' b) = b_live (w_bc w b)
    /\ b_value (w_bc w' b) = b_value (w_bc w b) /\ b_epoch (w_bc w' b) = b_epoch (w_bc w b);
  k_changed : forall b, b < w_nbc w -> b_changed (w_bc w b) = true -> b_changed (w_bc w' b) = true;
  k_blist : forall b i, b < w_nbc w -> c_alive (w_cw w i) = true -> In i (b_wakers (w_bc w b)) -> In i (b_wakers (w_bc w' b));
  k_new : forall b, b < w_nbc w -> b_changed (w_bc w' b) = true -> b_changed (w_bc w b) = true \/
    forall i, In i (b_wakers (w_bc w b)) -> c_alive (w_cw w i) = true -> c_waker (w_cw w' i) = None }.

Section Kick.
Variables (M : nat -> Prop) (w w' : world V).
Hypothesis (k : kick M w w').

Lemma over_kick o L L' : L <= w_nbc w -> L <= L' ->
  (forall s, over w o L s -> over w' o L' s) /\ (forall ss, overs w o L ss -> overs w' o L' ss).
Proof using k.
  intros h1 h2. pose proof (k_ncw _ _ _ k). pose proof (k_nmu _ _ _ k). apply sig_slots_ind; simpl; intros; auto.
  - destruct H1 as (a1 & a2 & a3 & a4 & a5 & a6). split; [lia|]. rewrite (k_owner _ _ _ k), (k_src _ _ _ k), (k_senders _ _ _ k m) by auto.
    split; [auto|]. split; [lia|]. split; [|auto].
    destruct (c_changed (w_cw w' i)) eqn:E; [|auto]. destruct (k_flag' _ _ _ k i a1 E) as [h|(m' & h & hm)]; [congruence|].
    rewrite a6 in h. injection h as <-. destruct (k_M _ _ _ k m hm a5).
  - destruct H2 as [b1 b2]. exact (conj b1 (H1 b2)).
  - destruct H1 as (a1 & a2 & a3 & a4 & a5). rewrite (k_owner _ _ _ k) by auto. destruct (k_bc _ _ _ k b) as (b1 & b2 & b3 & b4); [lia|].
    repeat split; try lia; congruence.
  - destruct H3 as (a1 & a2 & a3 & a4). split; [exact a1|]. split; [exact (H1 a2)|]. split; [exact (H2 a3)|].
    intros x. eapply closed_mono1; [| |apply a4]; auto.
  - destruct H3 as (a1 & a2 & a3). exact (conj a1 (conj (H1 a2) (H2 a3))).
Qed.

Lemma good_kick o L L' : L <= w_nbc w -> L <= L' ->
  (forall s, good w o L s -> good w' o L' s) /\ (forall ss, goods w o L ss -> goods w' o L' ss).
Proof using k.
  intros h1 h2. pose proof (k_ncw _ _ _ k). pose proof (k_nmu _ _ _ k). apply sig_slots_ind; simpl; intros; auto.
  - destruct H1 as (a1 & a2 & a3 & a4 & a5 & a6). split; [lia|]. rewrite (k_owner _ _ _ k), (k_src _ _ _ k), (k_alive _ _ _ k) by auto.
    split; [auto|]. split; [lia|]. split; [auto|]. split; [|auto].
    intros h. apply (k_list _ _ _ k); auto. apply a5. intros e. apply h, (k_senders _ _ _ k); auto.
  - destruct H2 as [b1 b2]. exact (conj b1 (H1 b2)).
  - destruct H1 as (a1 & a2 & a3 & a4 & a5). rewrite (k_owner _ _ _ k), (k_alive _ _ _ k) by auto.
    repeat split; auto; try lia. apply (k_blist _ _ _ k); auto. lia.
  - destruct H3 as (a1 & a2 & a3). split; [|split; [exact (H2 a2)|]]; [|intros a; eapply closed_mono1; [| |apply a3]; lia].
    destruct live; auto. eapply (proj1 (over_kick o L L' h1 h2)). exact a1.
  - destruct H3 as (a1 & a2). split; [|exact (H2 a2)]. destruct live; auto. eapply (proj1 (over_kick o L L' h1 h2)). exact a1.
Qed.

Lemma cur_kick o L : L <= w_nbc w ->
  (forall s out, good w o L s \/ over w o L s -> cur w s out -> cur w' s out) /\ (forall ss, goods w o L ss \/ overs w o L ss -> curs w ss -> curs w' ss).
Proof using k.
  intros h1. apply sig_slots_ind; simpl; intros; auto.
  - assert (hi : i < w_ncw w) by tauto. assert (hm : m < w_nmu w) by tauto.
    assert (hf : c_changed (w_cw w i) = false). { destruct (c_changed (w_cw w i)) eqn:E; auto. rewrite (k_flag _ _ _ k) in H1; auto. }
    destruct (k_value _ _ _ k m hm) as [hM| ->]; [|auto]. pose proof (k_M _ _ _ k m hM) as hs.
    destruct H as [(a1 & a2 & a3 & a4 & a5 & a6)|H]; [|tauto].
    destruct (k_set _ _ _ k m i hM) as [b1 b2]; auto. congruence.
  - destruct H1 as (a & a1 & a2). exists a. auto.
  - destruct H1 as (a & a1 & a2). exists a. auto.
  - destruct H1 as (a & a1 & a2). exists a. auto.
  - destruct H1 as [b1 b2]. split; [apply H; [tauto|exact b1]|exact b2].
  - destruct (k_bc _ _ _ k b) as (b1 & b2 & b3 & b4); [destruct H; lia|]. rewrite b4, b3. auto.
  - destruct H2 as (b1 & b2 & b3). split; [apply H|split; [apply H0|]]; auto; destruct H1 as [(a1 & a2 & a3)|(a1 & a2 & a3 & a4)]; auto. destruct live; auto.
  - destruct H2 as [b1 b2]. split; [apply H|apply H0]; auto; destruct H1 as [(a1 & a2)|(a1 & a2 & a3)]; auto. destruct live; auto.
Qed.

Lemma still_kick o L : L <= w_nbc w ->
  (forall s, good w o L s -> still w o s -> still w' o s \/ roused w' o) /\ (forall ss, goods w o L ss -> stills w o ss -> stills w' o ss \/ roused w' o).
Proof using k.
  intros h1. apply sig_slots_ind; simpl; intros; auto.
  - destruct H as (a1 & a2 & a3 & a4 & a5 & a6), H0 as (b1 & b2 & b3). specialize (a5 b3).
    destruct (k_waker _ _ _ k i a1) as [E|E]; [|right; apply (k_taken _ _ _ k i); auto].
    left. split; [|split; [congruence|]].
    + destruct (c_changed (w_cw w' i)) eqn:Ec; [|auto]. destruct (k_flag' _ _ _ k i a1 Ec) as [h|(m' & h & hm)]; [congruence|].
      rewrite a6 in h. injection h as <-. destruct (k_set _ _ _ k m i hm); auto. congruence.
    + intros hs. pose proof (k_end _ _ _ k m i a3 b3 hs a5 a4). congruence.
  - destruct H0 as [b1 b2], H1 as [c1 c2]. destruct (H b2 c1); auto.
  - destruct H as (a1 & a2 & a3 & a4 & a5), H0 as (b1 & b2 & b3 & b4).
    destruct (k_waker _ _ _ k i a1) as [E|E]; [|right; apply (k_taken _ _ _ k i); auto].
    destruct (k_bc _ _ _ k b) as (c1 & c2 & c3 & c4); [lia|]. left. split; [|repeat split; congruence].
    destruct (b_changed (w_bc w' b)) eqn:Eb; [|auto]. destruct (k_new _ _ _ k b ltac:(lia) Eb) as [h|h]; [congruence|].
    specialize (h i a5 a4). congruence.
  - destruct H1 as (a1 & a2 & a3), H2 as (b1 & b2 & b3). destruct (H0 a2 b2) as [h2|h2]; auto. destruct live.
    + destruct (H a1 (b1 eq_refl)) as [h|h]; auto.
    + left. split; [discriminate|auto].
  - destruct H1 as [a1 a2], H2 as [b1 b2]. destruct (H0 a2 b2) as [h2|h2]; auto. destruct live.
    + destruct (H a1 (b1 eq_refl)) as [h|h]; auto.
    + left. split; [discriminate|exact h2].
Qed.

Lemma bc_ok_kick b : b < w_nbc w -> bc_ok w b -> bc_ok w' b.
Proof using k.
  intros hb (h1 & h2 & h3 & h4). unfold bc_ok. destruct (k_bc _ _ _ k b hb) as (c1 & c2 & c3 & c4). rewrite c1, c2, c3, c4.
  assert (good w (WNote b) b (b_signal (w_bc w b)) \/ over w (WNote b) b (b_signal (w_bc w b))) as hg by (destruct (b_live (w_bc w b)); tauto).
  split; [auto|]. split; [eapply (proj1 (cur_kick _ b ltac:(lia))); eauto|]. split; [auto|].
  destruct (b_live (w_bc w b)).
  - destruct h4 as [a1 a2]. split; [eapply (proj1 (good_kick _ b b ltac:(lia) (le_n _))); eauto|].
    destruct a2 as [a2|a2]; [left; apply (k_changed _ _ _ k); auto|]. apply (proj1 (still_kick _ b ltac:(lia)) _ a1) in a2. destruct a2; auto.
  - eapply (proj1 (over_kick _ b b ltac:(lia) (le_n _))); eauto.
Qed.
End Kick.

(** ** The invariant *)
Definition alert (x : task V) : Prop :=
  match t_pc x with TSleep => t_woken x = true | TRun | TCall | TFut => True | _ => False end.

Definition task_ok w (t : nat) : Prop :=
  let x := w_task w t in
  match t_pc x with
  | TGone => True
  | TPanic => False
  | TDone => NoDup (ids (t_sig x)) /\ pipe_of (t_sig x) = t_pipe x /\ cur w (t_sig x) (hd_error (rev (t_seen x))) /\ over w (WTask t) (w_nbc w) (t_sig x)
  | _ => NoDup (ids (t_sig x)) /\ pipe_of (t_sig x) = t_pipe x /\ cur w (t_sig x) (hd_error (rev (t_seen x))) /\ good w (WTask t) (w_nbc w) (t_sig x)
         /\ (alert x \/ still w (WTask t) (t_sig x))
  end.

Lemma task_ok_kick M w w' t : kick M w w' -> t < w_nt w -> task_ok w t -> task_ok w' t.
Proof.
  intros k ht. unfold task_ok, alert. destruct (k_task _ _ _ k t ht) as (c1 & c2 & c3 & c4). rewrite c1, c2, c3, c4.
  pose proof (proj1 (cur_kick _ _ _ k (WTask t) (w_nbc w) (le_n _)) (t_sig (w_task w t))) as hc.
  pose proof (proj1 (over_kick _ _ _ k (WTask t) (w_nbc w) (w_nbc w') (le_n _) (k_nbc _ _ _ k)) (t_sig (w_task w t))) as ho.
  pose proof (proj1 (good_kick _ _ _ k (WTask t) (w_nbc w) (w_nbc w') (le_n _) (k_nbc _ _ _ k)) (t_sig (w_task w t))) as hg.
  pose proof (proj1 (still_kick _ _ _ k (WTask t) (w_nbc w) (le_n _)) (t_sig (w_task w t))) as hs.
  pose proof (k_woken _ _ _ k t ht) as hw.
  destruct (t_pc (w_task w t)); auto; intros h; decompose [and] h; clear h; repeat (split; [auto; fail|]); auto.
  destruct H4 as [h|h]; auto. apply hs in h; auto. destruct h; auto.
Qed.

Record wfw w : Prop := mkWf {
  wf_sig : forall m i, In i (u_signals (w_mu w m)) -> i < w_ncw w /\ c_src (w_cw w i) = FMut m;
  wf_bw : forall b i, In i (b_wakers (w_bc w b)) -> i < w_ncw w /\ c_src (w_cw w i) = FBc b /\ forall b', c_owner (w_cw w i) = WNote b' -> b < b';
  wf_own : forall i b, i < w_ncw w -> c_owner (w_cw w i) = WNote b -> b < w_nbc w;
  wf_ownt : forall i t, i < w_ncw w -> c_owner (w_cw w i) = WTask t -> t < w_nt w;
  wf_waker : forall i, i < w_ncw w -> c_waker (w_cw w i) = None \/ c_waker (w_cw w i) = Some (c_owner (w_cw w i)) }.

Definition inv w : Prop := below (w_nbc w) w /\ (forall t, t < w_nt w -> task_ok w t) /\ wfw w.

(** Pipelines stay what they are; the closures have seen what they have seen. *)
Definition kept w w' : Prop := w_nt w <= w_nt w' /\ w_nbc w <= w_nbc w' /\
  (forall t, t < w_nt w -> t_pipe (w_task w' t) = t_pipe (w_task w t) /\ exists l, t_seen (w_task w' t) = t_seen (w_task w t) ++ l) /\
  (forall b, b < w_nbc w -> inputs w' b = inputs w b).

Definition next w w' : Prop := inv w' /\ kept w w'.

Lemma inv_kick M w w' : inv w -> kick M w w' -> wfw w' -> (forall b, w_nbc w <= b < w_nbc w' -> bc_ok w' b) ->
  (forall t, w_nt w <= t < w_nt w' -> task_ok w' t) -> next w w'.
Proof.
  intros (h1 & h2 & h3) k h4 h5 h6. split.
  2: { split; [apply k|]. split; [apply k|]. split.
       - intros t ht. destruct (k_task _ _ _ k t ht) as (_ & _ & c3 & c4). split; [auto|]. exists []. rewrite app_nil_r. auto.
       - intros b hb. destruct (k_bc _ _ _ k b hb) as (c1 & _). unfold inputs. congruence. }
  split; [|split; [|auto]].
  - intros b hb. destruct (Nat.lt_ge_cases b (w_nbc w)); [|auto]. eapply bc_ok_kick; eauto.
  - intros t ht. destruct (Nat.lt_ge_cases t (w_nt w)); [|auto]. eapply task_ok_kick; eauto.
Qed.

Lemma wf_woke F w w' : wfw w -> woke F w w' -> wfw w'.
Proof.
  intros h e. constructor.
  - intros m i hi. rewrite (wo_ncw _ _ _ e), (wo_src _ _ _ e). apply (wf_sig _ h). apply (wo_sigs _ _ _ e). auto.
  - intros b i hi. rewrite (wo_ncw _ _ _ e), (wo_src _ _ _ e), (wo_owner _ _ _ e). apply (wf_bw _ h). apply (wo_list _ _ _ e). auto.
  - intros i b. rewrite (wo_ncw _ _ _ e), (wo_nbc _ _ _ e), (wo_owner _ _ _ e). apply (wf_own _ h).
  - intros i b. rewrite (wo_ncw _ _ _ e), (wo_nt _ _ _ e), (wo_owner _ _ _ e). apply (wf_ownt _ h).
  - intros i. rewrite (wo_ncw _ _ _ e), (wo_owner _ _ _ e). intros hi. destruct (wo_waker _ _ _ e i) as [->| ->]; auto. apply (wf_waker _ h). auto.
Qed.

(** A change of Mutables followed by wake-ups. *)
Lemma kick_woke (M F : nat -> Prop) w w0 w' : woke F w0 w' ->
  w_nmu w0 = w_nmu w -> w_cw w0 = w_cw w -> w_ncw w0 = w_ncw w -> w_bc w0 = w_bc w -> w_nbc w0 = w_nbc w -> w_task w0 = w_task w -> w_nt w0 = w_nt w ->
  (forall m, u_signals (w_mu w0 m) = u_signals (w_mu w m)) ->
  (forall m, M m -> u_senders (w_mu w m) <> 0) ->
  (forall m, u_senders (w_mu w m) = 0 -> u_senders (w_mu w0 m) = 0) ->
  (forall m, M m \/ u_value (w_mu w0 m) = u_value (w_mu w m)) ->
  (forall j, F j -> exists m, c_src (w_cw w j) = FMut m /\ M m) ->
  (forall m i, M m -> In i (u_signals (w_mu w m)) -> c_alive (w_cw w i) = true -> c_changed (w_cw w' i) = true /\ c_waker (w_cw w' i) = None) ->
  (forall m i, u_senders (w_mu w m) <> 0 -> u_senders (w_mu w0 m) = 0 -> In i (u_signals (w_mu w m)) -> c_alive (w_cw w i) = true -> c_waker (w_cw w' i) = None) ->
  kick M w w'.
Proof.
  intros e. intros q1 q2 q3 q4 q5 q6 q7 q8 q9 q10 q11 q12 q13 q14. destruct e.
  constructor; try (rewrite ?q1, ?q2, ?q3, ?q4, ?q5, ?q6, ?q7 in *; auto; try lia; fail).
  - intros m hm h. destruct (wo_mu0 m) as [_ ->]. auto.
  - intros m hm. destruct (wo_mu0 m) as [-> _]. auto.
  - intros m i hm ha _ hi. apply wo_sigs'0; [congruence|]. rewrite q8. auto.
  - intros j hj. rewrite <- q2. intros h. destruct (wo_flag'0 j h); auto. right. rewrite q2. auto.
  - intros m i hm h. destruct (wo_mu0 m) as [_ ->]. eauto.
  - intros j o hj h. apply wo_taken0. congruence.
  - intros t ht h. change (roused w' (WTask t)). apply wo_roused0. simpl. congruence.
  - intros b hb h. change (roused w' (WNote b)). apply wo_roused0. simpl. congruence.
Qed.

(** Mutables change, their lists do not. *)
Lemma wf_mu w w0 : wfw w ->
  w_cw w0 = w_cw w -> w_ncw w0 = w_ncw w -> w_bc w0 = w_bc w -> w_nbc w0 = w_nbc w -> w_nt w0 = w_nt w ->
  (forall m i, In i (u_signals (w_mu w0 m)) -> In i (u_signals (w_mu w m))) -> wfw w0.
Proof. intros h e1 e2 e3 e4 e5 e6. destruct h. constructor; rewrite ?e1, ?e2, ?e3, ?e4, ?e5; auto. Qed.

Lemma held_spec m w : held m w = true -> m < w_nmu w /\ u_senders (w_mu w m) <> 0.
Proof. unfold held. rewrite andb_true_iff, negb_true_iff, Nat.ltb_lt, Nat.eqb_neq. auto. Qed.

Lemma set_ok m v w w' : inv w -> held m w = true ->
  notify m true (set_mu m (mkMu v (u_senders (w_mu w m)) (u_signals (w_mu w m))) w) = Some w' -> next w w'.
Proof.
  intros hi hm H. apply held_spec in hm as [h1 h2]. apply notify_woke in H as [e1 e2]. simpl in e1, e2. rewrite fupd_same in e1, e2. simpl in e1, e2.
  assert (wf0 : wfw (set_mu m (mkMu v (u_senders (w_mu w m)) (u_signals (w_mu w m))) w)).
  { eapply (wf_mu w); try reflexivity; [apply hi|]. intros m0 i. simpl. unfold fupd. destruct (Nat.eqb_spec m0 m) as [->|]; auto. }
  eapply (inv_kick (fun m0 => m0 = m)); [exact hi| |eapply wf_woke; eauto| |].
  - eapply kick_woke; [exact e1|reflexivity..| | | | | | |]; simpl.
    + intros m0. unfold fupd. destruct (Nat.eqb_spec m0 m) as [->|]; auto.
    + intros m0 ->. auto.
    + intros m0. unfold fupd. destruct (Nat.eqb_spec m0 m) as [->|]; auto.
    + intros m0. unfold fupd. destruct (Nat.eqb_spec m0 m) as [->|]; auto.
    + intros j [_ hj]. exists m. split; auto. apply (wf_sig _ (proj2 (proj2 hi))); auto.
    + intros m0 i -> h3 h4. destruct (e2 i h3 h4); auto.
    + intros m0 i h3. unfold fupd. destruct (Nat.eqb_spec m0 m) as [->|]; simpl; contradiction.
  - rewrite (wo_nbc _ _ _ e1). simpl. lia.
  - rewrite (wo_nt _ _ _ e1). simpl. lia.
Qed.

Lemma swap_ok m m' w w' : inv w -> held m w = true -> held m' w = true -> m <> m' ->
  (let w1 := set_mu m' (mkMu (u_value (w_mu w m)) (u_senders (w_mu w m')) (u_signals (w_mu w m')))
               (set_mu m (mkMu (u_value (w_mu w m')) (u_senders (w_mu w m)) (u_signals (w_mu w m))) w) in
   let? x := notify m true w1 in notify m' true x) = Some w' -> next w w'.
Proof.
  intros hi hm hm' hne. cbv zeta. apply held_spec in hm as [h1 h2], hm' as [h1' h2'].
  set (w1 := set_mu m' _ _). destruct (notify m true w1) as [w2|] eqn:E; [|discriminate]. intros H.
  apply notify_woke in E as [e1 e2], H as [e3 e4].
  assert (sg : forall m0, u_signals (w_mu w1 m0) = u_signals (w_mu w m0)).
  { intros m0. unfold w1. simpl. unfold fupd. destruct (Nat.eqb_spec m0 m') as [->|]; auto. destruct (Nat.eqb_spec m0 m) as [->|]; auto. }
  assert (sd : forall m0, u_senders (w_mu w1 m0) = u_senders (w_mu w m0)).
  { intros m0. unfold w1. simpl. unfold fupd. destruct (Nat.eqb_spec m0 m') as [->|]; auto. destruct (Nat.eqb_spec m0 m) as [->|]; auto. }
  assert (vl : forall m0, (m0 = m \/ m0 = m') \/ u_value (w_mu w1 m0) = u_value (w_mu w m0)).
  { intros m0. unfold w1. simpl. unfold fupd. destruct (Nat.eqb_spec m0 m') as [->|]; auto. destruct (Nat.eqb_spec m0 m) as [->|]; auto. }
  rewrite sg in e1, e2.
  assert (e5 : woke (fun j => In j (u_signals (w_mu w m)) \/ In j (u_signals (w_mu w m'))) w1 w').
  { eapply woke_trans; [exact e1|exact e3|intros j [_ hj]; auto|]. intros j [_ hj]. right. rewrite <- sg. apply (wo_sigs _ _ _ e1). auto. }
  assert (wf0 : wfw w1). { eapply (wf_mu w); try reflexivity; [apply hi|]. intros m0 i. rewrite sg. auto. }
  eapply (inv_kick (fun m0 => m0 = m \/ m0 = m')); [exact hi| |eapply wf_woke; eauto| |].
  - eapply kick_woke; [exact e5|reflexivity..|exact sg| | |exact vl| | |].
    + intros m0 [->| ->]; auto.
    + intros m0. rewrite sd. auto.
    + intros j [hj|hj]; [exists m|exists m']; split; auto; apply (wf_sig _ (proj2 (proj2 hi))); auto.
    + intros m0 i [->| ->] h3 h4.
      * destruct (e2 i h3 h4) as [a b]. split; [apply (wo_flag _ _ _ e3); auto|]. destruct (wo_waker _ _ _ e3 i); congruence.
      * destruct (e4 i) as [a b]; auto. { apply (wo_sigs' _ _ _ e1); auto. rewrite sg. auto. } rewrite (wo_alive _ _ _ e1). auto.
    + intros m0 i h3. rewrite sd. contradiction.
  - rewrite (wo_nbc _ _ _ e5). simpl. lia.
  - rewrite (wo_nt _ _ _ e5). simpl. lia.
Qed.

Lemma kick_clear M w w' m : kick M w w' -> u_senders (w_mu w' m) = 0 ->
  kick M w (set_mu m (mkMu (u_value (w_mu w' m)) (u_senders (w_mu w' m)) []) w').
Proof.
  intros k hs. destruct k. constructor; auto; simpl.
  - intros m0 h. unfold fupd. destruct (Nat.eqb_spec m0 m) as [->|]; auto.
  - intros m0 h. unfold fupd. destruct (Nat.eqb_spec m0 m) as [->|]; simpl; auto.
  - intros m0 i h. unfold fupd. destruct (Nat.eqb_spec m0 m) as [->|]; simpl; auto.
  - intros m0 i h. unfold fupd. destruct (Nat.eqb_spec m0 m) as [->|]; simpl; eauto.
Qed.

(** Only the count of senders changes. *)
Lemma count_ok m n w : inv w -> (u_senders (w_mu w m) = 0 -> n = 0) -> (u_senders (w_mu w m) <> 0 -> n <> 0) ->
  next w (set_mu m (mkMu (u_value (w_mu w m)) n (u_signals (w_mu w m))) w).
Proof.
  intros hi h1 h2. eapply (inv_kick (fun _ => False)); [exact hi| | | |]; simpl; try lia.
  - eapply kick_woke; [apply (woke_refl (fun _ => False))|reflexivity..| | | | | | |]; simpl.
    + intros m0. unfold fupd. destruct (Nat.eqb_spec m0 m) as [->|]; auto.
    + tauto.
    + intros m0. unfold fupd. destruct (Nat.eqb_spec m0 m) as [->|]; auto.
    + intros m0. unfold fupd. destruct (Nat.eqb_spec m0 m) as [->|]; auto.
    + tauto.
    + tauto.
    + intros m0 i. unfold fupd. destruct (Nat.eqb_spec m0 m) as [->|]; simpl; [|contradiction]. intros a b. destruct (h2 a b).
  - eapply (wf_mu w); try reflexivity; [apply hi|]. intros m0 i. simpl. unfold fupd. destruct (Nat.eqb_spec m0 m) as [->|]; auto.
Qed.

Lemma last_ok m w w' : inv w -> m < w_nmu w -> u_senders (w_mu w m) = 1 ->
  (let? x := notify m false (set_mu m (mkMu (u_value (w_mu w m)) 0 (u_signals (w_mu w m))) w) in
   Some (set_mu m (mkMu (u_value (w_mu x m)) (u_senders (w_mu x m)) []) x)) = Some w' -> next w w'.
Proof.
  intros hi hm h1. set (w0 := set_mu m _ w). destruct (notify m false w0) as [w1|] eqn:E; [|discriminate]. intros H. injection H as <-.
  apply notify_woke in E as [e1 e2].
  assert (sg : forall m0, u_signals (w_mu w0 m0) = u_signals (w_mu w m0)).
  { intros m0. unfold w0. simpl. unfold fupd. destruct (Nat.eqb_spec m0 m) as [->|]; auto. }
  assert (wf0 : wfw w0). { eapply (wf_mu w); try reflexivity; [apply hi|]. intros m0 i. rewrite sg. auto. }
  assert (hs : u_senders (w_mu w1 m) = 0). { destruct (wo_mu _ _ _ e1 m) as [_ ->]. unfold w0. simpl. rewrite fupd_same. reflexivity. }
  rewrite sg in e1, e2.
  eapply (inv_kick (fun _ => False)); [exact hi|apply kick_clear; auto| | |].
  - eapply kick_woke; [exact e1|reflexivity..|exact sg| | | | | |]; simpl.
    + tauto.
    + intros m0. unfold fupd. destruct (Nat.eqb_spec m0 m) as [->|]; auto.
    + intros m0. unfold fupd. destruct (Nat.eqb_spec m0 m) as [->|]; auto.
    + intros j [? _]. discriminate.
    + tauto.
    + intros m0 i. unfold fupd. destruct (Nat.eqb_spec m0 m) as [->|]; simpl; [|contradiction]. intros _ _ h3 h4. apply e2; auto.
  - eapply (wf_mu w1); try reflexivity; [eapply wf_woke; eauto|]. intros m0 i. simpl. unfold fupd. destruct (Nat.eqb_spec m0 m) as [->|]; auto. intros [].
  - simpl. rewrite (wo_nbc _ _ _ e1). simpl. lia.
  - simpl. rewrite (wo_nt _ _ _ e1). simpl. lia.
Qed.

Lemma new_ok v w : inv w ->
  next w (mkW (fupd (w_nmu w) (mkMu v 1 []) (w_mu w)) (S (w_nmu w)) (w_cw w) (w_ncw w) (w_bc w) (w_nbc w) (w_task w) (w_nt w)).
Proof.
  intros hi. eapply (inv_kick (fun _ => False)); [exact hi| | | |]; simpl; try lia.
  - constructor; simpl; try lia; auto; try tauto; try (intros m h; rewrite fupd_other by lia; auto; fail); try (intros; rewrite fupd_other in * by lia; auto; congruence).
    congruence.
  - eapply (wf_mu w); try reflexivity; [apply hi|]. intros m0 i. simpl. unfold fupd. destruct (Nat.eqb_spec m0 (w_nmu w)) as [->|]; simpl; auto. tauto.
Qed.

Lemma wake_ok t w : inv w -> next w (set_task t (woken_task true (w_task w t)) w).
Proof.
  intros hi. eapply (inv_kick (fun _ => False)); [exact hi| | | |]; simpl; try lia.
  - constructor; simpl; auto; try congruence; try tauto.
    + intros t0 _. unfold fupd. destruct (Nat.eqb_spec t0 t) as [->|]; auto.
    + intros t0 _. unfold fupd. destruct (Nat.eqb_spec t0 t) as [->|]; auto.
  - destruct hi as (_ & _ & hw). destruct hw. constructor; auto.
Qed.

(** ** Making signals *)
Lemma kick_ev o L w w1 w' : ev o L (fun _ => False) w w1 -> same_bcs w w1 -> w_mu w' = w_mu w1 -> w_nmu w' = w_nmu w1 -> w_cw w' = w_cw w1 -> w_ncw w' = w_ncw w1 ->
  (forall b, b < w_nbc w -> w_bc w' b = w_bc w1 b) -> w_nbc w <= w_nbc w' -> (forall t, t < w_nt w -> w_task w' t = w_task w1 t) -> w_nt w <= w_nt w' ->
  kick (fun _ => False) w w'.
Proof.
  intros e sb q1 q2 q3 q4 q5 q6 q7 q8. assert (old : forall j, j < w_ncw w -> w_cw w1 j = w_cw w j) by (intros j hj; apply (ev_cw e); auto).
  pose proof (ev_nmu e). pose proof (ev_ncw e). pose proof (ev_mu e) as mu0. pose proof (ev_task e) as tk.
  constructor; rewrite ?q1, ?q2, ?q3, ?q4; try lia; try tauto; auto; try (intros j hj; rewrite old by auto; auto; fail).
  - intros m _. destruct (mu0 m). congruence.
  - intros m _. destruct (mu0 m). auto.
  - intros m i _ _ _. apply (ev_sig' e).
  - intros m i _ h1 h2. destruct (mu0 m). congruence.
  - intros j o0 hj. rewrite old by auto. congruence.
  - intros t ht. rewrite q7, tk by auto. auto.
  - intros t ht. rewrite q7, tk by auto. auto.
  - intros b hb. rewrite q5 by auto. destruct (sb b) as (a1 & a2 & a3 & a4 & a5). auto.
  - intros b hb. rewrite q5 by auto. destruct (sb b) as (a1 & a2 & a3 & a4 & a5). congruence.
  - intros b i hb. rewrite q5 by auto. intros _. apply (ev_bw' e).
  - intros b hb. rewrite q5 by auto. destruct (sb b) as (a1 & a2 & a3 & a4 & a5). rewrite a5. auto.
Qed.

Lemma wf_ev2 o L T w w1 w' : ev o L T w w1 -> L <= w_nbc w -> wfw w -> w_mu w' = w_mu w1 -> w_cw w' = w_cw w1 -> w_ncw w' = w_ncw w1 ->
  (forall b i, In i (b_wakers (w_bc w' b)) -> In i (b_wakers (w_bc w1 b))) -> w_nbc w <= w_nbc w' -> w_nt w <= w_nt w' ->
  (forall b, o = WNote b -> b < w_nbc w') -> (forall t, o = WTask t -> t < w_nt w') -> wfw w'.
Proof.
  intros e hL wf q1 q2 q3 q4 q5 q6 q7 q8. destruct wf. pose proof (ev_ncw e) as l1. pose proof (ev_own e) as ow. pose proof (ev_src e) as sr.
  constructor; rewrite ?q1, ?q2, ?q3.
  - intros m i h. destruct (ev_sig e m i h) as [h1|[h1 h2]]; [|split; [lia|auto]]. destruct (wf_sig0 m i h1). rewrite sr by auto. split; [lia|auto].
  - intros b i h. apply q4 in h. destruct (ev_bw e b i h) as [h1|(h1 & h2 & h3)]; [|split; [lia|auto]]. destruct (wf_bw0 b i h1) as (a1 & a2 & a3).
    rewrite sr, ow by auto. split; [lia|auto].
  - intros i b hi h. destruct (Nat.lt_ge_cases i (w_ncw w)) as [h1|h1]; [rewrite ow in h by auto; apply wf_own0 in h; auto; lia|].
    destruct (ev_new e i ltac:(lia)) as [[k|(b0 & k0 & k)] _]; rewrite h in k; [apply q7; auto|injection k as ->; lia].
  - intros i t hi h. destruct (Nat.lt_ge_cases i (w_ncw w)) as [h1|h1]; [rewrite ow in h by auto; apply wf_ownt0 in h; auto; lia|].
    destruct (ev_new e i ltac:(lia)) as [[k|(b0 & k0 & k)] _]; rewrite h in k; [apply q8; auto|discriminate k].
  - intros i hi. destruct (Nat.lt_ge_cases i (w_ncw w)) as [h1|h1]; [|apply (ev_new e); lia].
    rewrite ow by auto. destruct (ev_wk e i h1) as [->| ->]; auto.
Qed.

(** The number of Broadcasters and the tasks do not matter. *)
Definition core w w' : Prop := w_mu w' = w_mu w /\ w_nmu w' = w_nmu w /\ w_cw w' = w_cw w /\ w_ncw w' = w_ncw w /\ w_bc w' = w_bc w.

Lemma over_core w w' o L : core w w' -> (forall s, over w o L s -> over w' o L s) /\ (forall ss, overs w o L ss -> overs w' o L ss).
Proof. intros (e1 & e2 & e3 & e4 & e5). apply sig_slots_ind; simpl; rewrite ?e1, ?e2, ?e3, ?e4, ?e5; intros; auto; tauto. Qed.

Lemma good_core w w' o L : core w w' -> (forall s, good w o L s -> good w' o L s) /\ (forall ss, goods w o L ss -> goods w' o L ss).
Proof.
  intros c. pose proof (over_core w w' o L c) as [ho _]. destruct c as (e1 & e2 & e3 & e4 & e5).
  apply sig_slots_ind; simpl; rewrite ?e1, ?e2, ?e3, ?e4, ?e5; intros; auto; try tauto.
  - destruct H1 as (a1 & a2 & a3). split; [|split; auto]. destruct live; auto.
  - destruct H1. split; auto. destruct live; auto.
Qed.

Lemma still_core w w' o : core w w' -> (forall s, still w o s -> still w' o s) /\ (forall ss, stills w o ss -> stills w' o ss).
Proof. intros (e1 & e2 & e3 & e4 & e5). apply sig_slots_ind; simpl; rewrite ?e1, ?e2, ?e3, ?e4, ?e5; intros; auto; tauto. Qed.

Lemma cur_core w w' : core w w' -> (forall s out, cur w s out -> cur w' s out) /\ (forall ss, curs w ss -> curs w' ss).
Proof.
  intros (e1 & e2 & e3 & e4 & e5). apply sig_slots_ind; simpl; rewrite ?e1, ?e2, ?e3, ?e4, ?e5; intros; auto; try tauto.
  - destruct H0 as (a & a1 & a2). exists a. auto.
  - destruct H0 as (a & a1 & a2). exists a. auto.
  - destruct H0 as (a & a1 & a2). exists a. auto.
  - destruct H1 as (a1 & a2 & a3). split; auto.
  - destruct H1. split; auto.
Qed.

Lemma bc_ok_core w w' b : core w w' -> bc_ok w b -> bc_ok w' b.
Proof.
  intros c (h1 & h2 & h3 & h4). pose proof c as (e1 & e2 & e3 & e4 & e5). unfold bc_ok. rewrite e5.
  split; [auto|]. split; [eapply cur_core; eauto|]. split; [auto|]. destruct (b_live (w_bc w b)).
  - destruct h4 as [a1 a2]. split; [eapply good_core; eauto|]. destruct a2; auto. right. eapply still_core; eauto.
  - eapply over_core; eauto.
Qed.

Lemma task_ok_core w w' t : core w w' -> w_nbc w' = w_nbc w -> w_task w' t = w_task w t -> task_ok w t -> task_ok w' t.
Proof.
  intros c e6 e7. unfold task_ok. rewrite e6, e7.
  pose proof (proj1 (cur_core _ _ c) (t_sig (w_task w t)) (hd_error (rev (t_seen (w_task w t))))) as hc.
  pose proof (proj1 (good_core _ _ (WTask t) (w_nbc w) c) (t_sig (w_task w t))) as hg.
  pose proof (proj1 (over_core _ _ (WTask t) (w_nbc w) c) (t_sig (w_task w t))) as ho.
  pose proof (proj1 (still_core _ _ (WTask t) c) (t_sig (w_task w t))) as hs.
  destruct (t_pc (w_task w t)); tauto.
Qed.

Lemma spawn_ok p s w w1 : inv w -> closed (w_nmu w) (w_nbc w) p -> build (WTask (w_nt w)) p w = (s, w1) ->
  next w (mkW (w_mu w1) (w_nmu w1) (w_cw w1) (w_ncw w1) (w_bc w1) (w_nbc w1) (fupd (w_nt w1) (mkTask s TSleep true [] p) (w_task w1)) (S (w_nt w1))).
Proof.
  intros hi hc H. destruct (proj1 (build_ok (WTask (w_nt w)) (w_nbc w) ltac:(intros b; discriminate)) p w s w1 (below_epochs _ _ (proj1 hi)) hc H) as (g & sb & h1 & h2 & h3 & h4 & h5).
  pose proof (ev_nt g) as ent. pose proof (ev_nbc g) as enb.
  set (w' := mkW _ _ _ _ _ _ _ _). assert (c : core w1 w') by (repeat split).
  eapply (inv_kick (fun _ => False) w w'); auto.
  - eapply kick_ev; eauto; simpl; try lia. intros t ht. rewrite fupd_other by lia. auto.
  - eapply (wf_ev2 _ _ _ w w1); [exact g|auto|apply hi|reflexivity..|auto| | | |]; simpl; try lia; [discriminate|]. intros t h. injection h as <-. lia.
  - intros b. simpl. lia.
  - intros t ht. simpl in ht. assert (t = w_nt w1) as -> by lia. unfold task_ok. simpl. rewrite fupd_same. simpl.
    split; [auto|]. split; [auto|]. split; [eapply cur_core; eauto|]. split; [|left; reflexivity]. rewrite enb, ent. eapply good_core; eauto.
Qed.

Lemma bc_new_ok p s w w1 : inv w -> closed (w_nmu w) (w_nbc w) p -> build (WNote (w_nbc w)) p w = (s, w1) ->
  next w (mkW (w_mu w1) (w_nmu w1) (w_cw w1) (w_ncw w1) (fupd (w_nbc w1) (mkBc true [] s true None 0) (w_bc w1)) (S (w_nbc w1)) (w_task w1) (w_nt w1)).
Proof.
  intros hi hc H. destruct (proj1 (build_ok (WNote (w_nbc w)) (w_nbc w) ltac:(intros b h; injection h as <-; auto)) p w s w1 (below_epochs _ _ (proj1 hi)) hc H) as (g & sb & h1 & h2 & h3 & h4 & h5).
  pose proof (ev_nt g) as ent. pose proof (ev_nbc g) as enb.
  set (w' := mkW _ _ _ _ _ _ _ _). assert (c : core (set_bc (w_nbc w1) (mkBc true [] s true None 0) w1) w') by (repeat split).
  eapply (inv_kick (fun _ => False) w w'); auto.
  - eapply kick_ev; eauto; simpl; try lia. intros b hb. rewrite fupd_other by lia. auto.
  - eapply (wf_ev2 _ _ _ w w1); [exact g|auto|apply hi|reflexivity..| | | | |]; simpl; try lia; [| |discriminate].
    + intros b i. unfold fupd. destruct (Nat.eqb_spec b (w_nbc w1)); simpl; tauto.
    + intros b h. injection h as <-. lia.
  - intros b hb. simpl in hb. assert (b = w_nbc w1) as -> by lia. unfold bc_ok. simpl. rewrite fupd_same. simpl.
    assert (hg : good (set_bc (w_nbc w1) (mkBc true [] s true None 0) w1) (WNote (w_nbc w)) (w_nbc w) s) by (apply low_good; [lia|auto]).
    split; [auto|]. split. { eapply cur_core; eauto. eapply (low_cur1 w1 (WNote (w_nbc w)) (w_nbc w)); [lia| |exact h4]. auto. }
    split; [auto|]. split; [|auto]. rewrite enb in *. eapply good_core; eauto.
  - intros t. simpl. lia.
Qed.

(** ** Polls *)
Lemma task_ok_ev o L T w w' t : ev o L T w w' -> (forall j, j < w_ncw w -> c_owner (w_cw w j) = WTask t -> ~ T j) -> task_ok w t -> task_ok w' t.
Proof.
  intros e ht. unfold task_ok. rewrite (ev_task e), (ev_nbc e). set (x := w_task w t).
  assert (hg : good w (WTask t) (w_nbc w) (t_sig x) -> free T w (ids (t_sig x))).
  { intros h j hj. apply (good_owner1 _ _ _ _ h) in hj as [h1 h2]. auto. }
  assert (ho : over w (WTask t) (w_nbc w) (t_sig x) -> free T w (ids (t_sig x))).
  { intros h j hj. apply (over_owner1 _ _ _ _ h) in hj as [h1 h2]. auto. }
  pose proof (cur_ev1 e (t_sig x) (hd_error (rev (t_seen x)))) as fc.
  pose proof (good_ev1 e (WTask t) (w_nbc w) (t_sig x)) as fg.
  pose proof (over_ev1 e (WTask t) (w_nbc w) (t_sig x)) as fo.
  pose proof (still_ev1 e (WTask t) (t_sig x)) as fs.
  destruct (t_pc x); tauto.
Qed.

Lemma wf_ev t L T w w' : ev (WTask t) L T w w' -> L <= w_nbc w -> t < w_nt w -> wfw w -> wfw w'.
Proof.
  intros e hL ht h. eapply (wf_ev2 _ _ _ w w'); eauto; rewrite ?(ev_nbc e), ?(ev_nt e); auto; [discriminate|]. intros t0 h0. injection h0 as <-. auto.
Qed.

Lemma wf_task w t x : wfw w -> wfw (set_task t x w).
Proof. intros h. destruct h. constructor; auto. Qed.

(** The task [t] changes, after [w] has become [w1]. *)
Lemma task_step T w w1 t x : inv w -> t < w_nt w -> ev (WTask t) (w_nbc w) T w w1 -> below (w_nbc w) w1 ->
  (forall j t', t' <> t -> c_owner (w_cw w j) = WTask t' -> ~ T j) -> task_ok (set_task t x w1) t ->
  t_pipe x = t_pipe (w_task w t) -> (exists l, t_seen x = t_seen (w_task w t) ++ l) -> next w (set_task t x w1).
Proof.
  intros (h1 & h2 & h3) htn e hb hT ht hp hs. split.
  2: { split; [simpl; rewrite (ev_nt e); auto|]. split; [simpl; rewrite (ev_nbc e); auto|]. split.
       - intros t' ht'. simpl. unfold fupd. destruct (Nat.eqb_spec t' t) as [->|]; [auto|]. rewrite (ev_task e). split; [auto|]. exists []. rewrite app_nil_r. auto.
       - intros b hb'. unfold inputs. simpl. apply (ev_bc e b). }
  split; [|split].
  - simpl. rewrite (ev_nbc e). intros b h. eapply bc_ok_core; [|apply hb; auto]. repeat split.
  - simpl. rewrite (ev_nt e). intros t' h. destruct (Nat.eq_dec t' t) as [->|n]; [exact ht|].
    eapply task_ok_core; [| | |eapply task_ok_ev; eauto]; [repeat split|reflexivity|]. simpl. rewrite fupd_other; auto.
  - apply wf_task. eapply wf_ev; eauto.
Qed.

Lemma rev_snoc {A} (l : list A) x : hd_error (rev (l ++ [x])) = Some x.
Proof. rewrite rev_app_distr. reflexivity. Qed.

Lemma poll_step n t w w' : inv w -> step w (MPoll t n) = Some w' -> next w w'.
Proof.
  intros hi H. pose proof hi as (h1 & h2 & h3). simpl in H. destruct (t_pc (w_task w t)) eqn:Ep; try discriminate H.
  destruct (Nat.ltb_spec t (w_nt w)) as [ht|]; [|discriminate H].
  pose proof (h2 t ht) as ok. unfold task_ok in ok. rewrite Ep in ok. destruct ok as (k1 & k2 & k3 & k4 & _).
  pose proof (proj1 (poll_all_ok n) (WTask t) (t_sig (w_task w t)) w (w_nbc w) _ ltac:(intros b; discriminate) h1 k4 k1 k3) as P.
  destruct (poll_sig n (WTask t) (t_sig (w_task w t)) w) as [| |[[s w1] r]]; [discriminate H|destruct P|].
  destruct P as (e & hb & hids & hn & hp & _ & _ & hr).
  assert (hT : forall j t', t' <> t -> c_owner (w_cw w j) = WTask t' -> ~ touch (w_nbc w) w (ids (t_sig (w_task w t))) j).
  { intros j t' hne ho [hj|(b & _ & hj & _)]; [|congruence]. apply (good_owner1 _ _ _ _ k4) in hj as [_ hj]. congruence. }
  rewrite (ev_task e) in H.
  destruct r as [|[v|]]; injection H as <-.
  - destruct hr as (r1 & r2 & r3). eapply task_step; eauto; [|exists []; simpl; rewrite app_nil_r; auto]. unfold task_ok. simpl. rewrite fupd_same. simpl. rewrite (ev_nbc e).
    assert (c : core w1 (set_task t (mkTask s TSleep (t_woken (w_task w t)) (t_seen (w_task w t)) (t_pipe (w_task w t))) w1)) by (repeat split).
    split; [auto|]. split; [congruence|]. split; [eapply cur_core; eauto|]. split; [eapply good_core; eauto|]. right. eapply still_core; eauto.
  - destruct hr as (r1 & r2). eapply task_step; eauto; [|exists [v]; auto]. unfold task_ok. simpl. rewrite fupd_same. simpl. rewrite (ev_nbc e).
    set (w' := set_task t _ _). assert (c : core w1 w') by (repeat split).
    split; [auto|]. split; [congruence|]. rewrite rev_snoc. split; [eapply cur_core; eauto|]. split; [eapply good_core; eauto|]. left. exact I.
  - destruct hr as (r1 & r2).
    destruct (end_drop (WTask t) (w_nbc w) w w1 (t_sig (w_task w t)) s _ ltac:(intros b; discriminate) hb e hids r1 r2) as (b1 & b2 & b3 & b4 & _).
    eapply (task_step (touch (w_nbc w) w (ids (t_sig (w_task w t))))); [exact hi|exact ht|exact b1|exact b2|exact hT| |reflexivity|exists []; simpl; rewrite app_nil_r; auto].
    unfold task_ok. simpl. rewrite fupd_same. simpl. rewrite (ev_nbc b1).
    set (w' := set_task t _ _). assert (c : core (drop_sig s w1) w') by (repeat split).
    split; [auto|]. split; [congruence|]. split; [eapply cur_core; eauto|]. eapply over_core; eauto.
Qed.

Lemma drop_task_ok t w : inv w -> t < w_nt w -> ended (t_pc (w_task w t)) = false -> next w (set_task t (pc_task TGone (w_task w t)) (drop_sig (t_sig (w_task w t)) w)).
Proof.
  intros hi ht hp. pose proof hi as (h1 & h2 & h3). pose proof (h2 t ht) as ok. unfold task_ok in ok.
  assert (k4 : good w (WTask t) (w_nbc w) (t_sig (w_task w t))) by (destruct (t_pc (w_task w t)); try discriminate hp; tauto).
  set (s := t_sig (w_task w t)) in *.
  assert (hown : forall j, In j (ids s) -> c_owner (w_cw w j) = WTask t) by (intros j hj; eapply good_owner1; eauto).
  eapply task_step; [exact hi|exact ht|apply (ev_drop _ w (ids s) (w_nbc w) (fun j => In j (ids s))); auto| | | |reflexivity|exists []; simpl; rewrite app_nil_r; auto].
  - eapply (below_drop _ w (WTask t)); [intros b; discriminate|exact h1|exact hown].
  - intros j t' hne ho hj. apply hown in hj. congruence.
  - unfold task_ok. simpl. rewrite fupd_same. exact I.
Qed.

(** The program counter changes. *)
Lemma pc_ok t x w : inv w -> t < w_nt w -> ended (t_pc (w_task w t)) = false -> ended (t_pc x) = false -> alert x ->
  t_sig x = t_sig (w_task w t) -> t_seen x = t_seen (w_task w t) -> t_pipe x = t_pipe (w_task w t) -> next w (set_task t x w).
Proof.
  intros hi ht hp hp' ha e1 e2 e3. pose proof hi as (h1 & h2 & h3). pose proof (h2 t ht) as ok. unfold task_ok in ok.
  eapply (task_step (fun _ => False)); [exact hi|exact ht|apply ev_refl|exact h1|auto| |exact e3|exists []; rewrite app_nil_r; auto].
  assert (c : core w (set_task t x w)) by (repeat split).
  assert (ok' : NoDup (ids (t_sig x)) /\ pipe_of (t_sig x) = t_pipe x /\ cur w (t_sig x) (hd_error (rev (t_seen x))) /\ good w (WTask t) (w_nbc w) (t_sig x)).
  { rewrite e1, e2, e3. destruct (t_pc (w_task w t)); try discriminate hp; tauto. }
  destruct ok' as (a1 & a2 & a3 & a4). apply (proj1 (cur_core _ _ c)) in a3. apply (proj1 (good_core _ _ _ _ c)) in a4.
  unfold task_ok. simpl. rewrite fupd_same. destruct (t_pc x); try discriminate hp'; auto 10.
Qed.

Lemma inv_init (v : V) : inv (w_init v).
Proof.
  split; [|split].
  - intros b. simpl. lia.
  - intros t. simpl. lia.
  - constructor; simpl; try lia; tauto.
Qed.

Lemma inv_step w mv w' : inv w -> step w mv = Some w' -> next w w'.
Proof.
  intros hi H. destruct mv; try (eapply poll_step; eauto; fail); cbn [step] in H.
  - injection H as <-. apply new_ok. auto.
  - destruct (held m w) eqn:E; [|discriminate H]. injection H as <-. apply held_spec in E as [_ E]. apply count_ok; auto. congruence.
  - destruct (held m w) eqn:E; [|discriminate H]. apply held_spec in E as [E1 E2].
    destruct (Nat.eqb_spec (u_senders (w_mu w m)) 1) as [e|e].
    + rewrite e in H. apply (last_ok m w w' hi E1 e H).
    + injection H as <-. apply count_ok; auto; lia.
  - destruct (held m w) eqn:E; [|discriminate H]. eapply set_ok; eauto.
  - destruct (held m w) eqn:E; [|discriminate H]. destruct (held m' w) eqn:E'; [|discriminate H]. destruct (Nat.eqb_spec m m') as [e|e]; [discriminate H|].
    simpl in H. eapply (swap_ok m m'); eauto.
  - destruct (Nat.leb_spec nm (w_nmu w)) as [E|]; [|discriminate H]. destruct (Nat.leb_spec nb (w_nbc w)) as [E'|]; [|discriminate H]. simpl in H.
    apply (closed_mono1 _ _ _ _ E E') in h. destruct (build (WNote (w_nbc w)) p w) as [s w1] eqn:E1. injection H as <-. eapply bc_new_ok; eauto.
  - destruct (Nat.leb_spec nm (w_nmu w)) as [E|]; [|discriminate H]. destruct (Nat.leb_spec nb (w_nbc w)) as [E'|]; [|discriminate H]. simpl in H.
    apply (closed_mono1 _ _ _ _ E E') in h. destruct (build (WTask (w_nt w)) p w) as [s w1] eqn:E1. injection H as <-. eapply spawn_ok; eauto.
  - destruct (Nat.ltb_spec t (w_nt w)); [|discriminate H]. destruct (ended (t_pc (w_task w t))) eqn:E; [discriminate H|]. injection H as <-. apply drop_task_ok; auto.
  - destruct (Nat.ltb_spec t (w_nt w)); [|discriminate H]. injection H as <-. apply wake_ok; auto.
  - destruct (Nat.ltb_spec t (w_nt w)); [|discriminate H]. destruct (t_woken (w_task w t)); [|discriminate H]. simpl in H.
    destruct (t_pc (w_task w t)) eqn:E; try discriminate H; injection H as <-; apply pc_ok; simpl; auto; try (rewrite E; reflexivity); exact I.
  - destruct (t_pc (w_task w t)) eqn:E; try discriminate H. destruct (Nat.ltb_spec t (w_nt w)); [|discriminate H]. injection H as <-.
    apply pc_ok; simpl; auto; try (rewrite E; reflexivity); destruct r; simpl; auto; exact I.
Qed.

Lemma reach_inv v mvs w : exec step (w_init v) mvs = Some w -> inv w.
Proof. intros H. eapply (exec_inv step inv); [|apply inv_init|exact H]. intros ? ? ? h1 h2. apply (inv_step _ _ _ h1 h2). Qed.

Lemma kept_refl w : kept w w.
Proof. split; [auto|]. split; [auto|]. split; [|auto]. intros t _. split; [auto|]. exists []. rewrite app_nil_r. auto. Qed.

Lemma kept_trans w w1 w2 : kept w w1 -> kept w1 w2 -> kept w w2.
Proof.
  intros (a1 & a2 & a3 & a4) (b1 & b2 & b3 & b4). split; [lia|]. split; [lia|]. split.
  - intros t ht. destruct (a3 t ht) as (e1 & l1 & f1), (b3 t ltac:(lia)) as (e2 & l2 & f2). split; [congruence|]. exists (l1 ++ l2). rewrite f2, f1, app_assoc. auto.
  - intros b hb. rewrite b4 by lia. auto.
Qed.

Lemma runs_kept w mvs w' : inv w -> exec step w mvs = Some w' -> inv w' /\ kept w w'.
Proof.
  revert w. induction mvs as [|mv mvs IH]; intros w hi H; simpl in H; [injection H as <-; auto using kept_refl|].
  destruct (step w mv) as [w1|] eqn:E; [|discriminate]. destruct (inv_step _ _ _ hi E) as [h1 h2]. destruct (IH w1 h1 H) as [h3 h4]. eauto using kept_trans.
Qed.
End Run.
