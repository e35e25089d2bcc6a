(** Proofs for Poison.v: who is woken, what a poisoned lock does, who poisons it. *)
From Verif Require Import Base Spec BaseFacts Conc Poison PoisonFacts.

Section PoisonFacts2.
Context {A : Type}.
Implicit Types (s : po_st A) (g : po_sig A).

Ltac po_step H := unfold po_step in H; destruct (o_aborted _) eqn:?; [discriminate|].
Ltac po_split H := repeat match type of H with
  | context [match ?x with _ => _ end] => lazymatch x with context [match _ with _ => _ end] => fail | _ => destruct x eqn:? end
  | context [let '(_, _) := ?x in _] => destruct x eqn:?
  end; try discriminate H; try (injection H as <-).

(** No notification gets to signal [k] while its poll is between taking [changed] and storing the waker. *)
Definition unraced (d : A) (l : list (po_move A)) (k : nat) : Prop := forall l1 ok l2 s j,
  l = l1 ++ NNotify ok :: l2 -> exec po_step (po_init d) l1 = Some s -> o_job s = Some j -> hd_error (j_todo j) = Some k ->
  q_pc (o_sig s k) = QIdle \/ q_pc (o_sig s k) = QRead.

Definition waits g : Prop := q_waker g <> None \/ q_pc g = QWait.
Definition wake_ok k s : Prop := let g := o_sig s k in q_alive g = true ->
  (q_pc g = QIdle -> (exists p, q_ans g = p ++ [Some Pending]) -> q_waker g = Some (q_polls g) \/ In (k, q_polls g) (o_woken s))
  /\ (q_changed g = true -> q_waker g = None /\ q_pc g <> QSend /\ q_pc g <> QWait)
  /\ (o_poisoned s = false -> waits g -> 1 <= o_senders s \/ (o_drops s <> None /\ o_job s = None /\ In k (o_signals s))
      \/ (o_senders s = 0 /\ exists j, o_job s = Some j /\ j_last j = true /\ In k (j_todo j))).

Lemma not_last {X} (l : list X) x y : x <> y -> ~ (exists p, l ++ [x] = p ++ [y]).
Proof. intros H (p & E). apply app_inj_tail in E as [_ E]. contradiction. Qed.

Lemma wake_step k s m s' : job_ok s -> cur_ok s -> wake_ok k s ->
  (forall ok j, m = NNotify ok -> o_job s = Some j -> hd_error (j_todo j) = Some k -> q_pc (o_sig s k) = QIdle \/ q_pc (o_sig s k) = QRead) ->
  po_step s m = Some s' -> wake_ok k s'.
Proof.
  intros HJ HC H HR E. po_step E.
  destruct m; cbn [fst snd] in E.
  - (* NWrite *)
    destruct (o_job s) eqn:Ej; [discriminate|]. destruct (Nat.eqb_spec (o_senders s) 0) as [Es|Es]; [discriminate|].
    assert (K : forall s1, o_sig s1 = o_sig s -> o_woken s1 = o_woken s -> o_senders s1 = o_senders s -> wake_ok k s1).
    { intros s1 X1 X2 X3 Ha. rewrite X1 in Ha. destruct (H Ha) as (H1 & H2 & H3). rewrite X1, X2, X3. repeat split; auto; try apply H2; auto. intros; left; lia. }
    destruct (o_poisoned s); [injection E as <-; apply K; reflexivity|]. destruct (po_do w (o_value s)) as [[x [|]] [|]]; injection E as <-; apply K; reflexivity.
  - (* NNotify *)
    destruct (o_job s) as [[[|i todo] kept changed unwinds last]|] eqn:Ej; try discriminate.
    assert (Hp : o_poisoned s = false) by (apply HJ; congruence).
    assert (Hd : o_drops s <> None -> last = false -> False).
    { intros X1 ->. destruct (HC Hp) as (C1 & C2 & _). specialize (C1 _ Ej). specialize (C2 X1). cbn in C1. lia. }
    specialize (HR ok _ eq_refl eq_refl). cbn in HR.
    assert (K : forall s1 todo1 j1, (forall i1, In i1 todo1 -> True) -> o_senders s1 = o_senders s -> o_drops s1 = o_drops s -> o_poisoned s1 = false -> incl (o_woken s) (o_woken s1) ->
      (forall w, i = k -> q_waker (o_sig s k) = Some w -> q_alive (o_sig s k) = true -> In (k, w) (o_woken s1)) ->
      o_sig s1 = (if q_alive (o_sig s i) then fupd i (mkPs true (q_changed (o_sig s i) || changed) None (q_pc (o_sig s i)) (q_polls (o_sig s i)) (q_ans (o_sig s i))) (o_sig s) else o_sig s) ->
      o_job s1 = Some j1 -> j_last j1 = last -> j_todo j1 = todo1 -> (todo1 = todo \/ todo1 = i :: todo) -> wake_ok k s1).
    { intros s1 todo1 j1 _ X1 X2 X3 X4 X5 X6 X7 X8 X9 X10 Ha. rewrite X1, X2, X3, X6 in *. destruct (q_alive (o_sig s i)) eqn:Ei.
      - unfold fupd in *. destruct (Nat.eqb_spec k i) as [<-|Hn]; cbn in *.
        + destruct (H Ei) as (H1 & H2 & H3). repeat split.
          * intros Y1 Y2. destruct (H1 Y1 Y2) as [Y|Y]; right; [apply (X5 _ eq_refl Y Ei)|apply X4; exact Y].
          * destruct (HR eq_refl) as [-> | ->]; discriminate.
          * destruct (HR eq_refl) as [-> | ->]; discriminate.
          * intros _ [Y|Y]; [cbn in Y; congruence|]. cbn in Y. destruct (HR eq_refl); congruence.
        + destruct (H Ha) as (H1 & H2 & H3). split; [|split].
          * intros Y1 Y2. destruct (H1 Y1 Y2); auto.
          * exact H2.
          * intros Y1 Y2. destruct (H3 Hp Y2) as [Y|[(Y & Y3 & _)|(Y & j & Y3 & Y4 & Y5)]]; [auto|congruence|]. right. right. split; [exact Y|]. exists j1.
            rewrite Ej in Y3; injection Y3 as <-. cbn in *. rewrite X8, X9. split; [exact X7|]. split; [exact Y4|]. destruct Y5 as [->|Y5]; [congruence|]. destruct X10 as [->| ->]; [exact Y5|right; exact Y5].
      - destruct (H Ha) as (H1 & H2 & H3). split; [|split].
        + intros Y1 Y2. destruct (H1 Y1 Y2); auto.
        + exact H2.
        + intros Y1 Y2. destruct (H3 Hp Y2) as [Y|[(Y & Y3 & _)|(Y & j & Y3 & Y4 & Y5)]]; [auto|congruence|]. right. right. split; [exact Y|]. exists j1.
            rewrite Ej in Y3; injection Y3 as <-. cbn in *. rewrite X8, X9. split; [exact X7|]. split; [exact Y4|]. destruct Y5 as [->|Y5]; [congruence|]. destruct X10 as [->| ->]; [exact Y5|right; exact Y5]. }
    destruct (q_alive (o_sig s i)) eqn:Ei.
    + destruct (q_waker (o_sig s i)) as [w|] eqn:Ew.
      * assert (Q : forall w0, i = k -> q_waker (o_sig s k) = Some w0 -> q_alive (o_sig s k) = true -> In (k, w0) (o_woken s ++ [(i, w)])).
        { intros w0 -> E0 _. apply in_or_app. right. left. congruence. }
        assert (Q1 : incl (o_woken s) (o_woken s ++ [(i, w)])) by (intros y Hy; apply in_or_app; auto).
        destruct ok; [injection E as <-; eapply K with (todo1 := todo); cbn; auto; reflexivity|]. destruct unwinds; injection E as <-.
        -- eapply K with (todo1 := i :: todo); cbn; auto; try exact Ej; reflexivity.
        -- (* poisoned now *)
           assert (K0 : wake_ok k (po_jobs (po_wake (po_sigs s i (mkPs true (q_changed (o_sig s i) || changed) None (q_pc (o_sig s i)) (q_polls (o_sig s i)) (q_ans (o_sig s i)))) i w) (Some (mkPj todo kept changed false last)) (o_signals s))).
           { eapply K with (todo1 := todo); cbn; auto; reflexivity. }
           intros Ha. destruct (K0 Ha) as (K1 & K2 & K3). split; [exact K1|]. split; [exact K2|]. cbn. discriminate.
      * injection E as <-. eapply K with (todo1 := todo); cbn; auto; try reflexivity; try (intros y Hy; exact Hy). intros w -> E0. congruence.
    + injection E as <-. eapply K with (todo1 := todo); cbn; auto; try reflexivity; try (intros y Hy; exact Hy). intros w -> E0. congruence.
  - (* NRelease *)
    destruct (o_job s) as [[[|i todo] kept changed unwinds last]|] eqn:Ej; try discriminate.
    assert (Hp : o_poisoned s = false) by (apply HJ; congruence).
    assert (K : forall sg, wake_ok k (po_jobs s None sg)).
    { intros sg Ha. destruct (H Ha) as (H1 & H2 & H3). split; [exact H1|]. split; [exact H2|]. cbn. intros _ Y.
      destruct (H3 Hp Y) as [Y0|[(_ & Y0 & _)|(_ & j & Y1 & _ & Y2)]]; [auto|congruence|]. replace j with (mkPj [] kept changed unwinds last) in Y2 by congruence. destruct Y2. }
    destruct last; [injection E as <-; apply K|]. destruct unwinds; injection E as <-; [|apply K].
    intros Ha. destruct (K kept Ha) as (K1 & K2 & K3). split; [exact K1|]. split; [exact K2|]. discriminate.
  - destruct (o_job s) eqn:Ej; [discriminate|]. injection E as <-. exact H.
  - (* NSignal *)
    assert (K : forall sg, incl (o_signals s) sg -> wake_ok k (po_new s sg)).
    { intros sg Hi. unfold wake_ok. cbn. unfold fupd. destruct (Nat.eqb_spec k (o_nsig s)) as [->|Hn].
      - intros _. cbn. split; [intros _ (p & Y); destruct p; discriminate|]. split; [repeat split; discriminate|]. intros _ [Y|Y]; cbn in Y; congruence.
      - intros Ha. destruct (H Ha) as (H1 & H2 & H3). split; [exact H1|]. split; [exact H2|]. intros Y1 Y2. destruct (H3 Y1 Y2) as [Y|[(Y & Y3 & Y4)|Y]]; [auto| |auto]. right. left. auto. }
    destruct (o_senders s =? 0); [injection E as <-; apply K, incl_refl|]. destruct (o_job s); [discriminate|].
    destruct (o_poisoned s); injection E as <-; [exact H|]. apply K. intros y Hy. apply in_or_app. auto.
  - (* NPoll *)
    destruct (q_alive (o_sig s k0)) eqn:Ea; [|discriminate]. destruct (q_pc (o_sig s k0)) eqn:Epc; try discriminate. injection E as <-.
    unfold wake_ok. cbn. unfold fupd. destruct (Nat.eqb_spec k k0) as [<-|Hn]; [|exact H]. cbn. intros _. destruct (H Ea) as (H1 & H2 & H3). split; [|split].
    + destruct (q_changed (o_sig s k)); discriminate.
    + discriminate.
    + intros Y1 Y2. apply (H3 Y1). destruct Y2 as [Y2|Y2]; cbn in Y2; [left; exact Y2|]. destruct (q_changed (o_sig s k)); discriminate.
  - (* NRead *)
    destruct (q_pc (o_sig s k0)) eqn:Epc; try discriminate. destruct (o_job s) eqn:Ej; [discriminate|].
    assert (K : forall a e, a <> Some Pending -> wake_ok k (po_note (po_sigs s k0 (q_answer (o_sig s k0) a)) [e])).
    { intros a e Hn. unfold wake_ok. cbn. unfold fupd. destruct (Nat.eqb_spec k k0) as [<-|Hn0]; [|rewrite Ej in *; unfold wake_ok in H; rewrite Ej in H; exact H]. cbn. intros Ha.
      destruct (H Ha) as (H1 & H2 & H3). split; [|split].
      - intros _ Y. destruct (not_last _ _ _ Hn Y).
      - intros Y. destruct (H2 Y) as (Y1 & _). repeat split; [exact Y1|discriminate..].
      - intros Y1 Y2. apply (H3 Y1). destruct Y2 as [Y2|Y2]; cbn in Y2; [left; exact Y2|discriminate]. }
    destruct (negb (o_poisoned s) && ok); injection E as <-; apply K; discriminate.
  - (* NSend *)
    destruct (q_pc (o_sig s k0)) eqn:Epc; try discriminate. injection E as <-.
    unfold wake_ok. cbn. unfold fupd. destruct (Nat.eqb_spec k k0) as [<-|Hn]; [|exact H]. destruct (Nat.eqb_spec (o_senders s) 0) as [Es|Es]; cbn; intros Ha; destruct (H Ha) as (H1 & H2 & H3).
    + split; [intros _ Y; assert (Hn : Some (Ready None) <> Some (@Pending (option A))) by discriminate; destruct (not_last _ _ _ Hn Y)|]. split.
      * intros Y. destruct (H2 Y) as (Y1 & Y2 & _). congruence.
      * intros Y1 Y2. apply (H3 Y1). destruct Y2 as [Y2|Y2]; cbn in Y2; [left; exact Y2|discriminate].
    + split; [discriminate|]. split; [intros Y; destruct (H2 Y) as (Y1 & Y2 & _); congruence|]. intros _ _. left. lia.
  - (* NWait *)
    destruct (q_pc (o_sig s k0)) eqn:Epc; try discriminate. injection E as <-.
    unfold wake_ok. cbn. unfold fupd. destruct (Nat.eqb_spec k k0) as [<-|Hn]; [|exact H]. cbn. intros Ha. destruct (H Ha) as (H1 & H2 & H3).
    split; [auto|]. split; [intros Y; destruct (H2 Y) as (Y1 & _ & Y2); congruence|]. intros Y1 _. apply (H3 Y1). right. exact Epc.
  - (* NDropSig *)
    destruct (q_alive (o_sig s k0)) eqn:Ea; [|discriminate]. destruct (q_pc (o_sig s k0)) eqn:Epc; try discriminate. injection E as <-.
    unfold wake_ok. cbn. unfold fupd. destruct (Nat.eqb_spec k k0) as [<-|Hn]; [discriminate|exact H].
  - (* NClone *)
    destruct (Nat.eqb_spec (o_senders s) 0) as [Es|Es]; [discriminate|]. injection E as <-. intros Ha. destruct (H Ha) as (H1 & H2 & H3).
    split; [exact H1|]. split; [exact H2|]. intros _ _. left. cbn. lia.
  - (* NDrop *)
    destruct (o_senders s <=? _) eqn:Es; [discriminate|]. apply Nat.leb_gt in Es. injection E as <-. intros Ha. destruct (H Ha) as (H1 & H2 & H3).
    split; [exact H1|]. split; [exact H2|]. cbn. intros Hp Y. destruct (Nat.eqb_spec (o_senders s) 1) as [E1|E1]; [|left; lia]. right. left. split; [discriminate|].
    assert (Hj : o_job s = None).
    { destruct (HC Hp) as (C1 & _). destruct (o_job s) as [j|]; [|reflexivity]. specialize (C1 _ eq_refl). destruct (j_last j); lia. }
    split; [exact Hj|]. destruct (HC Hp) as (_ & _ & C). destruct (C k Ha) as (_ & C1 & _). unfold listed in C1. rewrite Hj in C1. apply C1. lia.
  - (* NDropLock *)
    destruct (o_drops s) as [u|] eqn:Ed; [|discriminate]. destruct (o_job s) eqn:Ej; [discriminate|]. cbn in E.
    assert (K : forall s1, o_sig s1 = o_sig s -> o_woken s1 = o_woken s -> o_poisoned s1 = true -> wake_ok k s1).
    { intros s1 X1 X2 X3 Ha. rewrite X1 in Ha. destruct (H Ha) as (H1 & H2 & H3). rewrite X1, X2, X3. split; [exact H1|]. split; [exact H2|]. discriminate. }
    destruct (o_poisoned s) eqn:Hp; [destruct u; injection E as <-; apply K; auto|].
    assert (Hz : o_senders s = 0) by (apply (HC Hp); congruence).
    destruct (o_signals s) as [|i sg] eqn:Eg; injection E as <-; intros Ha; destruct (H Ha) as (H1 & H2 & H3); (split; [exact H1|]); (split; [exact H2|]); cbn; intros _ Y;
      destruct (H3 Hp Y) as [Y1|[(_ & _ & Y1)|(_ & j & Y1 & _)]]; try lia; try congruence; rewrite Eg in Y1; [destruct Y1|].
    right. right. split; [exact Hz|]. eexists. split; [reflexivity|]. auto.
Qed.

Lemma po_wakes d l s k : exec po_step (po_init d) l = Some s -> unraced d l k -> job_ok s /\ cur_ok s /\ wake_ok k s.
Proof.
  revert s. induction l as [|m l IH] using rev_ind; intros s E Hr.
  - injection E as <-. split; [intros H; cbn in H; congruence|]. split; [|intros Ha; discriminate].
    intros _. split; [discriminate|]. split; [cbn; congruence|]. intros i Hi. discriminate.
  - rewrite exec_app in E. destruct (exec po_step (po_init d) l) as [s1|] eqn:E1; [|discriminate]. cbn in E.
    destruct (po_step s1 m) as [s2|] eqn:E2; [|discriminate]. injection E as <-.
    destruct (IH s1 eq_refl) as (H1 & H2 & H3).
    { intros l1 ok l2 s0 j -> E0. apply (Hr l1 ok (l2 ++ [m]) s0 j); [rewrite <- app_assoc; reflexivity|exact E0]. }
    split; [exact (job_ok_step _ _ _ H1 E2)|]. split; [exact (cur_step _ _ _ H1 H2 E2)|]. refine (wake_step k s1 m s2 H1 H2 H3 _ E2).
    intros ok j -> Hj Ht. exact (Hr l ok [] s1 j eq_refl E1 Hj Ht).
Qed.

Lemma po_woken d l s k : exec po_step (po_init d) l = Some s -> unraced d l k -> q_alive (o_sig s k) = true -> q_pc (o_sig s k) = QIdle ->
  (exists p, q_ans (o_sig s k) = p ++ [Some Pending]) -> q_changed (o_sig s k) = true \/ (o_senders s = 0 /\ po_quiet s /\ ~ In EPoison (o_log s)) ->
  In (k, q_polls (o_sig s k)) (o_woken s).
Proof.
  intros E Hr Ha Hi Hl Hc. destruct (po_wakes d l s k E Hr) as (_ & _ & H). destruct (H Ha) as (H1 & H2 & H3).
  destruct (H1 Hi Hl) as [Hw|Hw]; [|exact Hw]. exfalso. destruct Hc as [Hc|(Hs & [Hj Hd] & Hp)].
  - destruct (H2 Hc). congruence.
  - assert (Hp' : o_poisoned s = false).
    { destruct (po_logged d l s E) as [_ (_ & _ & X & _)]. destruct (o_poisoned s); [exfalso; apply Hp, X; reflexivity|reflexivity]. }
    destruct (H3 Hp') as [Y|[(Y & _)|(_ & j & Y & _)]]; [left; congruence|lia|congruence..].
Qed.

(** *** A poisoned lock *)
Lemma po_calls d l s m : exec po_step (po_init d) l = Some s -> o_poisoned s = true -> o_aborted s = false ->
  (exists w, m = NWrite w) \/ (exists ok, m = NGet ok) \/ m = NSignal -> 1 <= o_senders s ->
  exists s', po_step s m = Some s' /\ o_log s' = o_log s ++ [EPanic] /\ o_value s' = o_value s /\ o_sig s' = o_sig s.
Proof.
  intros E Hp Ha Hm Hs. destruct (po_logged d l s E) as [HJ _].
  assert (Hj : o_job s = None) by (destruct (o_job s) eqn:Ej; [exfalso; assert (o_poisoned s = false) by (apply HJ; congruence); congruence|reflexivity]).
  unfold po_step. rewrite Ha. destruct Hm as [(w & ->)|[(ok & ->)| ->]]; rewrite Hj, Hp.
  - destruct (Nat.eqb_spec (o_senders s) 0); [lia|]. eexists. repeat split.
  - eexists. repeat split.
  - destruct (Nat.eqb_spec (o_senders s) 0); [lia|]. eexists. repeat split.
Qed.

(** *** Who poisons it *)
Lemma po_closure s w x s' : o_poisoned s = false ->
  (exists f, w = WWith f /\ f (o_value s) = (x, None)) \/ (exists v f, w = WIf v f /\ f (o_value s) v = None /\ x = o_value s) ->
  po_step s (NWrite w) = Some s' ->
  o_poisoned s' = true /\ o_log s' = o_log s ++ [EWrite x; EPoison; EPanic] /\ o_woken s' = o_woken s /\ o_sig s' = o_sig s /\ o_job s' = None.
Proof.
  intros Hp Hw E. po_step E. destruct (o_job s); [discriminate|]. destruct (o_senders s =? 0); [discriminate|]. rewrite Hp in E.
  destruct Hw as [(f & -> & Hf)|(v & f & -> & Hf & ->)]; cbn in E; rewrite Hf in E; injection E as <-; cbn; rewrite <- app_assoc; repeat split.
Qed.

Definition calm (m : po_move A) : Prop := m <> NGet false /\ forall k, m <> NRead k false.
Definition marked s : Prop := (forall l1 l2, o_log s = l1 ++ EPanic :: l2 -> In EPoison l1) \/ o_aborted s = true.
Lemma marked_note s s' e : (forall l1 l2, o_log s = l1 ++ EPanic :: l2 -> In EPoison l1) -> o_log s' = o_log s ++ [e] -> (e = EPanic -> In EPoison (o_log s)) ->
  forall l1 l2, o_log s' = l1 ++ EPanic :: l2 -> In EPoison l1.
Proof.
  intros H El He l1 l2 E. rewrite El in E. destruct (snoc_split _ _ _ _ _ E) as [(l3 & E3)|[<- E4]]; [exact (H _ _ E3)|]. apply He. congruence.
Qed.
Lemma po_marked d l s l1 l2 : exec po_step (po_init d) l = Some s -> (forall m, In m l -> calm m) -> o_aborted s = false ->
  o_log s = l1 ++ EPanic :: l2 -> In EPoison l1.
Proof.
  revert s l1 l2. induction l as [|m l IH] using rev_ind; intros s l1 l2 E Hc Ha El.
  - injection E as <-. destruct l1; discriminate.
  - rewrite exec_app in E. destruct (exec po_step (po_init d) l) as [s1|] eqn:E1; [|discriminate]. cbn in E.
    destruct (po_step s1 m) as [s2|] eqn:E2; [|discriminate]. injection E as <-.
    destruct (po_logged d l s1 E1) as [HJ (_ & _ & HP & _)].
    assert (Hm : calm m) by (apply Hc, in_or_app; right; left; reflexivity).
    assert (Ha1 : o_aborted s1 = false) by (unfold po_step in E2; destruct (o_aborted s1); [discriminate|reflexivity]).
    assert (H : forall l1 l2, o_log s1 = l1 ++ EPanic :: l2 -> In EPoison l1).
    { intros l3 l4. apply IH; auto. intros x Hx. apply Hc, in_or_app. auto. }
    clear IH Hc E1. revert l1 l2 El.
    assert (KP : o_poisoned s1 = true -> In EPoison (o_log s1)) by (apply HP).
    assert (K2 : forall s3 sx, o_log sx = o_log s1 -> o_log s3 = o_log (po_poison sx) -> forall l1 l2, o_log s3 = l1 ++ EPanic :: l2 -> In EPoison l1).
    { intros s3 sx X1 X2 l1 l2 El. rewrite X2 in El. cbn in El. change [EPoison; EPanic] with ([@EPoison A] ++ [EPanic]) in El. rewrite app_assoc in El.
      destruct (snoc_split _ _ _ _ _ El) as [(l3 & E3)|[<- _]]; [|apply in_or_app; right; left; reflexivity].
      destruct (snoc_split _ _ _ _ _ E3) as [(l4 & E4)|[_ E4]]; [|discriminate]. rewrite X1 in E4. exact (H _ _ E4). }
    unfold po_step in E2. rewrite Ha1 in E2. destruct m; cbn [fst snd] in E2.
    + destruct (o_job s1); [discriminate|]. destruct (o_senders s1 =? 0); [discriminate|]. destruct (o_poisoned s1) eqn:Hp.
      * injection E2 as <-. apply (marked_note s1 _ EPanic H); auto.
      * destruct (po_do w (o_value s1)) as [[x n] p].
        assert (HN : forall l1 l2, o_log (po_note (po_set s1 x) [EWrite x]) = l1 ++ EPanic :: l2 -> In EPoison l1) by (apply (marked_note s1 _ (EWrite x) H); [reflexivity|discriminate]).
        destruct n; [injection E2 as <-; exact HN|]. destruct p; injection E2 as <-; [|exact HN].
        intros l1 l2 El. cbn in El. change [EPoison; EPanic] with ([@EPoison A] ++ [EPanic]) in El. rewrite (app_assoc (o_log s1 ++ [EWrite x])) in El.
        destruct (snoc_split _ _ _ _ _ El) as [(l3 & E3)|[<- _]]; [|apply in_or_app; right; left; reflexivity].
        destruct (snoc_split _ _ _ _ _ E3) as [(l4 & E4)|[_ E4]]; [|discriminate]. exact (HN _ _ E4).
    + destruct (o_job s1) as [[[|i todo] kept changed unw last]|]; try discriminate. destruct (q_alive (o_sig s1 i)); [|injection E2 as <-; exact H].
      destruct (q_waker (o_sig s1 i)); [|injection E2 as <-; exact H]. destruct ok; [injection E2 as <-; exact H|]. destruct unw; injection E2 as <-; [cbn in Ha; discriminate|].
      eapply K2; [|reflexivity]. reflexivity.
    + destruct (o_job s1) as [[[|i todo] kept changed unw last]|]; try discriminate. destruct last; [injection E2 as <-; exact H|].
      destruct unw; injection E2 as <-; [|exact H]. eapply K2; [|reflexivity]. reflexivity.
    + destruct (o_job s1); [discriminate|]. injection E2 as <-. eapply (marked_note s1 _ _ H); [reflexivity|]. destruct (o_poisoned s1); [auto|].
      destruct ok; [discriminate|]. destruct Hm as [Hm _]. congruence.
    + destruct (o_senders s1 =? 0); [injection E2 as <-; exact H|]. destruct (o_job s1); [discriminate|]. destruct (o_poisoned s1); injection E2 as <-; [|exact H].
      apply (marked_note s1 _ EPanic H); auto.
    + destruct (q_alive (o_sig s1 k)), (q_pc (o_sig s1 k)); try discriminate. injection E2 as <-. exact H.
    + destruct (q_pc (o_sig s1 k)); try discriminate. destruct (o_job s1); [discriminate|]. destruct ok; [|destruct Hm as [_ Hm]; destruct (Hm k eq_refl)].
      destruct (o_poisoned s1); cbn in E2; injection E2 as <-; (eapply (marked_note s1 _ _ H); [reflexivity|]); [auto|discriminate].
    + destruct (q_pc (o_sig s1 k)); try discriminate. injection E2 as <-. exact H.
    + destruct (q_pc (o_sig s1 k)); try discriminate. injection E2 as <-. exact H.
    + destruct (q_alive (o_sig s1 k)), (q_pc (o_sig s1 k)); try discriminate. injection E2 as <-. exact H.
    + destruct (o_senders s1 =? 0); [discriminate|]. injection E2 as <-. exact H.
    + destruct (o_senders s1 <=? _); [discriminate|]. injection E2 as <-. exact H.
    + destruct (o_drops s1) as [u|]; [|discriminate]. destruct (o_job s1); [discriminate|]. cbn in E2. destruct (o_poisoned s1).
      * destruct u; injection E2 as <-; [cbn in Ha; discriminate|]. apply (marked_note s1 _ EPanic H); auto.
      * destruct (o_signals s1); injection E2 as <-; exact H.
Qed.

(** For the examples: [unraced], computed. *)
Fixpoint unraced_b s (l : list (po_move A)) k : bool :=
  match l with
  | [] => true
  | m :: l =>
      match m, o_job s with
      | NNotify _, Some j =>
          match hd_error (j_todo j) with
          | Some i => if i =? k then match q_pc (o_sig s k) with QIdle | QRead => true | _ => false end else true
          | None => true
          end
      | _, _ => true
      end && match po_step s m with Some s' => unraced_b s' l k | None => true end
  end.
Lemma unraced_ok l k : forall s, unraced_b s l k = true -> forall l1 ok l2 s1 j,
  l = l1 ++ NNotify ok :: l2 -> exec po_step s l1 = Some s1 -> o_job s1 = Some j -> hd_error (j_todo j) = Some k ->
  q_pc (o_sig s1 k) = QIdle \/ q_pc (o_sig s1 k) = QRead.
Proof.
  induction l as [|m l IH]; intros s H l1 ok l2 s1 j E X Hj Ht; [destruct l1; discriminate|]. cbn [unraced_b] in H. apply andb_true_iff in H as [H1 H2].
  destruct l1 as [|m1 l1].
  - injection E as -> ->. injection X as ->. rewrite Hj, Ht, Nat.eqb_refl in H1. destruct (q_pc (o_sig s1 k)); auto; discriminate.
  - injection E as -> ->. cbn in X. destruct (po_step s m1) as [s2|]; [|discriminate]. exact (IH s2 H2 l1 ok l2 s1 j eq_refl X Hj Ht).
Qed.
End PoisonFacts2.
