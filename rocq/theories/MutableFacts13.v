(** What Mutable.v guarantees: each call takes effect in one instant (C63); dropped signals are forgotten (C64). *)
From Verif Require Import Base Spec BaseFacts Conc Mutable MutableFacts MutableFacts2 MutableFacts3 MutableFacts4 MutableFacts5 MutableFacts6 MutableFacts7 MutableFacts8 MutableFacts9 MutableFacts12.

(** Some step of call [i] among [l], which starts in [s], leads from a state to another that are related by [P]. *)
Definition at_once {A} (s : mu_st A) (l : list (mu_move A)) (i : nat) (P : mu_st A -> mu_st A -> Prop) : Prop :=
  exists l1 l2 s1 s2, l = l1 ++ XOp i :: l2 /\ exec mu_step s l1 = Some s1 /\ mu_step s1 (XOp i) = Some s2 /\ P s1 s2.

(** The value of Mutable [m] becomes [v]; the others keep theirs. *)
Definition sets {A} (m : nat) (v : A) (s s' : mu_st A) : Prop :=
  v_val (m_mut s' m) = v /\ forall m', m' <> m -> v_val (m_mut s' m') = v_val (m_mut s m').
(** All keep their values. *)
Definition keeps {A} (s s' : mu_st A) : Prop := forall m', v_val (m_mut s' m') = v_val (m_mut s m').

Section Mu.
Context {A : Type}.
Implicit Types (s : mu_st A).

Lemma at_once_cons s mv s1 l i P : mu_step s mv = Some s1 -> at_once s1 l i P -> at_once s (mv :: l) i P.
Proof.
  intros E (l1 & l2 & t1 & t2 & -> & X1 & X2). exists (mv :: l1), l2, t1, t2. split; [reflexivity|].
  split; [cbn [exec]; rewrite E; exact X1|exact X2].
Qed.

Lemma at_once_weaken s l i (P Q : mu_st A -> mu_st A -> Prop) : (forall a b, P a b -> Q a b) -> at_once s l i P -> at_once s l i Q.
Proof. intros H (l1 & l2 & s1 & s2 & X1 & X2 & X3 & X4). exists l1, l2, s1, s2. auto. Qed.

(** ** C63 *)

(** A call after its write. *)
Definition after_write (r : option A) (o : op A) : Prop :=
  o_ret o = r /\ match o_pc o with QNotify KRel _ _ _ _ _ | QRel _ | QRet => True | _ => False end.

Lemma after_write_step s mv s' i r o : mu_step s mv = Some s' -> nth_error (m_ops s) i = Some o -> after_write r o ->
  exists o', nth_error (m_ops s') i = Some o' /\ after_write r o'.
Proof.
  intros E Ho [R P]. rename i into j, o into q, r into r0. mu_cases E; fu; try (exists q; split; [eauto using snoc_old|split; auto]; fail).
  all: (destruct (Nat.eq_dec i j) as [<-|N]; [|exists q; split; [rewrite lupd_other by auto; auto|split; auto]]).
  all: rewrite Hop in Ho; injection Ho as <-; rewrite Hpc in P; try contradiction.
  all: try (destruct c; try contradiction).
  all: eexists; split; [apply (lupd_same _ _ _ _ Hop)|split; simpl; auto].
Qed.

Lemma after_write_exec s l s' i r o : exec mu_step s l = Some s' -> nth_error (m_ops s) i = Some o -> after_write r o ->
  exists o', nth_error (m_ops s') i = Some o' /\ after_write r o'.
Proof.
  intros E Ho W. refine (exec_inv mu_step (fun x => exists o', nth_error (m_ops x) i = Some o' /\ after_write r o') _ l s s' _ E); eauto.
  intros x mv x' (q & Hq & X) Ex. eapply after_write_step; eauto.
Qed.

Theorem mu_write_once (d : A) l s h f m s1 l2 s2 o : exec mu_step (mu_init d) l = Some s ->
  lookup h (m_live s) = Some m -> mu_step s (XWrite h f) = Some s1 -> exec mu_step s1 l2 = Some s2 ->
  nth_error (m_ops s2) (length (m_ops s)) = Some o -> o_done o = true ->
  at_once s1 l2 (length (m_ops s)) (fun a b => match f (v_val (m_mut a m)) with
    | Some (v, r) => sets m v a b /\ o_ret o = r
    | None => keeps a b /\ o_ret o = None
    end).
Proof.
  intros E Hl E1 E2 Ho Dn. clear E. set (i := length (m_ops s)) in *.
  assert (P : exists o, nth_error (m_ops s1) i = Some o /\ o_ret o = None /\ (o_pc o = QAcq m f \/ o_pc o = QBody m f)).
  { simpl in E1. rewrite Hl in E1. injection E1 as <-. eexists. split; [apply snoc_new|]. simpl. auto. }
  clearbody i. clear E1 Hl. revert s1 P E2. induction l2 as [|mv l2 IH]; cbn [exec]; intros s1 P E2.
  - injection E2 as <-. exfalso. destruct P as (q & Hq & _ & P). assert (q = o) by congruence. subst q. unfold o_done in Dn.
    destruct P as [P|P]; rewrite P in Dn; discriminate.
  - destruct (mu_step s1 mv) as [s1'|] eqn:E1; [|discriminate]. destruct P as (q & Hq & R & P).
    assert (X : (exists o, nth_error (m_ops s1') i = Some o /\ o_ret o = None /\ (o_pc o = QAcq m f \/ o_pc o = QBody m f))
      \/ mv = XOp i /\ o_pc q = QBody m f).
    { clear - E1 Hq R P. rename i into i0, m into m0, f into f0. mu_cases E1; fu; try (left; exists q; eauto using snoc_old; fail).
      all: (destruct (Nat.eq_dec i i0) as [<-|N]; [|left; exists q; split; [rewrite lupd_other by auto|]; auto]).
      all: rewrite Hop in Hq; injection Hq as <-; rewrite Hpc in P.
      all: try (destruct P; discriminate).
      - destruct P as [P|P]; [injection P as <- <-|discriminate]. left. eexists; split; [apply (lupd_same _ _ _ _ Hop)|simpl; auto].
      - destruct P as [P|P]; [discriminate|injection P as <- <-]. auto.
      - destruct P as [P|P]; [discriminate|injection P as <- <-]. auto. }
    destruct X as [X|[-> Pq]].
    + apply (at_once_cons _ _ _ _ _ _ E1). apply IH; auto.
    + exists [], l2, s1, s1'. split; [reflexivity|]. split; [reflexivity|]. split; [exact E1|].
      clear IH P. simpl in E1. rewrite Hq in E1. unfold op_step in E1. rewrite Pq in E1.
      destruct (f (v_val (m_mut s1 m))) as [[v r]|] eqn:F; injection E1 as <-.
      * split.
        -- split; simpl; [rewrite fupd_same; reflexivity|]. intros m' N. rewrite fupd_other by auto. reflexivity.
        -- eapply after_write_exec with (i := i) (r := r) in E2; [|simpl; apply (lupd_same _ _ _ _ Hq)|split; simpl; auto].
           destruct E2 as (o' & Ho' & W & _). congruence.
      * split; [intros m'; reflexivity|].
        eapply after_write_exec with (i := i) (r := None) in E2; [|simpl; apply (lupd_same _ _ _ _ Hq)|split; simpl; auto].
        destruct E2 as (o' & Ho' & W & _). congruence.
Qed.

(** get, get_cloned, lock_ref. *)
Lemma hold_val s mv s' : (forall i o m v, nth_error (m_ops s) i = Some o -> o_pc o = QRHold m v -> v_val (m_mut s m) = v) -> lk s ->
  mu_step s mv = Some s' ->
  (forall i o m v, nth_error (m_ops s') i = Some o -> o_pc o = QRHold m v -> v_val (m_mut s' m) = v).
Proof.
  intros H L E j q n v0 Hj Hp.
  assert (R : nth_error (m_ops s) j = Some q -> In (WOp j) (v_r (m_mut s n))) by (intros X; eapply lk_r; eauto).
  assert (W : nth_error (m_ops s) j = Some q -> v_w (m_mut s n) = None).
  { intros X. destruct (v_w (m_mut s n)) eqn:W; auto. rewrite (lk_x s L n) in R by congruence. destruct (R X). }
  assert (B : nth_error (m_ops s) j = Some q -> n < m_born s).
  { intros X. eapply (lk_ms s L j q); eauto. rewrite Hp. simpl. auto. }
  mu_cases E; fu; frame; inv_ops; fu; try discriminate; eauto.
  all: try (pose proof (fun m => lk_w s L _ _ m Hop) as Lw; rewrite Hpc in Lw; simpl in Lw).
  all: try (specialize (W Hj)). all: try specialize (B Hj).
  all: try (fsplit; simpl; eauto; try lia; try (rewrite Lw in W by auto; discriminate); fail).
  injection Hp as <- <-. reflexivity.
Qed.

(** The instances of XWrite. *)
Lemma mu_set_once (d : A) l s h v m s1 l2 s2 o : exec mu_step (mu_init d) l = Some s ->
  lookup h (m_live s) = Some m -> mu_step s (XSet h v) = Some s1 -> exec mu_step s1 l2 = Some s2 ->
  nth_error (m_ops s2) (length (m_ops s)) = Some o -> o_done o = true ->
  at_once s1 l2 (length (m_ops s)) (fun a b => sets m v a b /\ o_ret o = None).
Proof. apply mu_write_once. Qed.

Lemma mu_replace_once (d : A) l s h v m s1 l2 s2 o : exec mu_step (mu_init d) l = Some s ->
  lookup h (m_live s) = Some m -> mu_step s (XReplace h v) = Some s1 -> exec mu_step s1 l2 = Some s2 ->
  nth_error (m_ops s2) (length (m_ops s)) = Some o -> o_done o = true ->
  at_once s1 l2 (length (m_ops s)) (fun a b => sets m v a b /\ o_ret o = Some (v_val (m_mut a m))).
Proof. apply mu_write_once. Qed.

Lemma mu_replace_with_once (d : A) l s h f m s1 l2 s2 o : exec mu_step (mu_init d) l = Some s ->
  lookup h (m_live s) = Some m -> mu_step s (XReplaceWith h f) = Some s1 -> exec mu_step s1 l2 = Some s2 ->
  nth_error (m_ops s2) (length (m_ops s)) = Some o -> o_done o = true ->
  at_once s1 l2 (length (m_ops s)) (fun a b => exists left v, f (v_val (m_mut a m)) = (left, v) /\ sets m v a b /\ o_ret o = Some left).
Proof.
  intros E Hl E1 E2 Ho Dn. refine (at_once_weaken _ _ _ _ _ _ (mu_write_once d l s h _ m s1 l2 s2 o E Hl E1 E2 Ho Dn)).
  intros a b. cbn beta iota. destruct (f (v_val (m_mut a m))) as [x y]. simpl. eauto.
Qed.

Lemma mu_set_if_once (d : A) l s h v f m s1 l2 s2 o : exec mu_step (mu_init d) l = Some s ->
  lookup h (m_live s) = Some m -> mu_step s (XSetIf h v f) = Some s1 -> exec mu_step s1 l2 = Some s2 ->
  nth_error (m_ops s2) (length (m_ops s)) = Some o -> o_done o = true ->
  at_once s1 l2 (length (m_ops s)) (fun a b => (if f (v_val (m_mut a m)) v then sets m v a b else keeps a b) /\ o_ret o = None).
Proof.
  intros E Hl E1 E2 Ho Dn. refine (at_once_weaken _ _ _ _ _ _ (mu_write_once d l s h _ m s1 l2 s2 o E Hl E1 E2 Ho Dn)).
  intros a b. cbn beta iota. destruct (f (v_val (m_mut a m)) v); auto.
Qed.

Lemma mu_set_neq_once (d : A) l s h v eqb m s1 l2 s2 o : (forall a b, eqb a b = true <-> a = b) -> exec mu_step (mu_init d) l = Some s ->
  lookup h (m_live s) = Some m -> mu_step s (XSetNeq h v eqb) = Some s1 -> exec mu_step s1 l2 = Some s2 ->
  nth_error (m_ops s2) (length (m_ops s)) = Some o -> o_done o = true ->
  at_once s1 l2 (length (m_ops s)) (fun a b => sets m v a b /\ o_ret o = None).
Proof.
  intros Q E Hl E1 E2 Ho Dn. refine (at_once_weaken _ _ _ _ _ _ (mu_set_if_once d l s h v (fun a b => negb (eqb a b)) m s1 l2 s2 o E Hl E1 E2 Ho Dn)).
  intros a b. cbn beta. destruct (eqb (v_val (m_mut a m)) v) eqn:X; intros [Y Z]; split; auto.
  apply Q in X. split; [rewrite Y; exact X|auto].
Qed.

Lemma mu_hold (d : A) l s i o m v : exec mu_step (mu_init d) l = Some s -> nth_error (m_ops s) i = Some o -> o_pc o = QRHold m v ->
  v_val (m_mut s m) = v.
Proof.
  intros E.
  assert (X : lk s /\ forall i o m v, nth_error (m_ops s) i = Some o -> o_pc o = QRHold m v -> v_val (m_mut s m) = v).
  { refine (exec_inv mu_step (fun x => lk x /\ forall i o m v, nth_error (m_ops x) i = Some o -> o_pc o = QRHold m v -> v_val (m_mut x m) = v) _ l _ s _ E).
    - intros x mv x' [X1 X2] Ex. split; [eapply lk_step; eauto|eapply hold_val; eauto].
    - split; [apply lk_init|]. intros [|?]; discriminate. }
  destruct X as [_ X]. eapply X.
Qed.

Theorem mu_read_once (d : A) l s m s1 l2 s2 o : exec mu_step (mu_init d) l = Some s ->
  mu_step s (XRead m) = Some s1 -> exec mu_step s1 l2 = Some s2 ->
  nth_error (m_ops s2) (length (m_ops s)) = Some o -> o_done o = true ->
  at_once s1 l2 (length (m_ops s)) (fun a b => keeps a b /\ o_ret o = Some (v_val (m_mut a m))).
Proof.
  intros E E1 E2 Ho Dn. clear E. set (i := length (m_ops s)) in *.
  assert (P : exists o, nth_error (m_ops s1) i = Some o /\ o_pc o = QRAcq m).
  { simpl in E1. destruct (m <? m_born s); [|discriminate]. injection E1 as <-. eexists. split; [apply snoc_new|]. simpl. auto. }
  clearbody i. clear E1. revert s1 P E2. induction l2 as [|mv l2 IH]; cbn [exec]; intros s1 P E2.
  - injection E2 as <-. exfalso. destruct P as (q & Hq & P). assert (q = o) by congruence. subst q. unfold o_done in Dn.
    rewrite P in Dn; discriminate.
  - destruct (mu_step s1 mv) as [s1'|] eqn:E1; [|discriminate]. destruct P as (q & Hq & P).
    assert (X : (exists o, nth_error (m_ops s1') i = Some o /\ o_pc o = QRAcq m) \/ mv = XOp i).
    { clear - E1 Hq P. rename i into i0, m into m0. mu_cases E1; fu; try (left; exists q; eauto using snoc_old; fail).
      all: (destruct (Nat.eq_dec i i0) as [<-|N]; [|left; exists q; split; [rewrite lupd_other by auto|]; auto]).
      all: rewrite Hop in Hq; injection Hq as <-; rewrite Hpc in P; try discriminate. auto. }
    destruct X as [X| ->].
    + apply (at_once_cons _ _ _ _ _ _ E1). apply IH; auto.
    + exists [], l2, s1, s1'. split; [reflexivity|]. split; [reflexivity|]. split; [exact E1|].
      clear IH. simpl in E1. rewrite Hq in E1. unfold op_step, acq_r in E1. rewrite P in E1.
      destruct (r_free (m_mut s1 m)); [|discriminate]. injection E1 as <-.
      split; [intros m'; simpl; apply (fupd_proj v_val); reflexivity|].
      assert (X : exists o', nth_error (m_ops s2) i = Some o' /\
        (o_pc o' = QRHold m (v_val (m_mut s1 m)) \/ o_pc o' = QRet /\ o_ret o' = Some (v_val (m_mut s1 m)))).
      { refine (exec_inv mu_step (fun x => exists o', nth_error (m_ops x) i = Some o' /\
          (o_pc o' = QRHold m (v_val (m_mut s1 m)) \/ o_pc o' = QRet /\ o_ret o' = Some (v_val (m_mut s1 m)))) _ l2 _ s2 _ E2).
        - intros x mv x' (q' & Hq' & X) Ex. clear - Hq' X Ex. set (v0 := v_val (m_mut s1 m)) in *. clearbody v0. rename i into i0, m into m0.
          mu_cases Ex; fu; try (exists q'; eauto using snoc_old; fail).
          all: (destruct (Nat.eq_dec i i0) as [<-|N]; [|exists q'; split; [rewrite lupd_other by auto|]; auto]).
          all: rewrite Hop in Hq'; injection Hq' as <-; rewrite Hpc in X; try (destruct X as [X|[X _]]; discriminate).
          destruct X as [X|[X _]]; [injection X as <- <-|discriminate].
          eexists; split; [apply (lupd_same _ _ _ _ Hop)|simpl; auto].
        - eexists; split; [simpl; apply (lupd_same _ _ _ _ Hq)|simpl; auto]. }
      destruct X as (o' & Ho' & X). assert (o' = o) by congruence. subst o'. unfold o_done in Dn.
      destruct X as [X|[_ X]]; auto. rewrite X in Dn. discriminate.
Qed.

(** Nothing else changes a value. *)
Theorem mu_val_frame s mv s' m : mu_step s mv = Some s' -> m < m_born s -> v_val (m_mut s' m) <> v_val (m_mut s m) ->
  exists i o, nth_error (m_ops s) i = Some o /\ (mv = XOp i /\ (exists f, o_pc o = QBody m f) \/
    mv = XOp i /\ (exists a b, o_pc o = QSBody a b /\ (m = a \/ m = b)) \/ exists b v, mv = XGuard i v /\ o_pc o = QGuard m b).
Proof.
  intros E B N. rename m into n. mu_cases E; fu; try (revert N; frame; congruence).
  all: try (rewrite fupd_other in N by lia; congruence).
  - exists i, o. split; auto. right. right. revert N. fsplit; simpl; [|congruence]. intros _. eauto.
  - exists i, o. split; auto. left. split; auto. revert N. fsplit; simpl; [|congruence]. intros _. eauto.
  - exists i, o. split; auto. right. left. split; auto. exists a, b. split; auto. 
    destruct (Nat.eq_dec n a); auto. destruct (Nat.eq_dec n b); auto. rewrite !fupd_other in N by auto. congruence.
Qed.

(** While a guard of lock_mut exists, only it changes the value, and nobody reads it. *)
Theorem mu_guard_exclusive (d : A) l s i o m b mv s' : exec mu_step (mu_init d) l = Some s ->
  nth_error (m_ops s) i = Some o -> o_pc o = QGuard m b -> mu_step s mv = Some s' ->
  v_val (m_mut s' m) = v_val (m_mut s m) \/ exists v, mv = XGuard i v.
Proof.
  intros E Ho P E1. pose proof (i_lk s (inv_exec d l s E)) as L.
  pose proof (lk_w s L i o m Ho) as W. rewrite P in W. specialize (W (or_introl eq_refl)).
  assert (B : m < m_born s) by (apply (lk_ms s L i o m Ho); rewrite P; simpl; auto).
  clear E. rename i into i0, o into o0, b into b0, m into n.
  assert (X : forall j q, nth_error (m_ops s) j = Some q -> In n (op_w (o_pc q)) -> j = i0).
  { intros j q Hj Hi. pose proof (lk_w s L j q n Hj Hi). congruence. }
  mu_cases E1; fu; frame; auto.
  all: try (left; rewrite fupd_other by lia; reflexivity).
  - fsplit; simpl; auto. right. exists v. f_equal. eapply X; eauto. rewrite Hpc. simpl. auto.
  - fsplit; simpl; auto. assert (i = i0) by (eapply X; eauto; rewrite Hpc; simpl; auto). congruence.
  - destruct (Nat.eq_dec n a) as [e|N1]; [|destruct (Nat.eq_dec n b) as [e|N2]; [|left; rewrite !fupd_other by auto; reflexivity]].
    all: assert (i = i0) by (eapply X; eauto; rewrite Hpc; simpl; auto); congruence.
Qed.

Theorem mu_guard_alone (d : A) l s i o m b j q : exec mu_step (mu_init d) l = Some s ->
  nth_error (m_ops s) i = Some o -> o_pc o = QGuard m b -> nth_error (m_ops s) j = Some q ->
  (exists v, o_pc q = QRHold m v) \/ (exists b', o_pc q = QGuard m b') -> j = i.
Proof.
  intros E Ho P Hq D. pose proof (i_lk s (inv_exec d l s E)) as L.
  pose proof (lk_w s L i o m Ho) as W. rewrite P in W. specialize (W (or_introl eq_refl)).
  destruct D as [[v D]|[b' D]].
  - pose proof (lk_r s L j q m v Hq D) as R. rewrite (lk_x s L m) in R by congruence. destruct R.
  - pose proof (lk_w s L j q m Hq) as W'. rewrite D in W'. specialize (W' (or_introl eq_refl)). congruence.
Qed.

(** ** C64 *)

(** Signal [k] is not going to be registered any more. *)
Definition past s (k : nat) : Prop := k < m_nsig s /\ match g_pc (m_sig s k) with GNew | GPushAcq | GPushDo => False | _ => True end.
(** [m] has no trace of it. *)
Definition absent s (m k : nat) : Prop := ~ In k (v_sigs (m_mut s m)) /\
  forall i o c fl todo kept st, nth_error (m_ops s) i = Some o -> o_pc o = QNotify c fl m todo kept st -> ~ In k (todo ++ kept).

Lemma past_step s mv s' k : mu_step s mv = Some s' -> past s k -> past s' k.
Proof.
  intros E [B P]. rename k into k0. unfold past. mu_cases E; fu; frame; auto.
  all: fsplit; simpl; try (split; [lia|]); auto; try lia.
  all: rewrite ?Hg in *; auto.
Qed.

Lemma absent_step s mv s' m k : lk s -> mu_step s mv = Some s' -> past s k -> absent s m k -> absent s' m k.
Proof.
  intros L E [B P] [H1 H2]. rename k into k0, m into n.
  assert (U : n < m_born s \/ m_born s <= n) by lia.
  split.
  - mu_cases E; fu; frame; auto.
    all: try (fsplit; simpl; auto; fail).
    all: try (pose proof (fun e => H2 _ _ _ _ _ _ _ Hop (eq_trans Hpc e)) as X).
    all: try (unfold fupd at 1; destruct (Nat.eqb_spec n m); subst; simpl; auto; fail).
    all: try (fsplit; simpl; auto; try (apply (H2 _ _ _ _ _ _ _ Hop Hpc)); fail).
    fsplit; simpl; auto. intros X. apply in_app_or in X. destruct X as [X|[<-|[]]]; [auto|]. rewrite Hg in P. exact P.
  - intros j q c0 fl0 todo0 kept0 st0 Hq Hp.
    mu_cases E; fu; inv_ops; fu; try discriminate; eauto.
    all: try (injection Hp as <- <- <- <- <- <-); try (subst; rewrite ?app_nil_r; auto; fail).
    all: try (exact (H2 _ _ _ _ _ _ _ Hop Hpc)).
    all: try (pose proof (H2 _ _ _ _ _ _ _ Hop Hpc) as X; rewrite ?in_app_iff in *; simpl in *; tauto).
    rewrite app_nil_r, <- Heql. auto.
Qed.

(** Once the list of [m] has been swept. *)
Lemma absent_now s i o m k : lk s -> nth_error (m_ops s) i = Some o -> In m (op_w (o_pc o)) ->
  match o_pc o with QNotify _ _ m' _ _ _ => m' <> m | _ => True end -> ~ In k (v_sigs (m_mut s m)) -> absent s m k.
Proof.
  intros L Ho Hm Hp H. split; auto. intros j q c fl todo kept st Hq Hpq.
  pose proof (lk_w s L _ _ _ Ho Hm) as W1. pose proof (lk_w s L j q m Hq) as W2. rewrite Hpq in W2. specialize (W2 (or_introl eq_refl)).
  assert (j = i) by congruence. subst j. assert (q = o) by congruence. subst q. rewrite Hpq in Hp. congruence.
Qed.

(** A call that is going to sweep, or is just sweeping, the list of [m], on which [k] is dead. *)
Definition sweeps (m k : nat) (p : opc A) : Prop :=
  bound m p \/
  match p with
  | QGuard m' b => m' = m /\ b = true
  | QNotify c _ m' todo kept st =>
      m' = m /\ ~ In k kept /\ (st = NUp \/ exists k' t, todo = k' :: t /\ k' <> k) \/ c = KSwap m /\ m' <> m
  | _ => False
  end.

Definition swept (i m k : nat) s : Prop := k < m_nsig s /\ g_pc (m_sig s k) = GGone /\
  ((exists o, nth_error (m_ops s) i = Some o /\ sweeps m k (o_pc o)) \/ absent s m k).

Lemma swept_step i m k s mv s' : inv s -> mu_step s mv = Some s' -> swept i m k s -> swept i m k s'.
Proof.
  intros I E (B & G & D). pose proof (i_lk s I) as L. pose proof (lk_step s mv s' L E) as L'.
  split; [apply (proj2 (mut_of_step _ _ _ _ E B))|]. split; [eapply gone_step; eauto|].
  destruct D as [(q & Hq & D)|D]; [|right; apply (absent_step s mv s' m k L E); auto; split; auto; rewrite G; exact Logic.I].
  pose proof (fun Hx => conj Hx D : nth_error (m_ops s') i = Some q /\ _) as K.
  pose proof (fun o => absent_now s' i o m k L') as N. rename i into i0, m into m0, k into k0.
  mu_cases E; fu.
  all: try (left; exists q; apply K; try apply snoc_old; assumption).
  all: (destruct (Nat.eq_dec i i0) as [<-|Ne]; [|left; exists q; apply K; rewrite lupd_other by auto; assumption]).
  all: assert (q = o) by congruence; subst q; rewrite Hpc in D; unfold sweeps in D; simpl in D.
  all: try (destruct D as [D|D]; contradiction).
  all: specialize (N _ (lupd_same _ _ _ _ Hop)); cbn [o_pc op_w m_mut m_ops] in N.
  all: pose proof (lk_nodup s L _ _ Hop) as Ld; rewrite Hpc in Ld; simpl in Ld.
  all: try solve [left; eexists; split; [apply (lupd_same _ _ _ _ Hop)|unfold sweeps; simpl; tauto]].
  all: try solve [exfalso; destruct D as [[_ D]|[]]; eapply D; eauto].
  all: try solve [exfalso; destruct D as [[]|[_ D]]; discriminate].
  - left; eexists; split; [apply (lupd_same _ _ _ _ Hop)|unfold sweeps; simpl]. right.
    inversion Ld as [|? ? Na _]. destruct D as [[->| ->]|[]]; [left; auto|right]. split; auto. intros ->. apply Na. simpl. auto.
  - right. destruct D as [[]|[(-> & D & _)|[D _]]]; [|discriminate]. apply N; simpl; auto. rewrite fupd_same. exact D.
  - destruct D as [[]|[(-> & D & _)|[D Nm]]].
    + right. inversion Ld as [|? ? Na _]. apply N; [simpl; auto|intros ->; apply Na; simpl; auto|]. rewrite fupd_same. exact D.
    + injection D as ->. left; eexists; split; [apply (lupd_same _ _ _ _ Hop)|unfold sweeps; simpl].
      right. left. split; auto.
  - right. destruct D as [[]|[(-> & D & _)|[D _]]]; [|discriminate]. apply N; simpl; auto. rewrite fupd_same. exact D.
  - right. destruct D as [[]|[(-> & D & _)|[D _]]]; [|discriminate]. apply N; simpl; auto. rewrite fupd_same. simpl. auto.
  - left; eexists; split; [apply (lupd_same _ _ _ _ Hop)|unfold sweeps; simpl]. right.
    destruct D as [[]|[(-> & D & _)|D]]; [left|auto]. split; auto. split; auto. right. exists k, todo. split; auto.
    intros ->. unfold g_alive in Hal. rewrite G in Hal. discriminate.
  - left; eexists; split; [apply (lupd_same _ _ _ _ Hop)|unfold sweeps; simpl]. right.
    destruct D as [[]|[(-> & D & D')|D]]; [left|auto]. split; auto. split; auto. right. destruct D' as [D'|D']; [discriminate|exact D'].
  - left; eexists; split; [apply (lupd_same _ _ _ _ Hop)|unfold sweeps; simpl]. right.
    destruct D as [[]|[(-> & D & D')|D]]; [left|auto]. split; auto. split; auto. right. destruct D' as [D'|D']; [discriminate|exact D'].
  - left; eexists; split; [apply (lupd_same _ _ _ _ Hop)|unfold sweeps; simpl]. right.
    destruct D as [[]|[(-> & D & D')|D]]; [left|auto]. split; auto. split; auto. right. destruct D' as [D'|D']; [discriminate|exact D'].
  - left; eexists; split; [apply (lupd_same _ _ _ _ Hop)|unfold sweeps; simpl]. right.
    destruct D as [[]|[(-> & D & D')|D]]; [left|auto]. split; auto. split; auto. right. destruct D' as [D'|D']; [discriminate|exact D'].
  - left; eexists; split; [apply (lupd_same _ _ _ _ Hop)|unfold sweeps; simpl]. right.
    destruct D as [[]|[(-> & D & D')|D]]; [left|auto]. split; auto. split; auto. destruct D' as [D'|(k' & t & [= <- <-] & D')]; [discriminate|].
    rewrite in_app_iff. simpl. tauto.
  - left; eexists; split; [apply (lupd_same _ _ _ _ Hop)|unfold sweeps; simpl]. right.
    destruct D as [[]|[(-> & D & D')|D]]; [left|auto]. split; auto. split; auto. destruct D' as [D'|(k' & t & [= <- <-] & D')]; [discriminate|].
    rewrite in_app_iff. simpl. tauto.
Qed.

Lemma swept_exec i m k s l s' o : inv s -> exec mu_step s l = Some s' -> swept i m k s -> nth_error (m_ops s') i = Some o ->
  o_done o = true -> ~ In k (v_sigs (m_mut s' m)).
Proof.
  intros I E C Ho Dn.
  assert (X : inv s' /\ swept i m k s').
  { refine (exec_inv mu_step (fun x => inv x /\ swept i m k x) _ l s s' _ E); [|auto].
    intros x mv x' [X1 X2] Ex. split; [eapply inv_step|eapply swept_step]; eauto. }
  destruct X as [_ (_ & _ & [(q & Hq & X)|[X _]])]; [|exact X].
  assert (q = o) by congruence. subst q. unfold o_done in Dn. unfold sweeps in X. destruct (o_pc o); try discriminate.
  simpl in X. destruct X as [[]|[]].
Qed.

Theorem mu_write_forgets (d : A) l s h f m s1 l2 s2 o k : exec mu_step (mu_init d) l = Some s ->
  lookup h (m_live s) = Some m -> (forall v, f v <> None) -> mu_step s (XWrite h f) = Some s1 -> exec mu_step s1 l2 = Some s2 ->
  nth_error (m_ops s2) (length (m_ops s)) = Some o -> o_done o = true ->
  k < m_nsig s -> g_pc (m_sig s k) = GGone -> ~ In k (v_sigs (m_mut s2 m)).
Proof.
  intros E Hl F E1 E2 Ho Dn B G. pose proof (inv_exec d l s E) as I.
  eapply swept_exec; [eapply inv_step; [exact I|exact E1]|exact E2| |exact Ho|exact Dn].
  simpl in E1. rewrite Hl in E1. injection E1 as <-. split; auto. split; auto. left. eexists. split; [apply snoc_new|]. left. simpl. auto.
Qed.

Theorem mu_swap_forgets (d : A) l s h h' a b s1 l2 s2 o k : exec mu_step (mu_init d) l = Some s ->
  lookup h (m_live s) = Some a -> lookup h' (m_live s) = Some b -> mu_step s (XSwap h h') = Some s1 -> exec mu_step s1 l2 = Some s2 ->
  nth_error (m_ops s2) (length (m_ops s)) = Some o -> o_done o = true ->
  k < m_nsig s -> g_pc (m_sig s k) = GGone -> ~ In k (v_sigs (m_mut s2 a)) /\ ~ In k (v_sigs (m_mut s2 b)).
Proof.
  intros E Ha Hb E1 E2 Ho Dn B G. pose proof (inv_exec d l s E) as I.
  split; (eapply swept_exec; [eapply inv_step; [exact I|exact E1]|exact E2| |exact Ho|exact Dn];
    simpl in E1; rewrite Ha, Hb in E1; injection E1 as <-; split; auto; split; auto; left; eexists; split; [apply snoc_new|]; left; simpl; auto).
Qed.

Theorem mu_guard_forgets (d : A) l s i o m b v s1 l2 s2 o2 k : exec mu_step (mu_init d) l = Some s ->
  nth_error (m_ops s) i = Some o -> o_pc o = QGuard m b -> mu_step s (XGuard i v) = Some s1 -> exec mu_step s1 l2 = Some s2 ->
  nth_error (m_ops s2) i = Some o2 -> o_done o2 = true ->
  k < m_nsig s -> g_pc (m_sig s k) = GGone -> ~ In k (v_sigs (m_mut s2 m)).
Proof.
  intros E Hi Hp E1 E2 Ho Dn B G. pose proof (inv_exec d l s E) as I.
  eapply swept_exec; [eapply inv_step; [exact I|exact E1]|exact E2| |exact Ho|exact Dn].
  simpl in E1. rewrite Hi, Hp in E1. injection E1 as <-. split; auto. split; auto. left. eexists. split; [simpl; apply (lupd_same _ _ _ _ Hi)|].
  right. simpl. auto.
Qed.

(** The last drop. *)
Definition cleared (m k : nat) s : Prop := past s k /\
  (0 < v_senders (m_mut s m) \/ (exists i o, nth_error (m_ops s) i = Some o /\ last_dropper m (o_pc o)) \/ absent s m k).

Lemma cleared_step m k s mv s' : inv s -> mu_step s mv = Some s' -> cleared m k s -> cleared m k s'.
Proof.
  intros I E (P & D). pose proof (i_lk s I) as L. pose proof (lk_step s mv s' L E) as L'.
  split; [eapply past_step; eauto|].
  destruct D as [D|[(j & q & Hq & D)|D]]; [| |right; right; apply (absent_step s mv s' m k L E); auto].
  - rename m into m0, k into k0. mu_cases E; fu; frame; auto.
    all: fsplit; simpl; auto; try lia.
    all: right; left; eexists i, _; (split; [apply (lupd_same _ _ _ _ Hop)|reflexivity]).
  - pose proof (fun o => absent_now s' j o m k L') as N. rename m into m0, k into k0.
    pose proof (fun Hx => ex_intro _ j (ex_intro _ q (conj Hx D)) : exists i o, nth_error (m_ops s') i = Some o /\ _) as K.
    mu_cases E; fu.
    all: try (right; left; apply K; try apply snoc_old; assumption).
    all: (destruct (Nat.eq_dec i j) as [<-|Ne]; [|right; left; apply K; rewrite lupd_other by auto; assumption]).
    all: assert (q = o) by congruence; subst q; rewrite Hpc in D; simpl in D; try contradiction; try subst.
    all: try (destruct c; try contradiction; subst).
    all: specialize (N _ (lupd_same _ _ _ _ Hop)); cbn [o_pc op_w m_mut m_ops] in N.
    all: try solve [right; left; eexists i, _; (split; [apply (lupd_same _ _ _ _ Hop)|reflexivity])].
    + right. right. apply N; simpl; auto. rewrite Heql. auto.
    + right. right. apply N; simpl; auto. rewrite fupd_same. auto.
Qed.

Theorem mu_drop_forgets (d : A) l s h m l2 s2 k : exec mu_step (mu_init d) l = Some s ->
  lookup h (m_live s) = Some m -> exec mu_step s l2 = Some s2 -> mu_quiet s2 -> all_gone s2 m ->
  k < m_nsig s -> match g_pc (m_sig s k) with GNew | GPushAcq | GPushDo => False | _ => True end ->
  ~ In k (v_sigs (m_mut s2 m)).
Proof.
  intros E Hl E2 Q G B P. pose proof (inv_exec d l s E) as I.
  assert (X : inv s2 /\ cleared m k s2).
  { refine (exec_inv mu_step (fun x => inv x /\ cleared m k x) _ l2 s s2 _ E2).
    - intros x mv x' [X1 X2] Ex. split; [eapply inv_step|eapply cleared_step]; eauto.
    - split; auto. split; [split; auto|]. left. rewrite (hd_cnt s (i_hd s I)). apply lookup_In in Hl.
      apply In_nth_error in Hl. destruct Hl as [n Hn].
      pose proof (count_pos (fun e => snd e =? m) (m_live s) n (h, m) Hn (Nat.eqb_refl m)). lia. }
  destruct X as [I2 (_ & [X|[(i & o & Ho & X)|[X _]]])]; auto.
  - rewrite (gone_senders s2 m (i_hd s2 I2) Q G) in X. lia.
  - rewrite (quiet_pc s2 i o Q Ho) in X. contradiction.
Qed.

(** No signal is registered twice, so the list is no longer than the number of signals of [m]. *)
Theorem mu_registered_once (d : A) l s m : exec mu_step (mu_init d) l = Some s -> NoDup (v_sigs (m_mut s m)).
Proof.
  intros E. refine (nd_sigs s _ m). refine (proj2 (exec_inv mu_step (fun x => lk x /\ nd x) _ l _ s _ E)).
  - intros x mv x' [X1 X2] Ex. split; [eapply lk_step|eapply nd_step]; eauto.
  - split; [apply lk_init|apply nd_init].
Qed.
End Mu.
