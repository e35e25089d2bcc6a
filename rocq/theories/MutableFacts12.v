(** What Mutable.v guarantees: C49, termination and exchange. *)
From Verif Require Import Base Spec BaseFacts Conc Mutable MutableFacts MutableFacts2 MutableFacts3 MutableFacts4 MutableFacts5 MutableFacts6 MutableFacts7 MutableFacts11.

Section Mu.
Context {A : Type}.
Implicit Types (s : mu_st A).

(** ** No signal is registered twice *)
Record nd s : Prop := {
  nd_sigs : forall m, NoDup (v_sigs (m_mut s m));
  nd_todo : forall i o c fl m todo kept st, nth_error (m_ops s) i = Some o -> o_pc o = QNotify c fl m todo kept st -> NoDup (todo ++ kept);
  nd_new : forall k m, In k (v_sigs (m_mut s m)) -> match g_pc (m_sig s k) with GNew | GPushAcq | GPushDo => False | _ => True end;
  nd_new' : forall i o c fl m todo kept st k, nth_error (m_ops s) i = Some o -> o_pc o = QNotify c fl m todo kept st -> In k (todo ++ kept) ->
    match g_pc (m_sig s k) with GNew | GPushAcq | GPushDo => False | _ => True end }.

Lemma nd_init (d : A) : nd (mu_init d).
Proof. constructor; simpl; intros; try constructor; try contradiction; destruct i; discriminate. Qed.

Ltac nd_solve := try solve [eapply nd_sigs; eauto | eapply nd_todo; eauto | eapply nd_new; eauto | eapply nd_new'; eauto
  | discriminate | contradiction | constructor | auto].

Lemma nd_step s mv s' : lk s -> nd s -> mu_step s mv = Some s' -> nd s'.
Proof.
  intros L N E. mu_cases E; bools; fu.
  all: try (pose proof (fun k => nd_new' s N _ _ _ _ _ _ _ _ k Hop Hpc) as Nw).
  all: try (pose proof (nd_todo s N _ _ _ _ _ _ _ _ Hop Hpc) as Nt).
  all: constructor; intros; fu; inv_ops; fu; frame; nd_solve.
  all: fsplit; simpl in *; nd_solve.
  all: try match goal with H : QNotify _ _ _ _ _ _ = QNotify _ _ _ _ _ _ |- _ => injection H as ? ? ? ? ? ?; subst end.
  all: rewrite ?app_nil_r in *; nd_solve.
  all: try solve [pose proof (nd_new s N k _ ltac:(eassumption)) as X; rewrite Hg in X; auto].
  all: try solve [pose proof (nd_new' s N _ _ _ _ _ _ _ _ k ltac:(eassumption) ltac:(eassumption) ltac:(eassumption)) as X; rewrite Hg in X; auto].
  - rewrite <- Heql. apply (nd_sigs s N).
  - apply (nd_new s N k m0). rewrite Heql. assumption.
  - inversion Nt. assumption.
  - apply Nw. auto.
  - inversion Nt as [|? ? X1 X2]; subst. rewrite app_assoc. apply NoDup_app_snoc; auto.
  - apply Nw. rewrite !in_app_iff in *. simpl in *. tauto.
  - inversion Nt as [|? ? X1 X2]; subst. rewrite app_assoc. apply NoDup_app_snoc; auto.
  - apply Nw. rewrite !in_app_iff in *. simpl in *. tauto.
  - destruct (lk_sigs s L _ _ H). lia.
  - pose proof (lk_todo s L _ _ (m_nsig s) H) as X. rewrite H0 in X. destruct (X H1). lia.
  - apply NoDup_app_snoc; [apply (nd_sigs s N)|]. intros X. pose proof (nd_new s N _ _ X) as Y. rewrite Hg in Y. exact Y.
  - apply in_app_or in H. destruct H as [H|[<-|[]]]; [eapply (nd_new s N); eauto|contradiction].
Qed.

(** ** Termination *)
Definition left_sig (g : sig A) : nat :=
  match g_pc g with
  | GIdle | GGone => 0 | GRRel _ | GSet | GPushDo => 1 | GRead | GLoad | GPushAcq => 2 | GRAcq | GNew => 3 | GSwap => 4
  end.
Definition stage (st : nstage) : nat := match st with NUp => 0 | NLock => 1 | NStore => 2 | NTake => 3 | NWake _ => 4 end.
Definition left_op (n : nat) (p : opc A) : nat :=
  match p with
  | QRet => 0
  | QRel ms => S (length ms)
  | QNotify c _ _ todo _ st => (5 * length todo - stage st) +
      match c with KRel | KDrop => 3 | KSwapEnd _ => 4 | KSwap _ => 5 * n + 5 end
  | QDropChk _ | QGuard _ _ | QBody _ _ => 5 * n + 4
  | QDropAcq _ | QGAcq _ | QAcq _ _ => 5 * n + 5
  | QDropSub _ => 5 * n + 6
  | QClone _ | QRHold _ _ => 1
  | QRAcq _ => 2
  | QSBody _ _ => 10 * n + 6
  | QSAcq2 _ _ => 10 * n + 7
  | QSAcq1 _ _ => 10 * n + 8
  end.
Definition sum (l : list nat) : nat := fold_right Nat.add 0 l.
Definition todo_steps s : nat :=
  sum (map (fun o => left_op (m_nsig s) (o_pc o)) (m_ops s)) + sum (map (fun k => left_sig (m_sig s k)) (seq 0 (m_nsig s))).

Lemma sum_lupd {B} (f : B -> nat) l i x y : nth_error l i = Some x -> f y < f x -> sum (map f (lupd i y l)) < sum (map f l).
Proof.
  revert i. induction l as [|h t IH]; intros [|i] H L; simpl in *; try discriminate.
  - injection H as ->. unfold sum; simpl. lia.
  - specialize (IH i H L). unfold sum in *; simpl in *. lia.
Qed.
Lemma sum_le {B} (f g : B -> nat) l : (forall x, In x l -> f x <= g x) -> sum (map f l) <= sum (map g l).
Proof.
  induction l as [|h t IH]; simpl; intros H; auto. pose proof (H h (or_introl eq_refl)). specialize (IH (fun x Hx => H x (or_intror Hx))).
  unfold sum in *; simpl in *. lia.
Qed.
Lemma sum_lt {B} (f g : B -> nat) l y : (forall x, In x l -> f x <= g x) -> In y l -> f y < g y -> sum (map f l) < sum (map g l).
Proof.
  induction l as [|h t IH]; simpl; intros H Hi L; [contradiction|].
  pose proof (H h (or_introl eq_refl)). pose proof (sum_le f g t (fun x Hx => H x (or_intror Hx))). unfold sum in *. simpl in *.
  destruct Hi as [->|Hi]; [lia|]. specialize (IH (fun x Hx => H x (or_intror Hx)) Hi L). lia.
Qed.

Lemma sigs_le s m : lk s -> nd s -> length (v_sigs (m_mut s m)) <= m_nsig s.
Proof.
  intros L N. rewrite <- (seq_length (m_nsig s) 0). apply NoDup_incl_length; [apply (nd_sigs s N)|].
  intros k Hk. destruct (lk_sigs s L _ _ Hk). apply in_seq. lia.
Qed.

Lemma todo_step s mv s' : lk s -> nd s -> own mv -> mu_step s mv = Some s' -> todo_steps s' < todo_steps s.
Proof.
  intros L N O E. pose proof (fun m => sigs_le s m L N) as Sl. unfold todo_steps.
  mu_cases E; simpl in O; try contradiction; fu.
  all: try (apply Nat.add_lt_le_mono; [apply (sum_lupd _ _ _ _ _ Hop); simpl; rewrite Hpc; simpl|apply sum_le; intros j Hj; frame; auto]).
  all: try (rewrite ?app_length; simpl; try lia).
  all: try (pose proof (Sl m); try pose proof (Sl a); try pose proof (Sl b); simpl in *; rewrite ?Heql in *; simpl in *; lia).
  { pose proof (Sl a). lia. }
  all: apply Nat.add_lt_mono_l; bools; apply (sum_lt _ _ _ k);
    [intros j _; unfold fupd; destruct (Nat.eqb_spec j k) as [->|Nj]; auto; unfold left_sig; simpl; rewrite Hg; lia
    |apply in_seq; lia|rewrite fupd_same; unfold left_sig; simpl; rewrite Hg; lia].
Qed.

Theorem mu_terminates rank (d : A) l s l2 s2 : exec mu_step (mu_init d) l = Some s -> ordered rank s ->
  Forall own l2 -> exec mu_step s l2 = Some s2 ->
  length l2 <= todo_steps s /\ ((mu_quiet s2 /\ sigs_idle s2) \/ exists mv s3, own mv /\ mu_step s2 mv = Some s3).
Proof.
  intros E R F E2. pose proof (inv_exec d l s E) as I.
  assert (N : nd s).
  { refine (proj2 (exec_inv mu_step (fun x => lk x /\ nd x) _ l _ s _ E)).
    - intros x mv x' [X1 X2] Ex. split; [eapply lk_step|eapply nd_step]; eauto.
    - split; [apply lk_init|apply nd_init]. }
  clear E. revert s I N R E2. induction F as [|mv l2 O F IH]; cbn [exec]; intros s I N R E2.
  - injection E2 as <-. split; [simpl; lia|]. destruct (mu_progress rank s I R) as [X|X]; auto.
  - destruct (mu_step s mv) as [s1|] eqn:E1; [|discriminate].
    destruct (own_step rank s mv s1 O E1 R) as (R1 & _). pose proof (todo_step s mv s1 (i_lk s I) N O E1).
    destruct (IH s1) as [Y1 Y2]; auto; [eapply inv_step; eauto|eapply nd_step; eauto; apply i_lk; auto|].
    split; auto. simpl. lia.
Qed.

(** In particular if at most one swap is taking its locks, and not of one Mutable with itself. *)
Corollary mu_terminates_single (d : A) l s i l2 s2 : exec mu_step (mu_init d) l = Some s ->
  (forall j o a b, nth_error (m_ops s) j = Some o -> o_pc o = QSAcq1 a b \/ o_pc o = QSAcq2 a b -> j = i /\ a <> b) ->
  Forall own l2 -> exec mu_step s l2 = Some s2 ->
  length l2 <= todo_steps s /\ ((mu_quiet s2 /\ sigs_idle s2) \/ exists mv s3, own mv /\ mu_step s2 mv = Some s3).
Proof.
  intros E H F E2.
  assert (X : exists a0, forall o a b, In o (m_ops s) -> o_pc o = QSAcq1 a b \/ o_pc o = QSAcq2 a b -> a = a0 /\ a <> b).
  { destruct (nth_error (m_ops s) i) as [o|] eqn:Ho.
    - assert (Y : (exists a b, o_pc o = QSAcq1 a b \/ o_pc o = QSAcq2 a b) \/ forall a b, ~ (o_pc o = QSAcq1 a b \/ o_pc o = QSAcq2 a b)).
      { destruct (o_pc o); try (right; intros ? ? [?|?]; discriminate); left; eauto. }
      destruct Y as [(a & b & Y)|Y].
      + exists a. intros q a' b' Hq Hp. apply In_nth_error in Hq. destruct Hq as [j Hj]. destruct (H j q a' b' Hj Hp) as [-> D].
        assert (q = o) by congruence. subst q. split; auto. destruct Y as [Y|Y], Hp as [Z|Z]; congruence.
      + exists 0. intros q a' b' Hq Hp. apply In_nth_error in Hq. destruct Hq as [j Hj]. destruct (H j q a' b' Hj Hp) as [-> D].
        assert (q = o) by congruence. subst q. destruct (Y a' b' Hp).
    - exists 0. intros q a' b' Hq Hp. apply In_nth_error in Hq. destruct Hq as [j Hj]. destruct (H j q a' b' Hj Hp) as [-> D]. congruence. }
  destruct X as [a0 X]. eapply (mu_terminates (fun x => if x =? a0 then 0 else 1)); eauto.
  intros o a b Ho Hp. destruct (X o a b Ho Hp) as [-> D]. rewrite Nat.eqb_refl. destruct (Nat.eqb_spec b a0); [congruence|lia].
Qed.

(** ** The exchange *)
Theorem mu_exchange (d : A) l s h h' a b s1 l2 s2 o : exec mu_step (mu_init d) l = Some s ->
  lookup h (m_live s) = Some a -> lookup h' (m_live s) = Some b -> mu_step s (XSwap h h') = Some s1 ->
  exec mu_step s1 l2 = Some s2 -> nth_error (m_ops s2) (length (m_ops s)) = Some o -> o_done o = true ->
  a <> b /\ exists l3 l4 s3 s4, l2 = l3 ++ XOp (length (m_ops s)) :: l4 /\ exec mu_step s1 l3 = Some s3
    /\ mu_step s3 (XOp (length (m_ops s))) = Some s4
    /\ v_val (m_mut s4 a) = v_val (m_mut s3 b) /\ v_val (m_mut s4 b) = v_val (m_mut s3 a)
    /\ forall m, m <> a -> m <> b -> v_val (m_mut s4 m) = v_val (m_mut s3 m).
Proof.
  intros E Ha Hb E1 E2 Ho Dn. pose proof (inv_exec d l s E) as I. set (i := length (m_ops s)) in *.
  assert (I1 : inv s1) by (eapply inv_step; eauto).
  assert (P : exists o, nth_error (m_ops s1) i = Some o /\ match o_pc o with QSAcq1 x y | QSAcq2 x y | QSBody x y => x = a /\ y = b | _ => False end).
  { simpl in E1. rewrite Ha, Hb in E1. injection E1 as <-. eexists. split; [apply snoc_new|]. simpl. auto. }
  clearbody i. clear E E1 I Ha Hb. revert s1 I1 P E2. induction l2 as [|mv l2 IH]; cbn [exec]; intros s1 I1 P E2.
  - injection E2 as <-. exfalso. destruct P as (q & Hq & P). assert (q = o) by congruence. subst q. unfold o_done in Dn.
    destruct (o_pc o); try contradiction; discriminate.
  - destruct (mu_step s1 mv) as [s1'|] eqn:E1; [|discriminate]. destruct P as (q & Hq & P).
    assert (X : (exists o, nth_error (m_ops s1') i = Some o /\ match o_pc o with QSAcq1 x y | QSAcq2 x y | QSBody x y => x = a /\ y = b | _ => False end)
      \/ mv = XOp i /\ o_pc q = QSBody a b).
    { clear - E1 Hq P. rename i into i0, a into a0, b into b0. mu_cases E1; fu; eauto using snoc_old.
      all: (destruct (Nat.eq_dec i i0) as [<-|N]; [|left; exists q; split; [rewrite lupd_other by auto|]; auto]).
      all: rewrite Hop in Hq; injection Hq as <-; rewrite Hpc in P; try contradiction.
      1,2: left; eexists; split; [apply (lupd_same _ _ _ _ Hop)|simpl; auto].
      right. destruct P as [-> ->]. auto. }
    destruct X as [X|[-> Pq]].
    + destruct (IH s1') as (D & l3 & l4 & s3 & s4 & -> & X1 & X2); auto; [eapply inv_step; eauto|].
      split; auto. exists (mv :: l3), l4, s3, s4. split; [reflexivity|]. split; [cbn [exec]; rewrite E1; exact X1|exact X2].
    + assert (D : a <> b).
      { pose proof (lk_nodup s1 (i_lk s1 I1) i q Hq) as X. rewrite Pq in X. inversion X as [|? ? Y]. intros ->. apply Y. simpl. auto. }
      split; auto. exists [], l2, s1, s1'. split; [reflexivity|]. split; [reflexivity|]. split; [exact E1|].
      simpl in E1. rewrite Hq in E1. unfold op_step in E1. rewrite Pq in E1. injection E1 as <-. simpl.
      split; [rewrite fupd_other, fupd_same by auto; reflexivity|]. split; [rewrite fupd_same; reflexivity|].
      intros m Na Nb. rewrite !fupd_other by auto. reflexivity.
Qed.

(** ** Deadlock *)
Theorem mu_deadlock (d : A) l s i j oi oj a b l2 s2 : exec mu_step (mu_init d) l = Some s ->
  nth_error (m_ops s) i = Some oi -> nth_error (m_ops s) j = Some oj -> o_pc oi = QSAcq2 a b -> o_pc oj = QSAcq2 b a ->
  exec mu_step s l2 = Some s2 -> nth_error (m_ops s2) i = Some oi /\ nth_error (m_ops s2) j = Some oj.
Proof.
  intros E Hi Hj Pi Pj E2. pose proof (inv_exec d l s E) as I.
  refine (proj2 (exec_inv mu_step (fun x => inv x /\ nth_error (m_ops x) i = Some oi /\ nth_error (m_ops x) j = Some oj) _ l2 s s2 _ E2)); auto.
  clear - Pi Pj. intros s mv s' (I & Hi & Hj) E. split; [eapply inv_step; eauto|].
  pose proof (lk_w s (i_lk s I) i oi a Hi) as Wi. rewrite Pi in Wi. specialize (Wi (or_introl eq_refl)).
  pose proof (lk_w s (i_lk s I) j oj b Hj) as Wj. rewrite Pj in Wj. specialize (Wj (or_introl eq_refl)).
  assert (X : forall q o x y, nth_error (m_ops s) q = Some o -> o_pc o = QSAcq2 x y -> v_w (m_mut s y) <> None -> nth_error (m_ops s') q = Some o).
  { clear - E. intros q oq x y Hq Hp W. rename q into j. mu_cases E; fu; auto using snoc_old.
    all: (destruct (Nat.eq_dec i j) as [<-|N]; [|rewrite lupd_other by auto; auto]).
    all: rewrite Hop in Hq; injection Hq as <-; rewrite Hpc in Hp; try discriminate Hp.
    injection Hp as <- <-. bools. congruence. }
  split; eapply X; eauto; congruence.
Qed.
End Mu.
