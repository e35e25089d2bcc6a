(** More facts about Mutable.v that hold for every interleaving: handles, registration. *)
From Verif Require Import Base BaseFacts Conc Mutable MutableFacts.

Lemma count_unique (l : list (nat * nat)) h m m0 : NoDup (map fst l) -> In (h, m) l ->
  count (fun e => snd e =? m0) (filter (fun e => negb (fst e =? h)) l) + b2n (m =? m0) = count (fun e => snd e =? m0) l.
Proof.
  unfold count. induction l as [|[h' m'] t IH]; simpl; [easy|]. intros N H. inversion N as [|? ? N1 N2]; subst.
  destruct H as [[= -> ->]|H].
  - rewrite Nat.eqb_refl. simpl.
    assert (E : filter (fun e => negb (fst e =? h)) t = t).
    { clear - N1. induction t as [|[h2 m2] t IH]; simpl; auto. simpl in N1.
      destruct (Nat.eqb_spec h2 h); simpl; [subst; tauto|]. f_equal. apply IH. tauto. }
    rewrite E. destruct (m =? m0); simpl; lia.
  - specialize (IH N2 H). destruct (Nat.eqb_spec h' h) as [->|n]; simpl.
    + exfalso. apply N1. apply in_map_iff. exists (h, m). auto.
    + destruct (m' =? m0); simpl; lia.
Qed.

Lemma nodup_filter {A B} (f : A -> B) (p : A -> bool) l : NoDup (map f l) -> NoDup (map f (filter p l)).
Proof.
  induction l as [|x t IH]; simpl; auto. intros N. inversion N; subst. destruct (p x); simpl; auto.
  constructor; auto. intros H. apply in_map_iff in H. destruct H as (y & E & H). apply filter_In in H.
  apply H1. apply in_map_iff. exists y. tauto.
Qed.

Lemma NoDup_app_snoc {A} (l : list A) x : NoDup l -> ~ In x l -> NoDup (l ++ [x]).
Proof. intros H N. apply NoDup_Add with (a := x) (l := l); [|split; auto]. rewrite <- (app_nil_r l) at 1. apply Add_app. Qed.

Section Mu.
Context {A : Type}.
Implicit Types (s : mu_st A).

(** The Mutables of which a call must keep a handle. *)
Definition op_needs (p : opc A) : list nat :=
  match p with
  | QAcq m _ | QBody m _ | QGAcq m | QGuard m _ | QClone m => [m]
  | QSAcq1 a b | QSAcq2 a b | QSBody a b => [a; b]
  | QNotify KRel _ m _ _ _ => [m]
  | QNotify (KSwap b) _ m _ _ _ => [m; b]
  | QNotify (KSwapEnd a) _ m _ _ _ => [m; a]
  | _ => []
  end.
Definition at_sub (m : nat) (o : op A) : bool := match o_pc o with QDropSub m' => m' =? m | _ => false end.
Definition last_dropper (m : nat) (p : opc A) : Prop :=
  match p with
  | QDropAcq m' | QDropChk m' => m' = m
  | QNotify KDrop _ m' _ _ _ => m' = m
  | _ => False
  end.

Record hd s : Prop := {
  hd_nodup : NoDup (map fst (m_live s));
  hd_next : forall h m, In (h, m) (m_live s) -> h < m_next s;
  hd_needs : forall i o m, nth_error (m_ops s) i = Some o -> In m (op_needs (o_pc o)) ->
    exists h, In h (o_hs o) /\ In (h, m) (m_live s);
  hd_cnt : forall m, v_senders (m_mut s m) = count (fun e => snd e =? m) (m_live s) + count (at_sub m) (m_ops s);
  hd_zero : forall i o m, nth_error (m_ops s) i = Some o -> last_dropper m (o_pc o) -> v_senders (m_mut s m) = 0;
  hd_flag : forall i o c fl m todo kept st, nth_error (m_ops s) i = Some o -> o_pc o = QNotify c fl m todo kept st ->
    fl = match c with KDrop => false | _ => true end }.

Lemma hd_pos s i o m : hd s -> nth_error (m_ops s) i = Some o -> In m (op_needs (o_pc o)) -> 0 < v_senders (m_mut s m).
Proof.
  intros H Ho Hm. destruct (hd_needs s H i o m Ho Hm) as (h & _ & Hl). rewrite (hd_cnt s H).
  apply In_nth_error in Hl. destruct Hl as [n Hn].
  pose proof (count_pos (fun e => snd e =? m) (m_live s) n (h, m) Hn (Nat.eqb_refl m)). lia.
Qed.

Lemma last_dropper_born s i o m : lk s -> nth_error (m_ops s) i = Some o -> last_dropper m (o_pc o) -> m < m_born s.
Proof.
  intros L Ho Hd. apply (lk_ms s L i o); auto. destruct (o_pc o) as [| | | | | | | | | | | | |c fl m' todo kept st| |]; simpl in *; try contradiction; auto.
  destruct c; try contradiction. auto.
Qed.

Lemma not_borrowed s h i o : borrowed s h = false -> nth_error (m_ops s) i = Some o -> In h (o_hs o) -> o_pc o = QRet.
Proof.
  unfold borrowed. intros H Hn Hi.
  assert (X : existsb (Nat.eqb h) (o_hs o) && negb (o_done o) = false).
  { destruct (existsb (Nat.eqb h) (o_hs o) && negb (o_done o)) eqn:E; auto. rewrite <- H. symmetry.
    apply existsb_exists. exists o. split; auto. eapply nth_error_In; eauto. }
  apply andb_false_iff in X. destruct X as [X|X].
  - exfalso. assert (existsb (Nat.eqb h) (o_hs o) = true); [|congruence].
    apply existsb_exists. exists h. split; auto. apply Nat.eqb_refl.
  - unfold o_done in X. destruct (o_pc o); simpl in X; try discriminate. reflexivity.
Qed.

Lemma hd_init (d : A) : hd (mu_init d).
Proof.
  constructor; simpl; intros; auto; try (destruct i; discriminate); try contradiction. constructor.
Qed.

Ltac hd_solve := try solve [eapply hd_nodup; eauto | eapply hd_next; eauto | eapply hd_needs; eauto
    | eapply hd_zero; eauto | eapply hd_flag; eauto
    | discriminate | contradiction | lia | exfalso; lia | auto | congruence ].

Lemma hd_step s mv s' : lk s -> hd s -> mu_step s mv = Some s' -> hd s'.
Proof.
  intros L H E. mu_cases E.
  all: bools; fu.
  all: repeat match goal with H : lookup _ _ = Some _ |- _ => apply lookup_In in H; pose proof (lk_live s L _ _ H) end.
  all: try (pose proof (fun m => hd_needs s H _ _ m Hop) as Ln; rewrite Hpc in Ln; simpl in Ln).
  all: try (pose proof (fun m => hd_zero s H _ _ m Hop) as Lz; rewrite Hpc in Lz; simpl in Lz; try specialize (Lz _ eq_refl)).
  all: try (pose proof (hd_flag s H _ _ _ _ _ _ _ _ Hop Hpc) as Lf; simpl in Lf).
  all: constructor.
  all: intros; fu; inv_ops; fu; frame; simpl in *.
  all: hd_solve.
  all: try solve [match goal with H : context [if ?b then _ else _] |- _ => destruct b; simpl in *; contradiction || discriminate || congruence end].
  all: try solve [match goal with H : QNotify _ _ _ _ _ _ = QNotify _ _ _ _ _ _ |- _ => injection H; intros; subst; auto end].
  all: try solve [match goal with |- v_senders _ = _ + count (at_sub ?m) (lupd ?i ?o' (m_ops ?s)) =>
    pose proof (count_lupd (at_sub m) (m_ops s) i o o' Hop) as X; unfold at_sub at 2 4 in X; simpl in X; rewrite Hpc in X; simpl in X;
    rewrite (hd_cnt s H); lia end].
  all: try solve [match goal with |- v_senders _ = _ + count (at_sub ?m) (_ ++ [?o]) =>
    rewrite count_snoc, (hd_cnt s H); unfold at_sub at 3; simpl; lia end].
  all: try solve [match goal with H : _ \/ False |- _ => destruct H as [<-|[]] end; eexists; split; [left; reflexivity|assumption]].
  all: try solve [match goal with |- exists h, In h _ /\ In (h, ?m) (m_live ?s ++ [_]) =>
     edestruct (hd_needs s H) as (h0 & Hh & Hl); eauto; exists h0; split; auto; apply in_or_app; auto end].
  all: try solve [match goal with H : In _ (_ ++ [_]) |- _ => apply in_app_or in H; destruct H as [?|[[= <- <-]|[]]]; [|lia] end;
     match goal with I : In _ (m_live _) |- _ => pose proof (hd_next s H _ _ I); lia end].
  all: try solve [rewrite map_app; apply NoDup_app_snoc; [apply (hd_nodup s H)|]; intros X; apply in_map_iff in X;
     destruct X as ([h0 m0] & Ex & X); pose proof (hd_next s H _ _ X); simpl in *; lia].
  all: try apply (hd_cnt s H).
  - rewrite count_snoc. simpl. pose proof (hd_cnt s H m) as X. fsplit; simpl; [|rewrite X; destruct (Nat.eqb_spec (m_born s) m); [congruence|simpl; lia]].
    rewrite Nat.eqb_refl. simpl. destruct (lk_unborn_m s L (m_born s) (le_n _)) as (_ & _ & _ & Z). lia.
  - pose proof (last_dropper_born s i o m L ltac:(assumption) ltac:(assumption)). fsplit; [lia|]. eapply hd_zero; eauto.
  - intuition (subst; eauto).
  - apply nodup_filter. apply (hd_nodup s H).
  - apply filter_In in H1. eapply hd_next; [exact H|apply H1].
  - edestruct (hd_needs s H) as (h0 & Hh & Hl); eauto. exists h0. split; auto. apply filter_In. split; auto.
    simpl. destruct (Nat.eqb_spec h0 h) as [->|]; auto. exfalso.
    assert (X : o_pc o = QRet) by (eapply not_borrowed; eauto). rewrite X in *. contradiction.
  - rewrite count_snoc, (hd_cnt s H). unfold at_sub at 3. simpl.
    pose proof (count_unique (m_live s) h n m (hd_nodup s H) ltac:(assumption)). lia.
  - rewrite count_snoc. simpl. pose proof (hd_cnt s H m0) as X.
    pose proof (count_lupd (at_sub m0) (m_ops s) i o (mkOp (o_hs o) QRet (o_ret o)) Hop) as Y.
    unfold at_sub at 2 4 in Y. rewrite Hpc in Y. simpl in Y.
    fsplit; simpl; [rewrite Nat.eqb_refl; simpl|destruct (Nat.eqb_spec m m0); [congruence|simpl]]; lia.
  - fsplit; simpl; [|eapply hd_zero; eauto]. pose proof (hd_zero s H _ _ _ H0 H1).
    pose proof (hd_pos s i o m H Hop) as X. rewrite Hpc in X. simpl in X. specialize (X (or_introl eq_refl)). lia.
  - pose proof (hd_cnt s H m0) as X.
    pose proof (count_lupd (at_sub m0) (m_ops s) i o (mkOp (o_hs o) (QDropAcq m) (o_ret o)) Hop) as Y.
    unfold at_sub at 2 4 in Y. rewrite Hpc in Y. simpl in Y.
    fsplit; simpl; [rewrite Nat.eqb_refl in Y; simpl in Y|destruct (Nat.eqb_spec m m0); [congruence|simpl in Y]]; lia.
  - subst. rewrite fupd_same. simpl. lia.
  - fsplit; simpl; [|eapply hd_zero; eauto]. pose proof (hd_zero s H _ _ _ ltac:(eassumption) ltac:(eassumption)). lia.
  - pose proof (hd_cnt s H m0) as X.
    pose proof (count_lupd (at_sub m0) (m_ops s) i o (mkOp (o_hs o) QRet (o_ret o)) Hop) as Y.
    unfold at_sub at 2 4 in Y. rewrite Hpc in Y. simpl in Y.
    fsplit; simpl; [rewrite Nat.eqb_refl in Y; simpl in Y|destruct (Nat.eqb_spec m m0); [congruence|simpl in Y]]; lia.
  - fsplit; simpl; [|eapply hd_zero; eauto]. pose proof (hd_zero s H _ _ _ ltac:(eassumption) ltac:(eassumption)). lia.
  - apply Ln. tauto.
Qed.
End Mu.
