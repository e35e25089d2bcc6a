(** Broadcaster: dropped children are forgotten (C64); the input is asked once for all children (C53). *)
From Verif Require Import Base Spec BaseFacts Conc Broadcaster BroadcasterFacts BroadcasterUse.

Section Leak.
Context {A B : Type}.
Implicit Types (s : bc_st A B) (m : bc_move A B) (k : kid A B).

(** A call of the waker that is going to drop, or has dropped, child [x] from the list. *)
Definition sweeps (x : nat) (p : note_pc) : Prop :=
  match p with
  | NLock | NStore => True
  | NVisit kept _ => ~ In x kept
  | NTake kept c _ | NWake _ kept c _ => ~ In x kept /\ c <> x
  | NDone => False
  end.
Definition unlisted (x : nat) s : Prop := ~ In x (b_wakers s)
  /\ forall j p l, nth_error (b_notes s) j = Some p -> listed p = Some l -> ~ In x l.
Definition dead (x : nat) s : Prop := x < b_n s /\ k_alive (b_kids s x) = false.

Lemma dead_step x s m s' : bc_step s m = Some s' -> dead x s -> dead x s'.
Proof.
  intros E [D1 D2]. bc_split s E; unfold dead; bc_simp; auto.
  all: try (at_kid x; try (split; [lia|]); auto; try lia; try congruence; fail).
Qed.

Lemma unlisted_step x s m s' : dead x s -> bc_step s m = Some s' -> unlisted x s -> unlisted x s'.
Proof.
  intros [D1 D2] E [H1 H2]. bc_split s E; unfold unlisted, dead in *; bc_simp; auto.
  all: try (split; [|intros j' p' l' E1 E2; apply lupd_inv in E1; destruct E1 as [[<- ->]|[_ E1]]; [|exact (H2 j' p' l' E1 E2)]; cbn [listed] in E2; try discriminate; injection E2 as <-]).
  all: try (pose proof (H2 _ _ _ C eq_refl) as X; rewrite ?in_app_iff in *; cbn [In] in *; tauto).
  all: auto.
  - split; auto. rewrite in_app_iff. cbn [In]. intros [X|[X|[]]]; [auto|lia].
  - split; auto. intros j p l E1 E2. apply snoc_inv in E1. destruct E1 as [[-> ->]|[_ E1]]; [discriminate|eauto].
Qed.

Definition swept (j x : nat) s : Prop := dead x s /\ ((exists p, nth_error (b_notes s) j = Some p /\ sweeps x p) \/ unlisted x s).

Lemma swept_step j x s m s' : bc_inv s -> bc_step s m = Some s' -> swept j x s -> swept j x s'.
Proof.
  intros I E [D H]. pose proof (bc_inv_step _ _ _ I E) as I'. split; [eapply dead_step; eauto|].
  destruct H as [(p & Hp & H)|H]; [|right; exact (unlisted_step x s m s' D E H)].
  destruct I' as (_ & _ & (N1 & _) & _). destruct D as [D1 D2]. rename j into j0.
  bc_split s E; bc_simp; eauto.
  { left. exists p. split; auto. apply snoc_old. auto. }
  all: (destruct (Nat.eq_dec j0 j) as [->|Nj]; [|left; exists p; split; [rewrite lupd_other; auto|exact H]]).
  all: rewrite C in Hp; injection Hp as <-; cbn [sweeps] in H.
  all: try (left; eexists; split; [eapply lupd_same; eauto|cbn [sweeps]; rewrite ?in_app_iff; cbn [In]; intuition congruence]).
  right. split; auto. bc_simp. intros j' p' l' E1 E2. apply lupd_inv in E1. destruct E1 as [[<- ->]|[Nj E1]]; [discriminate|].
  pose proof (crit_lock _ _ _ _ N1 (eq_trans (lupd_other _ _ _ _ Nj) E1) (listed_crit _ _ E2)). discriminate.
Qed.

Lemma bc_forgets f0 l0 s i l s' : exec bc_step (bc_init f0) l0 = Some s -> i < b_n s -> k_alive (b_kids s i) = false ->
  exec bc_step s (BNotify :: l) = Some s' -> nth_error (b_notes s') (length (b_notes s)) = Some NDone -> ~ In i (b_wakers s').
Proof.
  intros E0 Hn Ha E D. pose proof (bc_reach _ _ _ E0) as I. cbn [exec bc_step] in E.
  assert (I1 : bc_inv (set_notes s (b_notes s ++ [NLock]))) by (eapply bc_inv_step; [exact I|exact (eq_refl : bc_step s BNotify = _)]).
  assert (G : bc_inv s' /\ swept (length (b_notes s)) i s').
  { refine (exec_inv bc_step (fun x => bc_inv x /\ swept (length (b_notes s)) i x) _ l _ _ _ E).
    - intros x m x' [G1 G2] Em. split; [eapply bc_inv_step; eauto|eapply swept_step; eauto].
    - split; [exact I1|]. split; [split; auto|]. left. exists NLock. split; [apply snoc_new|exact Logic.I]. }
  destruct G as [_ (_ & [(p & G1 & G2)|[G _]])]; [|exact G]. rewrite D in G1. injection G1 as <-. contradiction.
Qed.

(** No child is listed twice. *)
Definition once s : Prop := NoDup (b_wakers s) /\ (forall i, In i (b_wakers s) -> i < b_n s)
  /\ forall j p l, nth_error (b_notes s) j = Some p -> listed p = Some l -> NoDup l /\ forall i, In i l -> i < b_n s.

Lemma once_step s m s' : once s -> bc_step s m = Some s' -> once s'.
Proof.
  intros (H1 & H2 & H3) E. bc_split s E; unfold once; bc_simp; auto.
  { split; [|split].
    - apply NoDup_Add with (a := n) (l := wks); [rewrite <- (app_nil_r wks) at 1; apply Add_app|]. split; auto. intros X. specialize (H2 _ X). lia.
    - intros i X. apply in_app_or in X. destruct X as [X|[<-|[]]]; [specialize (H2 _ X)|]; lia.
    - intros j p l E1 E2. destruct (H3 j p l E1 E2) as [X Y]. split; auto. intros i Z. specialize (Y i Z). lia. }
  { split; auto. split; auto. intros j p l E1 E2. apply snoc_inv in E1. destruct E1 as [[-> ->]|[_ E1]]; [discriminate|eauto]. }
  all: try (pose proof (H3 _ _ _ C eq_refl) as [X Y]).
  all: rewrite ?app_nil_r in *.
  all: split; [auto|split; [auto|]]; intros j' p' l' E1 E2; apply lupd_inv in E1; destruct E1 as [[<- ->]|[_ E1]];
       [cbn [listed] in E2; try discriminate; injection E2 as <-|exact (H3 j' p' l' E1 E2)]; auto.
  all: rewrite <- ?app_assoc; auto.
  split; [eapply NoDup_remove_1; eauto|]. intros i Z. apply Y. rewrite in_app_iff in *. cbn [In]. tauto.
Qed.

Lemma bc_once f0 l s : exec bc_step (bc_init f0) l = Some s -> NoDup (b_wakers s) /\ forall i, In i (b_wakers s) -> i < b_n s.
Proof.
  intros E. assert (X : once s).
  { refine (exec_inv bc_step once _ l _ s _ E); [intros; eapply once_step; eauto|].
    split; [constructor|]. split; [intros ? []|]. intros [|j]; discriminate. }
  destruct X as (X1 & X2 & _). auto.
Qed.

(** After a poll during which nobody called the waker, [is_changed] is false. *)
Definition clean (x : nat) s : Prop := match k_pc (b_kids s x) with KSwap => True | _ => b_changed s = false end.
Lemma clean_step x s m s' : clean x s -> of_kid x m = true -> bc_step s m = Some s' -> clean x s'.
Proof.
  intros H M E. bc_split s E; unfold clean in *; cbn [of_kid] in M; try discriminate; bc_simp.
  all: apply Nat.eqb_eq in M; subst; rewrite ?fupd_same; k_simp; rewrite ?C0 in *; auto.
Qed.

Lemma bc_shared_next f0 l0 s i t l s1 j u l2 s2 : exec bc_step (bc_init f0) l0 = Some s ->
  exec bc_step s (BPoll i t :: l) = Some s1 -> forallb (of_kid i) l = true -> k_pc (b_kids s1 i) = KIdle ->
  exec bc_step s1 (BPoll j u :: l2) = Some s2 -> forallb (of_kid j) l2 = true -> b_log s2 = b_log s1.
Proof.
  intros E0 E F P E2 F2.
  assert (E1 : exec bc_step (bc_init f0) (l0 ++ BPoll i t :: l) = Some s1) by (rewrite exec_app, E0; exact E).
  refine (bc_shared f0 _ s1 j u l2 s2 E1 _ E2 F2). clear E1 E2 F2.
  cbn [exec] in E. destruct (bc_step s (BPoll i t)) as [sa|] eqn:Ea; [|discriminate].
  apply bc_poll_start in Ea as (-> & L & Ha & Hp).
  assert (G : clean i s1).
  { refine (exec_inv_on (clean i) (of_kid i) _ l _ _ F _ E); [intros; eapply clean_step; eauto|].
    unfold clean. destruct s. bc_simp. rewrite fupd_same. k_simp. exact Logic.I. }
  unfold clean in G. rewrite P in G. exact G.
Qed.
End Leak.
