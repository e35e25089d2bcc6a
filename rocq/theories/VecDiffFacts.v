(** apply_to_vec, index by index. *)
From Verif Require Import Base Spec BaseFacts VecDiff VecSpec VecFacts.

Lemma nth_error_ext {A} (a b : list A) : (forall k, nth_error a k = nth_error b k) -> a = b.
Proof.
  revert b. induction a as [|x a IH]; intros [|y b] H; [reflexivity| | |].
  - discriminate (H 0).
  - discriminate (H 0).
  - pose proof (H 0) as H0. injection H0 as ->. f_equal. apply IH. intros k. exact (H (S k)).
Qed.

Ltac nth_cases :=
  repeat first
    [ rewrite nth_error_app1 by (simpl; lia)
    | rewrite nth_error_app2 by (simpl; lia) ].

Lemma nth_mid {A} (a b : list A) x k :
  nth_error (a ++ x :: b) k = if k <? length a then nth_error a k
                              else if k =? length a then Some x else nth_error b (k - length a - 1).
Proof.
  destruct (Nat.ltb_spec k (length a)); [apply nth_error_app1; lia|].
  rewrite nth_error_app2 by lia. destruct (Nat.eqb_spec k (length a)) as [->|].
  - rewrite Nat.sub_diag. reflexivity.
  - destruct (k - length a) as [|m] eqn:E; [lia|]. simpl. rewrite Nat.sub_0_r. reflexivity.
Qed.

Lemma nth_app {A} (a b : list A) k :
  nth_error (a ++ b) k = if k <? length a then nth_error a k else nth_error b (k - length a).
Proof.
  destruct (Nat.ltb_spec k (length a)); [apply nth_error_app1; lia|apply nth_error_app2; lia].
Qed.

Lemma apply_means {A} d (l l' : list A) : apply_to_vec d l = Some l' -> diff_means d l l'.
Proof.
  intros Ea. pose proof (apply_inv _ _ _ Ea) as H.
  destruct d as [vs|i x|i x|i|o n|x| |]; cbn [diff_means].
  - exact H.
  - destruct H as (l1 & l2 & -> & -> & <-). rewrite app_length. repeat split; try lia.
    + intros k Hk. rewrite nth_mid, nth_app. destruct (Nat.ltb_spec k (length l1)); [reflexivity|lia].
    + rewrite nth_mid, Nat.ltb_irrefl, Nat.eqb_refl. reflexivity.
    + intros k Hk. rewrite nth_mid, nth_app.
      destruct (Nat.ltb_spec k (length l1)); [lia|]. destruct (Nat.eqb_spec k (length l1)); [lia|].
      destruct (Nat.ltb_spec (k - 1) (length l1)); [lia|]. f_equal. lia.
  - destruct H as (l1 & y & l2 & -> & -> & <-). rewrite app_length. simpl length. repeat split; try lia.
    + rewrite nth_mid, Nat.ltb_irrefl, Nat.eqb_refl. reflexivity.
    + intros k Hk. rewrite !nth_mid. destruct (Nat.ltb_spec k (length l1)); [reflexivity|].
      destruct (Nat.eqb_spec k (length l1)); [lia|reflexivity].
  - destruct H as (l1 & y & l2 & -> & -> & <-). rewrite app_length. simpl length. repeat split; try lia.
    + intros k Hk. rewrite nth_mid, nth_app. destruct (Nat.ltb_spec k (length l1)); [reflexivity|lia].
    + intros k Hk. rewrite nth_mid, nth_app. destruct (Nat.ltb_spec k (length l1)); [lia|].
      destruct (Nat.ltb_spec (k + 1) (length l1)); [lia|]. destruct (Nat.eqb_spec (k + 1) (length l1)); [lia|].
      f_equal. lia.
  - destruct H as (l1 & x & l2 & n1 & n2 & -> & <- & Hm & -> & <-).
    pose proof (f_equal (@length A) Hm) as HL. rewrite !app_length in HL.
    rewrite app_length. simpl length.
    assert (Hk : forall k, nth_error (l1 ++ x :: l2) (if k <? length l1 then k else k + 1) = nth_error (n1 ++ n2) k).
    { intros k. rewrite <- Hm, nth_mid, nth_app.
      destruct (Nat.ltb_spec k (length l1)) as [Hlt|Hge].
      - destruct (Nat.ltb_spec k (length l1)); [reflexivity|lia].
      - destruct (Nat.ltb_spec (k + 1) (length l1)); [lia|]. destruct (Nat.eqb_spec (k + 1) (length l1)); [lia|].
        f_equal. lia. }
    repeat split; try lia.
    + rewrite !nth_mid, !Nat.ltb_irrefl, !Nat.eqb_refl. reflexivity.
    + intros k Hkn. rewrite Hk, nth_mid, nth_app. destruct (Nat.ltb_spec k (length n1)); [reflexivity|lia].
    + intros k Hkn. transitivity (nth_error (n1 ++ n2) (k - 1)).
      * rewrite nth_mid, nth_app. destruct (Nat.ltb_spec k (length n1)); [lia|].
        destruct (Nat.eqb_spec k (length n1)); [lia|]. destruct (Nat.ltb_spec (k - 1) (length n1)); [lia|].
        f_equal. lia.
      * rewrite <- Hk. destruct (Nat.ltb_spec (k - 1) (length l1)); [reflexivity|]. f_equal. lia.
  - subst l'. rewrite app_length. repeat split.
    + intros k Hk. rewrite nth_app. destruct (Nat.ltb_spec k (length l)); [reflexivity|lia].
    + rewrite nth_app, Nat.ltb_irrefl, Nat.sub_diag. reflexivity.
  - destruct H as (x & ->). rewrite app_length. simpl length. repeat split; try lia.
    intros k Hk. rewrite nth_app. destruct (Nat.ltb_spec k (length l')); [reflexivity|lia].
  - exact H.
Qed.

(** The index-wise description determines the result. *)
Lemma means_unique {A} d (l a b : list A) : diff_means d l a -> diff_means d l b -> a = b.
Proof.
  destruct d as [vs|i x|i x|i|o n|x| |]; cbn [diff_means]; intros Ha Hb.
  - congruence.
  - destruct Ha as (_ & A1 & A2 & A3), Hb as (_ & B1 & B2 & B3). apply nth_error_ext. intros k.
    destruct (Nat.lt_trichotomy k i) as [Hk|[->|Hk]].
    + rewrite A1, B1 by exact Hk. reflexivity.
    + congruence.
    + rewrite A3, B3 by exact Hk. reflexivity.
  - destruct Ha as (_ & A1 & A2), Hb as (_ & B1 & B2). apply nth_error_ext. intros k.
    destruct (Nat.eq_dec k i) as [->|Hk]; [congruence|]. rewrite A2, B2 by exact Hk. reflexivity.
  - destruct Ha as (_ & A1 & A2), Hb as (_ & B1 & B2). apply nth_error_ext. intros k.
    destruct (Nat.lt_ge_cases k i) as [Hk|Hk]; [rewrite A1, B1 by exact Hk|rewrite A2, B2 by exact Hk]; reflexivity.
  - destruct Ha as (_ & _ & A1 & A2 & A3), Hb as (_ & _ & B1 & B2 & B3). apply nth_error_ext. intros k.
    destruct (Nat.lt_trichotomy k n) as [Hk|[->|Hk]].
    + rewrite A2, B2 by exact Hk. reflexivity.
    + congruence.
    + rewrite A3, B3 by exact Hk. reflexivity.
  - destruct Ha as (A1 & A2 & A3), Hb as (B1 & B2 & B3). apply nth_error_ext. intros k.
    destruct (Nat.lt_trichotomy k (length l)) as [Hk|[->|Hk]].
    + rewrite A1, B1 by exact Hk. reflexivity.
    + congruence.
    + assert (H1 : nth_error a k = None) by (apply nth_error_None; lia).
      assert (H2 : nth_error b k = None) by (apply nth_error_None; lia). congruence.
  - destruct Ha as (_ & A1 & A2), Hb as (_ & B1 & B2). apply nth_error_ext. intros k.
    destruct (Nat.lt_ge_cases k (length l - 1)) as [Hk|Hk]; [rewrite A2, B2 by exact Hk; reflexivity|].
    assert (H1 : nth_error a k = None) by (apply nth_error_None; lia).
    assert (H2 : nth_error b k = None) by (apply nth_error_None; lia). congruence.
  - congruence.
Qed.

Lemma vremove_None {A} i (l : list A) : vremove i l = None <-> length l <= i.
Proof.
  unfold vremove. destruct (nth_error l i) eqn:E.
  - split; [discriminate|]. intros H. apply nth_error_None in H. congruence.
  - apply nth_error_None in E. tauto.
Qed.

Lemma apply_panics {A} d (l : list A) : apply_to_vec d l = None <-> diff_panics d l.
Proof.
  destruct d as [vs|i x|i x|i|o n|x| |]; cbn [apply_to_vec diff_panics].
  - split; [discriminate|tauto].
  - unfold vinsert. destruct (Nat.leb_spec i (length l)); split; intros H'; try reflexivity; try discriminate; lia.
  - unfold vset. destruct (Nat.ltb_spec i (length l)); split; intros H'; try reflexivity; try discriminate; lia.
  - destruct (vremove i l) as [[y l']|] eqn:E.
    + split; [discriminate|]. intros H. apply vremove_None in H. congruence.
    + apply vremove_None in E. tauto.
  - destruct (vremove o l) as [[y l']|] eqn:E.
    + apply vremove_inv in E. destruct E as (l1 & l2 & -> & -> & <-).
      unfold vinsert. rewrite !app_length. simpl length.
      destruct (Nat.leb_spec n (length l1 + length l2)); split; intros H'; try reflexivity; try discriminate; lia.
    + apply vremove_None in E. tauto.
  - split; [discriminate|tauto].
  - destruct (vpop l) as [[y l']|] eqn:E.
    + split; [discriminate|]. intros ->. discriminate.
    + apply vpop_None in E. tauto.
  - split; [discriminate|tauto].
Qed.

Lemma apply_iff_means {A} d (l l' : list A) : apply_to_vec d l = Some l' <-> diff_means d l l'.
Proof.
  split; [apply apply_means|]. intros H.
  destruct (apply_to_vec d l) as [l2|] eqn:E.
  - f_equal. apply apply_means in E. exact (means_unique _ _ _ _ E H).
  - exfalso. apply apply_panics in E.
    destruct d; cbn [diff_means diff_panics] in *; try contradiction; try lia.
    subst l. destruct H as [H _]. apply H. reflexivity.
Qed.
