(** Facts about Base and Spec. *)
From Verif Require Import Base Spec.

(** ** Vec operations *)
Lemma vinsert_app {A} (l1 l2 : list A) x i :
  length l1 = i -> vinsert i x (l1 ++ l2) = Some (l1 ++ x :: l2).
Proof.
  intros <-. unfold vinsert. rewrite app_length.
  destruct (Nat.leb_spec (length l1) (length l1 + length l2)); [|lia].
  rewrite firstn_app, skipn_app, firstn_all, skipn_all, Nat.sub_diag. simpl.
  rewrite app_nil_r. reflexivity.
Qed.

Lemma vinsert_inv {A} (l l' : list A) x i :
  vinsert i x l = Some l' -> exists l1 l2, l = l1 ++ l2 /\ l' = l1 ++ x :: l2 /\ length l1 = i.
Proof.
  unfold vinsert. destruct (Nat.leb_spec i (length l)); [|discriminate].
  intros [= <-]. exists (firstn i l), (skipn i l).
  rewrite firstn_skipn, firstn_length. repeat split. lia.
Qed.

Lemma vremove_app {A} (l1 l2 : list A) x i :
  length l1 = i -> vremove i (l1 ++ x :: l2) = Some (x, l1 ++ l2).
Proof.
  intros <-. unfold vremove.
  assert (E : nth_error (l1 ++ x :: l2) (length l1) = Some x)
    by (rewrite nth_error_app2, Nat.sub_diag by lia; reflexivity).
  rewrite E.
  rewrite firstn_app, firstn_all, Nat.sub_diag, app_nil_r.
  rewrite skipn_app, skipn_all2 by lia.
  replace (length l1 + 1 - length l1) with 1 by lia. reflexivity.
Qed.

Lemma vremove_inv {A} (l l' : list A) x i :
  vremove i l = Some (x, l') -> exists l1 l2, l = l1 ++ x :: l2 /\ l' = l1 ++ l2 /\ length l1 = i.
Proof.
  unfold vremove. destruct (nth_error l i) as [y|] eqn:E; [|discriminate].
  intros [= <- <-]. destruct (nth_error_split _ _ E) as (l1 & l2 & -> & <-).
  exists l1, l2. repeat split.
  rewrite firstn_app, firstn_all, Nat.sub_diag, app_nil_r.
  rewrite skipn_app, skipn_all2 by lia.
  replace (length l1 + 1 - length l1) with 1 by lia. reflexivity.
Qed.

Lemma vset_app {A} (l1 l2 : list A) x y i :
  length l1 = i -> vset i x (l1 ++ y :: l2) = Some (l1 ++ x :: l2).
Proof.
  intros <-. unfold vset. rewrite app_length. simpl length.
  destruct (Nat.ltb_spec (length l1) (length l1 + S (length l2))); [|lia].
  rewrite firstn_app, firstn_all, Nat.sub_diag, app_nil_r.
  rewrite skipn_app, skipn_all2 by lia.
  replace (length l1 + 1 - length l1) with 1 by lia. reflexivity.
Qed.

Lemma vset_inv {A} (l l' : list A) x i :
  vset i x l = Some l' -> exists l1 y l2, l = l1 ++ y :: l2 /\ l' = l1 ++ x :: l2 /\ length l1 = i.
Proof.
  unfold vset. destruct (Nat.ltb_spec i (length l)) as [Hlt|]; [|discriminate].
  intros [= <-].
  destruct (nth_error l i) as [y|] eqn:E.
  2:{ apply nth_error_None in E. lia. }
  destruct (nth_error_split _ _ E) as (l1 & l2 & -> & <-).
  exists l1, y, l2. repeat split.
  rewrite firstn_app, firstn_all, Nat.sub_diag, app_nil_r.
  rewrite skipn_app, skipn_all2 by lia.
  replace (length l1 + 1 - length l1) with 1 by lia. reflexivity.
Qed.

Lemma vpop_app {A} (l : list A) x : vpop (l ++ [x]) = Some (x, l).
Proof. unfold vpop. rewrite rev_app_distr. simpl. rewrite rev_involutive. reflexivity. Qed.

Lemma vpop_inv {A} (l l' : list A) x : vpop l = Some (x, l') -> l = l' ++ [x].
Proof.
  unfold vpop. destruct (rev l) as [|y r] eqn:E; [discriminate|].
  intros [= <- <-]. rewrite <- (rev_involutive l), E. reflexivity.
Qed.

Lemma vpop_None {A} (l : list A) : vpop l = None -> l = [].
Proof.
  unfold vpop. destruct (rev l) as [|y r] eqn:E; [|discriminate].
  intros _. rewrite <- (rev_involutive l), E. reflexivity.
Qed.

Lemma usub_Some a b : b <= a -> usub a b = Some (a - b).
Proof. intros H. unfold usub. destruct (Nat.leb_spec b a); [reflexivity|lia]. Qed.

(** ** Answers *)
Lemma yielded_app {A} (a b : list (poll (option A))) : yielded (a ++ b) = yielded a ++ yielded b.
Proof.
  induction a as [|r a IH]; [reflexivity|].
  destruct r as [|[x|]]; simpl; rewrite ?IH; reflexivity.
Qed.

Lemma apply_all_app {D X} (app : D -> X -> option X) x a b :
  apply_all app x (a ++ b) =
  match apply_all app x a with Some y => apply_all app y b | None => None end.
Proof.
  revert x; induction a as [|d a IH]; intros x; [reflexivity|].
  simpl. destruct (app d x); [apply IH|reflexivity].
Qed.

Lemma latest_of_app {A} (rs : list (poll (option A))) a :
  latest_of (rs ++ [Ready (Some a)]) = Some a.
Proof. unfold latest_of. rewrite yielded_app. simpl. rewrite rev_app_distr. reflexivity. Qed.

Lemma latest_of_pending {A} (rs : list (poll (option A))) :
  latest_of (rs ++ [Pending]) = latest_of rs.
Proof. unfold latest_of. rewrite yielded_app. simpl. rewrite app_nil_r. reflexivity. Qed.

Lemma latest_of_end {A} (rs : list (poll (option A))) :
  latest_of (rs ++ [Ready None]) = latest_of rs.
Proof. unfold latest_of. rewrite yielded_app. simpl. rewrite app_nil_r. reflexivity. Qed.

Lemma snoc_inj {A} (a b : list A) x y : a ++ [x] = b ++ [y] -> a = b /\ x = y.
Proof. apply app_inj_tail. Qed.

(** ** Runs *)
Section Run.
  Context {St O : Type} (m : St -> option (St * poll (option O))).

  (** Induction principle: an invariant on (state, outputs so far) that every poll
      preserves, given that the consumer has not seen the end yet. *)
  Lemma run_inv (Inv : St -> list (poll (option O)) -> Prop) :
    (forall s outs, Inv s outs -> ~ In (Ready None) outs ->
       exists s' o, m s = Some (s', o) /\ Inv s' (outs ++ [o])) ->
    forall n s outs, Inv s outs -> ~ In (Ready None) outs ->
    exists s' outs', run m n s = Some (s', outs') /\ Inv s' (outs ++ outs').
  Proof.
    intros Hstep. induction n as [|n IH]; intros s outs HI Hne.
    - exists s, []. rewrite app_nil_r. split; [reflexivity|exact HI].
    - destruct (Hstep s outs HI Hne) as (s1 & o & Hm & HI1).
      simpl. rewrite Hm.
      assert (Hcase : o = Ready None \/ o <> Ready None)
        by (destruct o as [|[x|]]; [right|right|left]; congruence).
      destruct Hcase as [->|Ho].
      + exists s1, [Ready None]. split; [reflexivity|exact HI1].
      + assert (Hne1 : ~ In (Ready None) (outs ++ [o])).
        { rewrite in_app_iff. simpl. intros [H|[H|[]]]; [exact (Hne H)|congruence]. }
        destruct (IH s1 (outs ++ [o]) HI1 Hne1) as (s2 & os & Hr & HI2).
        exists s2, (o :: os). rewrite Hr. split.
        * destruct o as [|[x|]]; [reflexivity|reflexivity|congruence].
        * rewrite <- app_assoc in HI2. exact HI2.
  Qed.

  Lemma run_inv0 (Inv : St -> list (poll (option O)) -> Prop) s0 :
    Inv s0 [] ->
    (forall s outs, Inv s outs -> ~ In (Ready None) outs ->
       exists s' o, m s = Some (s', o) /\ Inv s' (outs ++ [o])) ->
    forall n, exists s' outs', run m n s0 = Some (s', outs') /\ Inv s' outs'.
  Proof.
    intros H0 Hs n. apply (run_inv _ Hs n s0 [] H0). simpl; tauto.
  Qed.

  (** Partial-correctness version: no claim about panics. *)
  Lemma run_inv_partial (Inv : St -> list (poll (option O)) -> Prop) :
    (forall s outs s' o, Inv s outs -> ~ In (Ready None) outs ->
       m s = Some (s', o) -> Inv s' (outs ++ [o])) ->
    forall n s outs, Inv s outs -> ~ In (Ready None) outs ->
    forall s' outs', run m n s = Some (s', outs') -> Inv s' (outs ++ outs').
  Proof.
    intros Hstep. induction n as [|n IH]; intros s outs HI Hne s' outs' Hrun.
    - injection Hrun as <- <-. rewrite app_nil_r. exact HI.
    - simpl in Hrun. destruct (m s) as [[s1 o]|] eqn:Hm; [|discriminate].
      pose proof (Hstep _ _ _ _ HI Hne Hm) as HI1.
      assert (Hcase : o = Ready None \/ o <> Ready None)
        by (destruct o as [|[x|]]; [right|right|left]; congruence).
      destruct Hcase as [->|Ho].
      + injection Hrun as <- <-. exact HI1.
      + assert (Hne1 : ~ In (Ready None) (outs ++ [o])).
        { rewrite in_app_iff. simpl. intros [H|[H|[]]]; [exact (Hne H)|congruence]. }
        destruct (run m n s1) as [[s2 os]|] eqn:Hr.
        * assert (Heq : s2 = s' /\ o :: os = outs')
            by (destruct o as [|[x|]]; [|clear Ho|congruence]; injection Hrun as <- <-; auto).
          destruct Heq as [<- <-].
          pose proof (IH _ _ HI1 Hne1 _ _ Hr) as HI2.
          rewrite <- app_assoc in HI2. exact HI2.
        * destruct o as [|[x|]]; [discriminate|discriminate|congruence].
  Qed.

  Lemma run_inv_partial0 (Inv : St -> list (poll (option O)) -> Prop) s0 :
    Inv s0 [] ->
    (forall s outs s' o, Inv s outs -> ~ In (Ready None) outs ->
       m s = Some (s', o) -> Inv s' (outs ++ [o])) ->
    forall n s' outs', run m n s0 = Some (s', outs') -> Inv s' outs'.
  Proof.
    intros H0 Hs n s' outs' Hr.
    apply (run_inv_partial _ Hs n s0 [] H0); [simpl; tauto|exact Hr].
  Qed.
End Run.
