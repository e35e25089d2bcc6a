(** Facts about VecDiff and replay. *)
From Verif Require Import Base Spec BaseFacts VecDiff LoopFacts.

Lemma replay_snoc {A} (ds : list (vecdiff A)) d :
  replay (ds ++ [d]) = match replay ds with Some l => apply_to_vec d l | None => None end.
Proof.
  unfold replay. rewrite apply_all_app. destruct (apply_all apply_to_vec [] ds) as [l|]; [|reflexivity].
  simpl. destruct (apply_to_vec d l); reflexivity.
Qed.

Lemma replay_app {A} (ds es : list (vecdiff A)) :
  replay (ds ++ es) = match replay ds with Some l => apply_all apply_to_vec l es | None => None end.
Proof. unfold replay. rewrite apply_all_app. reflexivity. Qed.

Lemma replay_prefix {A} (ds es : list (vecdiff A)) : replay (ds ++ es) <> None -> replay ds <> None.
Proof. rewrite replay_app. destruct (replay ds); congruence. Qed.

Lemma replay_nil {A} : @replay A [] = Some [].
Proof. reflexivity. Qed.

(** Shapes of the possible applications. *)
Lemma apply_insert_app {A} (l1 l2 : list A) x i :
  length l1 = i -> apply_to_vec (InsertAt i x) (l1 ++ l2) = Some (l1 ++ x :: l2).
Proof. apply vinsert_app. Qed.

Lemma apply_update_app {A} (l1 l2 : list A) x y i :
  length l1 = i -> apply_to_vec (UpdateAt i x) (l1 ++ y :: l2) = Some (l1 ++ x :: l2).
Proof. apply vset_app. Qed.

Lemma apply_remove_app {A} (l1 l2 : list A) x i :
  length l1 = i -> apply_to_vec (RemoveAt i) (l1 ++ x :: l2) = Some (l1 ++ l2).
Proof. intros H. simpl. rewrite (vremove_app l1 l2 x i H). reflexivity. Qed.

Lemma apply_pop_app {A} (l : list A) x : apply_to_vec Pop (l ++ [x]) = Some l.
Proof. simpl. rewrite vpop_app. reflexivity. Qed.

(** Inversion: what a diff that can be applied does. *)
Lemma apply_inv {A} (d : vecdiff A) (l l' : list A) :
  apply_to_vec d l = Some l' ->
  match d with
  | Replace vs => l' = vs
  | InsertAt i x => exists l1 l2, l = l1 ++ l2 /\ l' = l1 ++ x :: l2 /\ length l1 = i
  | UpdateAt i x => exists l1 y l2, l = l1 ++ y :: l2 /\ l' = l1 ++ x :: l2 /\ length l1 = i
  | RemoveAt i => exists l1 x l2, l = l1 ++ x :: l2 /\ l' = l1 ++ l2 /\ length l1 = i
  | Move o n => exists l1 x l2 m1 m2, l = l1 ++ x :: l2 /\ length l1 = o
                  /\ l1 ++ l2 = m1 ++ m2 /\ l' = m1 ++ x :: m2 /\ length m1 = n
  | Push x => l' = l ++ [x]
  | Pop => exists x, l = l' ++ [x]
  | Clear => l' = []
  end.
Proof.
  destruct d as [vs|i x|i x|i|o n|x| |]; simpl.
  - intros [= <-]. reflexivity.
  - apply vinsert_inv.
  - apply vset_inv.
  - destruct (vremove i l) as [[x l2]|] eqn:E; [|discriminate]. intros [= <-].
    apply vremove_inv in E. destruct E as (l1 & l3 & -> & -> & H).
    exists l1, x, l3. auto.
  - destruct (vremove o l) as [[x l2]|] eqn:E; [|discriminate]. intros H.
    apply vremove_inv in E. destruct E as (l1 & l3 & -> & -> & Hl).
    apply vinsert_inv in H. destruct H as (m1 & m2 & Hm & -> & Hn).
    exists l1, x, l3, m1, m2. auto.
  - intros [= <-]. reflexivity.
  - destruct (vpop l) as [[x l2]|] eqn:E; [|discriminate]. intros [= <-].
    apply vpop_inv in E. exists x. exact E.
  - intros [= <-]. reflexivity.
Qed.

(** Two ways to cut a list. *)
Lemma app_eq_cases {A} (a b c d : list A) :
  a ++ b = c ++ d ->
  (exists e, c = a ++ e /\ b = e ++ d) \/ (exists e, a = c ++ e /\ d = e ++ b).
Proof.
  revert c. induction a as [|x a IH]; intros c H.
  - left. exists c. auto.
  - destruct c as [|y c].
    + right. exists (x :: a). auto.
    + injection H as -> H. destruct (IH _ H) as [(e & -> & ->)|(e & -> & ->)].
      * left. exists e. auto.
      * right. exists e. auto.
Qed.
