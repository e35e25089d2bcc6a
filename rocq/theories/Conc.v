(** Interleaving models: a component is a state and a partial function [step]; a move names one
    shared-memory access of one thread (or the start of a call). [None] means that the move is not
    possible: the lock is taken, the call is over, or Rust's ownership rules forbid it. An execution
    is any sequence of possible moves, so a theorem about all sequences is a theorem about all
    interleavings. Memory is sequentially consistent. *)
From Verif Require Import Base.

Section Exec.
Context {St Mv : Type} (step : St -> Mv -> option St).

Fixpoint exec (s : St) (l : list Mv) : option St :=
  match l with
  | [] => Some s
  | m :: l' => let? s' := step s m in exec s' l'
  end.

Lemma exec_app s l1 l2 :
  exec s (l1 ++ l2) = let? s1 := exec s l1 in exec s1 l2.
Proof.
  revert s. induction l1 as [|m l1 IH]; intros s; simpl; [reflexivity|].
  destruct (step s m); [apply IH|reflexivity].
Qed.

Lemma exec_inv (P : St -> Prop) :
  (forall s m s', P s -> step s m = Some s' -> P s') ->
  forall l s s', P s -> exec s l = Some s' -> P s'.
Proof.
  intros Hs. induction l as [|m l IH]; simpl; intros s s' Hp He.
  - injection He as <-. exact Hp.
  - destruct (step s m) as [s1|] eqn:E; [|discriminate]. eauto.
Qed.

(** A relation between the first and the last state. *)
Lemma exec_rel (P : St -> Prop) (R : St -> St -> Prop) :
  (forall s m s', P s -> step s m = Some s' -> P s') ->
  (forall s, P s -> R s s) ->
  (forall s0 s m s', P s0 -> P s -> R s0 s -> step s m = Some s' -> R s0 s') ->
  forall l s s', P s -> exec s l = Some s' -> R s s'.
Proof.
  intros Hs Hr Hst l s s' Hp He.
  assert (H : P s' /\ R s s'); [|apply H].
  refine (exec_inv (fun x => P x /\ R s x) _ l s s' _ He).
  - intros x m x' [Hx Hrx] E. split; [eapply Hs; eauto|]. exact (Hst s x m x' Hp Hx Hrx E).
  - split; [exact Hp|apply Hr; exact Hp].
Qed.
End Exec.

(** [l] with position [i] overwritten. *)
Fixpoint lupd {A} (i : nat) (x : A) (l : list A) : list A :=
  match l, i with
  | [], _ => []
  | _ :: t, 0 => x :: t
  | h :: t, S i' => h :: lupd i' x t
  end.

(** A map from numbers with one entry overwritten. *)
Definition fupd {A} (i : nat) (x : A) (f : nat -> A) : nat -> A :=
  fun j => if j =? i then x else f j.

Definition olist {A} (o : option A) : list A := match o with Some a => [a] | None => [] end.

Lemma lupd_length {A} i (x : A) l : length (lupd i x l) = length l.
Proof. revert i. induction l as [|h t IH]; intros [|i]; simpl; auto. Qed.

Lemma lupd_same {A} i (x y : A) l : nth_error l i = Some y -> nth_error (lupd i x l) i = Some x.
Proof. revert i. induction l as [|h t IH]; intros [|i]; simpl; try discriminate; auto. Qed.

Lemma lupd_other {A} i j (x : A) l : i <> j -> nth_error (lupd i x l) j = nth_error l j.
Proof.
  revert i j. induction l as [|h t IH]; intros [|i] [|j] H; simpl; try congruence; auto.
Qed.

Lemma lupd_inv {A} i j (x y : A) l :
  nth_error (lupd i x l) j = Some y -> (i = j /\ y = x) \/ (i <> j /\ nth_error l j = Some y).
Proof.
  intros H. destruct (Nat.eq_dec i j) as [<-|n].
  - left. split; [reflexivity|].
    destruct (nth_error l i) as [z|] eqn:E.
    + rewrite (lupd_same i x z l E) in H. congruence.
    + apply nth_error_None in E.
      assert (i < length (lupd i x l)) by (apply nth_error_Some; congruence).
      rewrite lupd_length in H0. lia.
  - right. rewrite lupd_other in H; auto.
Qed.

Lemma lupd_split {A} i (x y : A) l : nth_error l i = Some y ->
  exists l1 l2, l = l1 ++ y :: l2 /\ length l1 = i /\ forall z, lupd i z l = l1 ++ z :: l2.
Proof.
  revert i. induction l as [|h t IH]; intros [|i] H; simpl in H; try discriminate.
  - injection H as ->. exists [], t. simpl. auto.
  - destruct (IH i H) as (l1 & l2 & -> & <- & E). exists (h :: l1), l2. simpl.
    repeat split. intros z. simpl. f_equal. apply E.
Qed.

Lemma fupd_same {A} i (x : A) f : fupd i x f i = x.
Proof. unfold fupd. rewrite Nat.eqb_refl. reflexivity. Qed.

Lemma fupd_eq {A} i j (x : A) f : j = i -> fupd i x f j = x.
Proof. intros ->. apply fupd_same. Qed.

Lemma fupd_other {A} i j (x : A) f : j <> i -> fupd i x f j = f j.
Proof. intros H. unfold fupd. destruct (Nat.eqb_spec j i); congruence. Qed.

(** A field that the overwriting does not change. *)
Lemma fupd_proj {A B} (p : A -> B) i x (f : nat -> A) j : p x = p (f i) -> p (fupd i x f j) = p (f j).
Proof. intros H. unfold fupd. destruct (Nat.eqb_spec j i); congruence. Qed.

Lemma snoc_inv {A} (l : list A) i x y :
  nth_error (l ++ [x]) i = Some y -> (i = length l /\ y = x) \/ (i < length l /\ nth_error l i = Some y).
Proof.
  intros H. destruct (Nat.lt_ge_cases i (length l)) as [L|L].
  - right. rewrite nth_error_app1 in H; auto.
  - left. rewrite nth_error_app2 in H; auto.
    destruct (i - length l) as [|k] eqn:E; simpl in H.
    + split; [lia|congruence].
    + destruct k; discriminate.
Qed.

Lemma snoc_old {A} (l : list A) i x y : nth_error l i = Some y -> nth_error (l ++ [x]) i = Some y.
Proof.
  intros H. rewrite nth_error_app1; auto. apply nth_error_Some. congruence.
Qed.

Lemma snoc_new {A} (l : list A) x : nth_error (l ++ [x]) (length l) = Some x.
Proof. rewrite nth_error_app2, Nat.sub_diag; auto. Qed.

(** How many elements satisfy [f]. *)
Definition count {A} (f : A -> bool) (l : list A) : nat := length (filter f l).
Definition b2n (b : bool) : nat := if b then 1 else 0.

Lemma count_snoc {A} f (l : list A) x : count f (l ++ [x]) = count f l + b2n (f x).
Proof.
  unfold count. rewrite filter_app, app_length. simpl. destruct (f x); reflexivity.
Qed.

Lemma count_lupd {A} f (l : list A) i x y : nth_error l i = Some x ->
  count f (lupd i y l) + b2n (f x) = count f l + b2n (f y).
Proof.
  intros H. destruct (lupd_split i x x l H) as (l1 & l2 & -> & _ & E). rewrite E.
  unfold count. rewrite !filter_app, !app_length. simpl.
  destruct (f x), (f y); simpl; lia.
Qed.

Lemma count_pos {A} f (l : list A) i x : nth_error l i = Some x -> f x = true -> 0 < count f l.
Proof.
  intros H Hf. destruct (lupd_split i x x l H) as (l1 & l2 & -> & _ & _).
  unfold count. rewrite filter_app, app_length. simpl. rewrite Hf. simpl. lia.
Qed.

Lemma count_ex {A} f (l : list A) : 0 < count f l -> exists i x, nth_error l i = Some x /\ f x = true.
Proof.
  induction l as [|a l IH]; unfold count in *; simpl; [lia|]. intros H. destruct (f a) eqn:E.
  - exists 0, a. auto.
  - destruct (IH H) as (i & x & Hi & Hx). exists (S i), x. auto.
Qed.

Lemma count_two {A} f (l : list A) i j x y : i <> j -> nth_error l i = Some x -> nth_error l j = Some y ->
  f x = true -> f y = true -> 2 <= count f l.
Proof.
  intros n Hi Hj Hx Hy.
  pose proof (count_lupd f l i x x Hi) as E.
  destruct (lupd_split i x x l Hi) as (l1 & l2 & -> & <- & _).
  unfold count. rewrite filter_app, app_length. simpl. rewrite Hx. simpl.
  destruct (Nat.lt_ge_cases j (length l1)) as [L|L].
  - rewrite nth_error_app1 in Hj by auto. pose proof (count_pos f l1 j y Hj Hy) as P.
    unfold count in P. lia.
  - rewrite nth_error_app2 in Hj by auto. destruct (j - length l1) as [|k] eqn:Ek; [lia|].
    simpl in Hj. pose proof (count_pos f l2 k y Hj Hy) as P. unfold count in P. lia.
Qed.

(** [l1] is [l2] with some elements left out. *)
Inductive subseq {A} : list A -> list A -> Prop :=
| sub_nil : subseq [] []
| sub_skip x l1 l2 : subseq l1 l2 -> subseq l1 (x :: l2)
| sub_take x l1 l2 : subseq l1 l2 -> subseq (x :: l1) (x :: l2).

Lemma subseq_nil {A} (l : list A) : subseq [] l.
Proof. induction l; constructor; auto. Qed.

Lemma subseq_skip_snoc {A} (l1 l2 : list A) x : subseq l1 l2 -> subseq l1 (l2 ++ [x]).
Proof.
  induction 1; simpl; [apply sub_skip, sub_nil|apply sub_skip; auto|apply sub_take; auto].
Qed.

Lemma subseq_take_snoc {A} (l1 l2 : list A) x : subseq l1 l2 -> subseq (l1 ++ [x]) (l2 ++ [x]).
Proof.
  induction 1; simpl; [apply sub_take, sub_nil|apply sub_skip; auto|apply sub_take; auto].
Qed.

(** ** Concrete schedules *)

Lemma ran {B} (e : option B) (P : B -> Prop) : match e with Some s => P s | None => False end -> exists s, e = Some s /\ P s.
Proof. destruct e as [s|]; [eauto|contradiction]. Qed.
Lemma ran2 {B C} (e : option B) (f : B -> option C) (P : B -> C -> Prop) :
  match e with Some s => match f s with Some t => P s t | None => False end | None => False end ->
  exists s t, e = Some s /\ f s = Some t /\ P s t.
Proof. destruct e as [s|]; [|contradiction]. destruct (f s) as [t|] eqn:E; [|contradiction]. eauto. Qed.
Lemma ran3 {B C D} (e : option B) (f : B -> option C) (g : C -> option D) (P : B -> C -> D -> Prop) :
  match e with Some s => match f s with Some t => match g t with Some u => P s t u | None => False end | None => False end | None => False end ->
  exists s t u, e = Some s /\ f s = Some t /\ g t = Some u /\ P s t u.
Proof. destruct e as [s|]; [|contradiction]. destruct (f s) as [t|] eqn:E; [|contradiction].
  destruct (g t) as [u|] eqn:G; [|contradiction]. exists s, t, u. auto. Qed.
(** Runs a concrete schedule and compares. *)
Ltac split_ex := vm_compute; repeat match goal with |- _ /\ _ => split end;
  try reflexivity; try discriminate; try lia; try (simpl; tauto); auto; try (repeat constructor).
