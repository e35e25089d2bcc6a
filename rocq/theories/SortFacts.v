(** Proofs for Sort. *)
From Coq Require Import Sorted.
From Verif Require Import Base Spec BaseFacts VecDiff VecSpec LoopFacts VecFacts SortSpec Sort.

Lemma app_inj_length {X} (a b c d : list X) :
  a ++ c = b ++ d -> length a = length b -> a = b /\ c = d.
Proof.
  revert b. induction a as [|x a IH]; intros [|y b] H Hl; try discriminate Hl; [auto|].
  injection H as <- H. injection Hl as Hl. destruct (IH b H Hl) as [-> ->]. auto.
Qed.

(** ** Binary search *)
Lemma div2_bounds n : 0 < n -> Nat.div2 n < n.
Proof. intros H. apply Nat.lt_div2. exact H. Qed.

Section Search.
  Context {X : Type} (f : X -> option comparison).

  Lemma search_loop_not_found p q : Forall (fun x => f x = Some Lt) p -> Forall (fun x => f x = Some Gt) q ->
    forall fuel left right, left <= length p -> length p <= right -> right <= length (p ++ q) ->
    right - left <= fuel -> search_loop f (p ++ q) fuel left right = Some (NotFound (length p)).
  Proof.
    intros Hp Hq. induction fuel as [|fuel IH]; intros left right Hl Hr Hlen Hf.
    - simpl. destruct (Nat.ltb_spec left right) as [H|H]; [lia|]. f_equal. f_equal. lia.
    - cbn [search_loop]. destruct (Nat.ltb_spec left right) as [H|H]; [|f_equal; f_equal; lia].
      assert (Hd := div2_bounds (right - left)).
      set (mid := left + Nat.div2 (right - left)). assert (Hm : left <= mid < right) by (unfold mid; lia).
      clearbody mid.
      destruct (nth_error (p ++ q) mid) as [x|] eqn:E; [|apply nth_error_None in E; lia].
      destruct (Nat.lt_ge_cases mid (length p)) as [Hlt|Hge].
      + rewrite nth_error_app1 in E by exact Hlt. apply nth_error_In in E.
        rewrite Forall_forall in Hp. rewrite (Hp x E). apply IH; lia.
      + rewrite nth_error_app2 in E by exact Hge. apply nth_error_In in E.
        rewrite Forall_forall in Hq. rewrite (Hq x E). apply IH; lia.
  Qed.

  Lemma search_not_found p q : Forall (fun x => f x = Some Lt) p -> Forall (fun x => f x = Some Gt) q ->
    binary_search_by f (p ++ q) = Some (NotFound (length p)).
  Proof.
    intros Hp Hq. unfold binary_search_by. apply search_loop_not_found; auto; rewrite ?app_length; lia.
  Qed.

  Lemma search_loop_found p y q : Forall (fun x => f x = Some Lt) p -> f y = Some Eq ->
    Forall (fun x => f x = Some Gt) q ->
    forall fuel left right, left <= length p -> length p < right -> right <= length (p ++ y :: q) ->
    right - left <= fuel -> search_loop f (p ++ y :: q) fuel left right = Some (Found (length p)).
  Proof.
    intros Hp Hy Hq. induction fuel as [|fuel IH]; intros left right Hl Hr Hlen Hf; [lia|].
    cbn [search_loop]. destruct (Nat.ltb_spec left right) as [H|H]; [|lia].
    assert (Hd := div2_bounds (right - left)).
    set (mid := left + Nat.div2 (right - left)). assert (Hm : left <= mid < right) by (unfold mid; lia).
    clearbody mid.
    destruct (nth_error (p ++ y :: q) mid) as [x|] eqn:E; [|apply nth_error_None in E; lia].
    destruct (Nat.lt_trichotomy mid (length p)) as [Hlt|[Heq|Hgt]].
    - rewrite nth_error_app1 in E by exact Hlt. apply nth_error_In in E.
      rewrite Forall_forall in Hp. rewrite (Hp x E). apply IH; lia.
    - rewrite nth_error_app2, Heq, Nat.sub_diag in E by lia. simpl in E. injection E as <-.
      rewrite Hy, Heq. reflexivity.
    - rewrite nth_error_app2 in E by lia.
      replace (mid - length p) with (S (mid - length p - 1)) in E by lia. simpl in E.
      apply nth_error_In in E. rewrite Forall_forall in Hq. rewrite (Hq x E). apply IH; lia.
  Qed.

  Lemma search_found p y q : Forall (fun x => f x = Some Lt) p -> f y = Some Eq ->
    Forall (fun x => f x = Some Gt) q -> binary_search_by f (p ++ y :: q) = Some (Found (length p)).
  Proof.
    intros Hp Hy Hq. unfold binary_search_by.
    apply search_loop_found; auto; rewrite ?app_length; simpl; lia.
  Qed.
End Search.

(** ** Strongly sorted lists *)
Lemma sorted_app {X} (R : X -> X -> Prop) p q :
  StronglySorted R (p ++ q) <->
  StronglySorted R p /\ StronglySorted R q /\ (forall x y, In x p -> In y q -> R x y).
Proof.
  induction p as [|a p IH]; simpl.
  - split; [intros H; repeat split; [constructor|exact H|intros x y []]|tauto].
  - split.
    + intros H. inversion H as [|? ? H1 H2]; subst. apply IH in H1. destruct H1 as (H1 & H3 & H4).
      rewrite Forall_app in H2. destruct H2 as [H2 H5]. rewrite Forall_forall in H5.
      split; [constructor; assumption|]. split; [exact H3|].
      intros x y [<-|Hx] Hy; [exact (H5 y Hy)|exact (H4 x y Hx Hy)].
    + intros (H1 & H2 & H3). inversion H1 as [|? ? H4 H5]; subst. constructor.
      * apply IH. auto.
      * apply Forall_app. split; [exact H5|]. apply Forall_forall. auto.
Qed.

Lemma sorted_map {X Y} (R : X -> X -> Prop) (S : Y -> Y -> Prop) (g : X -> Y) l :
  (forall x y, In x l -> In y l -> R x y -> S (g x) (g y)) ->
  StronglySorted R l -> StronglySorted S (map g l).
Proof.
  intros Hg. induction l as [|a l IH]; intros H; simpl; [constructor|].
  inversion H as [|? ? H1 H2]; subst. constructor.
  - apply IH; [|exact H1]. intros x y Hx Hy. apply Hg; right; assumption.
  - rewrite Forall_forall in *. intros y Hy. rewrite in_map_iff in Hy. destruct Hy as (x & <- & Hx).
    apply Hg; [left; reflexivity|right; exact Hx|exact (H2 x Hx)].
Qed.

Lemma sorted_impl {X} (R S : X -> X -> Prop) l :
  (forall x y, In x l -> In y l -> R x y -> S x y) -> StronglySorted R l -> StronglySorted S l.
Proof. intros H Hs. rewrite <- (map_id l). apply (sorted_map R S (fun x => x) l H Hs). Qed.

Lemma sorted_filter {X} (R : X -> X -> Prop) (t : X -> bool) l :
  StronglySorted R l -> StronglySorted R (filter t l).
Proof.
  induction 1 as [|a l H IH Ha]; simpl; [constructor|]. destruct (t a); [|exact IH].
  constructor; [exact IH|]. rewrite Forall_forall in *. intros x Hx. apply filter_In in Hx.
  apply Ha. tauto.
Qed.

(** Two strictly sorted lists with the same elements are equal. *)
Lemma sorted_unique {X} (R : X -> X -> Prop) :
  (forall x, ~ R x x) -> (forall x y, R x y -> R y x -> False) ->
  forall l m, StronglySorted R l -> StronglySorted R m -> (forall x, In x l <-> In x m) -> l = m.
Proof.
  intros Hirr Hasym. induction l as [|a l IH]; intros m Hl Hm Hin.
  - destruct m as [|b m]; [reflexivity|]. exfalso. apply (Hin b). left. reflexivity.
  - destruct m as [|b m]; [exfalso; apply (Hin a); left; reflexivity|].
    inversion Hl as [|? ? Hl1 Hl2]; subst. inversion Hm as [|? ? Hm1 Hm2]; subst.
    rewrite Forall_forall in Hl2, Hm2.
    assert (a = b) as <-.
    { destruct (proj1 (Hin a) (or_introl eq_refl)) as [E|Ha]; [auto|].
      destruct (proj2 (Hin b) (or_introl eq_refl)) as [E|Hb]; [auto|].
      exfalso. exact (Hasym a b (Hl2 b Hb) (Hm2 a Ha)). }
    f_equal. apply IH; [exact Hl1|exact Hm1|]. intros x. split; intros Hx.
    + destruct (proj1 (Hin x) (or_intror Hx)) as [E|H]; [|exact H].
      subst x. exfalso. exact (Hirr a (Hl2 a Hx)).
    + destruct (proj2 (Hin x) (or_intror Hx)) as [E|H]; [|exact H].
      subst x. exfalso. exact (Hirr a (Hm2 a Hx)).
Qed.

Lemma seq_sorted n : forall a, StronglySorted lt (seq a n).
Proof.
  induction n as [|n IH]; intros a; simpl; [constructor|]. constructor; [apply IH|].
  apply Forall_forall. intros x Hx. apply in_seq in Hx. lia.
Qed.

Section SortBy.
  Context {A : Type} (compare : A -> A -> comparison).
  Hypothesis preorder : total_preorder compare.

  Let cmp_opp : forall a b, compare b a = CompOpp (compare a b) := proj1 preorder.
  Let cmp_trans : forall a b c, compare a b <> Gt -> compare b c <> Gt -> compare a c <> Gt
    := proj2 preorder.

  (** The order on indexes. *)
  Definition vlt (i : nat) (vi : A) (j : nat) (vj : A) : Prop :=
    compare vi vj = Lt \/ (compare vi vj = Eq /\ i < j).
  Definition ilt (l : list A) (i j : nat) : Prop :=
    exists vi vj, nth_error l i = Some vi /\ nth_error l j = Some vj /\ vlt i vi j vj.

  Lemma cmp_refl a : compare a a = Eq.
  Proof. assert (H := cmp_opp a a). destruct (compare a a); [reflexivity|discriminate|discriminate]. Qed.

  Lemma vlt_irrefl i v : ~ vlt i v i v.
  Proof. intros [H|[_ H]]; [rewrite cmp_refl in H; discriminate|lia]. Qed.

  Lemma vlt_trans i a j b k c : vlt i a j b -> vlt j b k c -> vlt i a k c.
  Proof.
    unfold vlt. intros H1 H2.
    assert (Hab : compare a b <> Gt) by (destruct H1 as [H|[H _]]; rewrite H; discriminate).
    assert (Hbc : compare b c <> Gt) by (destruct H2 as [H|[H _]]; rewrite H; discriminate).
    assert (Hac := cmp_trans a b c Hab Hbc).
    destruct (compare a c) eqn:E; [|left; reflexivity|congruence].
    right. split; [reflexivity|].
    assert (Hca : compare c a <> Gt) by (rewrite (cmp_opp a c), E; discriminate).
    assert (Hba : compare b a <> Gt) by exact (cmp_trans b c a Hbc Hca).
    assert (Hcb : compare c b <> Gt) by exact (cmp_trans c a b Hca Hab).
    rewrite (cmp_opp a b) in Hba. rewrite (cmp_opp b c) in Hcb.
    destruct H1 as [H1|[H1 H1']]; [rewrite H1 in Hba; simpl in Hba; congruence|].
    destruct H2 as [H2|[H2 H2']]; [rewrite H2 in Hcb; simpl in Hcb; congruence|]. lia.
  Qed.

  Lemma vlt_total i a j b : i <> j -> vlt i a j b \/ vlt j b i a.
  Proof.
    intros Hij. unfold vlt. rewrite (cmp_opp a b). destruct (compare a b) eqn:E; simpl.
    - destruct (Nat.lt_ge_cases i j); [left; right; auto|right; right; split; [reflexivity|lia]].
    - left; left; reflexivity.
    - right; left; reflexivity.
  Qed.

  Lemma ilt_irrefl l i : ~ ilt l i i.
  Proof.
    intros (a & b & Ha & Hb & H). rewrite Ha in Hb. injection Hb as <-. exact (vlt_irrefl i a H).
  Qed.

  Lemma ilt_trans l i j k : ilt l i j -> ilt l j k -> ilt l i k.
  Proof.
    intros (a & b & Ha & Hb & H1) (b' & c & Hb' & Hc & H2). rewrite Hb in Hb'. injection Hb' as <-.
    exists a, c. split; [exact Ha|]. split; [exact Hc|]. exact (vlt_trans _ _ _ _ _ _ H1 H2).
  Qed.

  Lemma ilt_total l i j : i < length l -> j < length l -> i <> j -> ilt l i j \/ ilt l j i.
  Proof.
    intros Hi Hj Hne.
    destruct (nth_error l i) as [a|] eqn:Ea; [|apply nth_error_None in Ea; lia].
    destruct (nth_error l j) as [b|] eqn:Eb; [|apply nth_error_None in Eb; lia].
    destruct (vlt_total i a j b Hne) as [H|H]; [left; exists a, b; auto|right; exists b, a; auto].
  Qed.

  Lemma vlt_cmp_lt i a j b : vlt i a j b -> then_with (compare a b) (Nat.compare i j) = Lt.
  Proof.
    intros [H|[H H']]; rewrite H; simpl; [reflexivity|]. apply Nat.compare_lt_iff. exact H'.
  Qed.

  Lemma vlt_cmp_gt i a j b : vlt j b i a -> then_with (compare a b) (Nat.compare i j) = Gt.
  Proof.
    intros [H|[H H']]; rewrite (cmp_opp b a), H; simpl; [reflexivity|]. apply Nat.compare_gt_iff. exact H'.
  Qed.

  Lemma cmp_same i a : then_with (compare a a) (Nat.compare i i) = Eq.
  Proof. rewrite cmp_refl. simpl. apply Nat.compare_refl. Qed.

  (** ** The searches *)
  Lemma search_insert l p q k : k < length l ->
    (forall x, In x p -> ilt l x k) -> (forall x, In x q -> ilt l k x) ->
    sort_search_insert compare l (p ++ q) k = Some (length p).
  Proof.
    intros Hk Hp Hq. unfold sort_search_insert, sort_search.
    destruct (nth_error l k) as [v|] eqn:E; [|apply nth_error_None in E; lia].
    rewrite search_not_found; [reflexivity| |]; apply Forall_forall; intros x Hx.
    - destruct (Hp x Hx) as (a & b & Ha & Hb & H). rewrite Ha. rewrite E in Hb. injection Hb as <-.
      f_equal. apply vlt_cmp_lt. exact H.
    - destruct (Hq x Hx) as (b & a & Hb & Ha & H). rewrite Ha. rewrite E in Hb. injection Hb as <-.
      f_equal. apply vlt_cmp_gt. exact H.
  Qed.

  Lemma search_remove l p q k : k < length l ->
    (forall x, In x p -> ilt l x k) -> (forall x, In x q -> ilt l k x) ->
    sort_search_remove compare l (p ++ k :: q) k = Some (length p).
  Proof.
    intros Hk Hp Hq. unfold sort_search_remove, sort_search.
    destruct (nth_error l k) as [v|] eqn:E; [|apply nth_error_None in E; lia].
    rewrite search_found; [reflexivity| | |]; try (apply Forall_forall; intros x Hx).
    - destruct (Hp x Hx) as (a & b & Ha & Hb & H). rewrite Ha. rewrite E in Hb. injection Hb as <-.
      f_equal. apply vlt_cmp_lt. exact H.
    - rewrite E. f_equal. apply cmp_same.
    - destruct (Hq x Hx) as (b & a & Hb & Ha & H). rewrite Ha. rewrite E in Hb. injection Hb as <-.
      f_equal. apply vlt_cmp_gt. exact H.
  Qed.

  (** ** The invariant on indexes *)
  (** All the indexes that satisfy [D], in order. *)
  Definition iinv (D : nat -> Prop) (l : list A) (idx : list nat) : Prop :=
    (forall i, In i idx <-> i < length l /\ D i) /\ StronglySorted (ilt l) idx.
  Definition full (l : list A) := iinv (fun _ => True) l.
  Definition but (k : nat) (l : list A) := iinv (fun i => i <> k) l.

  Lemma full_split l idx k : full l idx -> k < length l ->
    exists p q, idx = p ++ k :: q /\ sort_search_remove compare l idx k = Some (length p)
      /\ but k l (p ++ q).
  Proof.
    intros [Hin Hs] Hk. destruct (in_split k idx) as (p & q & ->); [apply Hin; auto|].
    exists p, q. split; [reflexivity|].
    rewrite sorted_app in Hs. destruct Hs as (Hp & Hq & Hpq). inversion Hq as [|? ? Hq1 Hq2]; subst.
    rewrite Forall_forall in Hq2. split.
    - apply search_remove; [exact Hk| |exact Hq2]. intros x Hx. apply Hpq; [exact Hx|left; reflexivity].
    - split.
      + intros i. split.
        * intros Hi. split.
          -- apply Hin. apply in_app_or in Hi. apply in_or_app. simpl. tauto.
          -- intros ->. apply in_app_or in Hi. destruct Hi as [Hi|Hi].
             ++ apply (ilt_irrefl l k). apply Hpq; [exact Hi|left; reflexivity].
             ++ exact (ilt_irrefl l k (Hq2 k Hi)).
        * intros [Hi Hne]. assert (H := proj2 (Hin i) (conj Hi I)).
          apply in_app_or in H. apply in_or_app. destruct H as [H|[H|H]]; [auto|congruence|auto].
      + apply sorted_app. split; [exact Hp|]. split; [exact Hq1|].
        intros x y Hx Hy. apply Hpq; [exact Hx|right; exact Hy].
  Qed.

  Lemma sorted_place l idx k : k < length l -> ~ In k idx -> (forall i, In i idx -> i < length l) ->
    StronglySorted (ilt l) idx ->
    exists p q, idx = p ++ q /\ (forall x, In x p -> ilt l x k) /\ (forall x, In x q -> ilt l k x).
  Proof.
    intros Hk. induction idx as [|i idx IH]; intros Hni Hr Hs.
    - exists [], []. split; [reflexivity|]. split; intros x [].
    - inversion Hs as [|? ? Hs1 Hs2]; subst. rewrite Forall_forall in Hs2.
      destruct (ilt_total l i k) as [H|H].
      + apply Hr. left. reflexivity.
      + exact Hk.
      + intros ->. apply Hni. left. reflexivity.
      + destruct IH as (p & q & -> & Hp & Hq).
        * intros Hi. apply Hni. right. exact Hi.
        * intros j Hj. apply Hr. right. exact Hj.
        * exact Hs1.
        * exists (i :: p), q. split; [reflexivity|]. split; [|exact Hq].
          intros x [<-|Hx]; [exact H|exact (Hp x Hx)].
      + exists [], (i :: idx). split; [reflexivity|]. split; [intros x []|].
        intros x [<-|Hx]; [exact H|]. exact (ilt_trans l k i x H (Hs2 x Hx)).
  Qed.

  Lemma but_insert l idx k : but k l idx -> k < length l ->
    exists p q, idx = p ++ q /\ sort_search_insert compare l idx k = Some (length p)
      /\ full l (p ++ k :: q).
  Proof.
    intros [Hin Hs] Hk.
    destruct (sorted_place l idx k Hk) as (p & q & -> & Hp & Hq).
    - intros H. apply Hin in H. tauto.
    - intros i H. apply Hin in H. tauto.
    - exact Hs.
    - exists p, q. split; [reflexivity|]. split; [apply search_insert; assumption|]. split.
      + intros i. split.
        * intros Hi. split; [|exact I]. apply in_app_or in Hi.
          destruct Hi as [Hi|[<-|Hi]]; [|exact Hk|]; apply Hin; apply in_or_app; tauto.
        * intros [Hi _]. apply in_or_app. destruct (Nat.eq_dec i k) as [->|Hne]; [right; left; reflexivity|].
          assert (H := proj2 (Hin i) (conj Hi Hne)). apply in_app_or in H. simpl. tauto.
      + rewrite sorted_app in *. destruct Hs as (H1 & H2 & H3). split; [exact H1|]. split.
        * constructor; [exact H2|]. apply Forall_forall. exact Hq.
        * intros x y Hx [<-|Hy]; [exact (Hp x Hx)|exact (H3 x y Hx Hy)].
  Qed.

  (** The list shown for some indexes. *)
  Definition shown (l : list A) (idx : list nat) (out : list A) : Prop :=
    Forall2 (fun i v => nth_error l i = Some v) idx out.

  (** Renumbering. *)
  Lemma ilt_renumber l l' (g : nat -> nat) (D : nat -> Prop) :
    (forall i, D i -> nth_error l' (g i) = nth_error l i) ->
    (forall i j, D i -> D j -> i < j -> g i < g j) ->
    forall i j, D i -> D j -> ilt l i j -> ilt l' (g i) (g j).
  Proof.
    intros Hn Hm i j Hi Hj (a & b & Ha & Hb & H). exists a, b.
    rewrite (Hn i Hi), (Hn j Hj). split; [exact Ha|]. split; [exact Hb|].
    destruct H as [H|[H H']]; [left; exact H|right; split; [exact H|exact (Hm i j Hi Hj H')]].
  Qed.

  Lemma shown_renumber l l' (g : nat -> nat) idx out :
    (forall i, In i idx -> nth_error l' (g i) = nth_error l i) ->
    shown l idx out -> shown l' (map g idx) out.
  Proof.
    intros Hg H. induction H as [|i v idx out H1 H2 IH]; simpl; [constructor|]. constructor.
    - rewrite Hg by (left; reflexivity). exact H1.
    - apply IH. intros j Hj. apply Hg. right. exact Hj.
  Qed.

  Lemma nth_mid (l1 l2 : list A) x : nth_error (l1 ++ x :: l2) (length l1) = Some x.
  Proof. rewrite nth_error_app2, Nat.sub_diag by lia. reflexivity. Qed.

  Lemma nth_dec (l1 l2 : list A) x i : i <> length l1 ->
    nth_error (l1 ++ l2) (if length l1 <? i then i - 1 else i) = nth_error (l1 ++ x :: l2) i.
  Proof.
    intros Hi. destruct (Nat.ltb_spec (length l1) i) as [H|H].
    - rewrite !nth_error_app2 by lia. replace (i - length l1) with (S (i - 1 - length l1)) by lia. reflexivity.
    - rewrite !nth_error_app1 by lia. reflexivity.
  Qed.

  Lemma nth_inc (l1 l2 : list A) x i :
    nth_error (l1 ++ x :: l2) (if length l1 <=? i then i + 1 else i) = nth_error (l1 ++ l2) i.
  Proof.
    destruct (Nat.leb_spec (length l1) i) as [H|H].
    - rewrite !nth_error_app2 by lia. replace (i + 1 - length l1) with (S (i - length l1)) by lia. reflexivity.
    - rewrite !nth_error_app1 by lia. reflexivity.
  Qed.

  Lemma but_decrement l1 x l2 idx : but (length l1) (l1 ++ x :: l2) idx ->
    full (l1 ++ l2) (decrement_indexes idx (length l1)).
  Proof.
    intros [Hin Hs]. split.
    - intros i. unfold decrement_indexes. rewrite in_map_iff. rewrite app_length in *. simpl in Hin. split.
      + intros (j & <- & Hj). apply Hin in Hj. split; [|exact I].
        destruct (Nat.ltb_spec (length l1) j); lia.
      + intros [Hi _]. destruct (Nat.lt_ge_cases i (length l1)) as [H|H].
        * exists i. destruct (Nat.ltb_spec (length l1) i); [lia|]. split; [reflexivity|]. apply Hin. lia.
        * exists (i + 1). destruct (Nat.ltb_spec (length l1) (i + 1)); [|lia]. split; [lia|]. apply Hin. lia.
    - unfold decrement_indexes. revert Hs. apply sorted_map. intros i j Hi Hj.
      apply (ilt_renumber _ _ (fun i => if length l1 <? i then i - 1 else i) (fun i => i <> length l1)).
      + intros k Hk. apply nth_dec. exact Hk.
      + intros a b Ha Hb Hab. destruct (Nat.ltb_spec (length l1) a), (Nat.ltb_spec (length l1) b); lia.
      + apply Hin in Hi. tauto.
      + apply Hin in Hj. tauto.
  Qed.

  Lemma shown_decrement l1 x l2 idx out : ~ In (length l1) idx ->
    shown (l1 ++ x :: l2) idx out -> shown (l1 ++ l2) (decrement_indexes idx (length l1)) out.
  Proof.
    intros Hni. apply shown_renumber. intros i Hi. apply nth_dec. intros ->. exact (Hni Hi).
  Qed.

  Lemma full_increment l1 x l2 idx : full (l1 ++ l2) idx ->
    but (length l1) (l1 ++ x :: l2) (increment_indexes idx (length l1)).
  Proof.
    intros [Hin Hs]. split.
    - intros i. unfold increment_indexes. rewrite in_map_iff. rewrite app_length in *. simpl. split.
      + intros (j & <- & Hj). apply Hin in Hj.
        destruct (Nat.leb_spec (length l1) j); lia.
      + intros [Hi Hne]. destruct (Nat.lt_ge_cases i (length l1)) as [H|H].
        * exists i. destruct (Nat.leb_spec (length l1) i); [lia|]. split; [reflexivity|]. apply Hin. split; [lia|exact I].
        * exists (i - 1). destruct (Nat.leb_spec (length l1) (i - 1)); [|lia]. split; [lia|]. apply Hin. split; [lia|exact I].
    - unfold increment_indexes. revert Hs. apply sorted_map. intros i j Hi Hj.
      apply (ilt_renumber _ _ (fun i => if length l1 <=? i then i + 1 else i) (fun _ => True)).
      + intros k _. apply nth_inc.
      + intros a b _ _ Hab. destruct (Nat.leb_spec (length l1) a), (Nat.leb_spec (length l1) b); lia.
      + exact I.
      + exact I.
  Qed.

  Lemma shown_increment l1 x l2 idx out :
    shown (l1 ++ l2) idx out -> shown (l1 ++ x :: l2) (increment_indexes idx (length l1)) out.
  Proof. apply shown_renumber. intros i _. apply nth_inc. Qed.

  Lemma nth_other (l1 l2 : list A) x y i : i <> length l1 ->
    nth_error (l1 ++ y :: l2) i = nth_error (l1 ++ x :: l2) i.
  Proof.
    intros Hi. destruct (Nat.lt_ge_cases i (length l1)) as [H|H].
    - rewrite !nth_error_app1 by exact H. reflexivity.
    - rewrite !nth_error_app2 by exact H. replace (i - length l1) with (S (i - length l1 - 1)) by lia. reflexivity.
  Qed.

  Lemma but_update l1 x y l2 idx : but (length l1) (l1 ++ x :: l2) idx ->
    but (length l1) (l1 ++ y :: l2) idx.
  Proof.
    intros [Hin Hs]. split.
    - intros i. rewrite Hin, !app_length. reflexivity.
    - revert Hs. apply sorted_impl. intros i j Hi Hj.
      apply (ilt_renumber _ _ (fun i => i) (fun i => i <> length l1)).
      + intros k Hk. apply nth_other. exact Hk.
      + auto.
      + apply Hin in Hi. tauto.
      + apply Hin in Hj. tauto.
  Qed.

  Lemma shown_update l1 x y l2 idx out : ~ In (length l1) idx ->
    shown (l1 ++ x :: l2) idx out -> shown (l1 ++ y :: l2) idx out.
  Proof.
    intros Hni H. rewrite <- (map_id idx). apply (shown_renumber (l1 ++ x :: l2) _ (fun i => i)); [|exact H].
    intros i Hi. apply nth_other. intros ->. exact (Hni Hi).
  Qed.

  Lemma shown_length l idx out : shown l idx out -> length idx = length out.
  Proof. induction 1; simpl; congruence. Qed.

  Lemma shown_mid l p k q out : shown l (p ++ k :: q) out ->
    exists op v oq, out = op ++ v :: oq /\ length op = length p /\ nth_error l k = Some v
      /\ shown l p op /\ shown l q oq.
  Proof.
    intros H. apply Forall2_app_inv_l in H. destruct H as (op & o2 & H1 & H2 & ->).
    inversion H2 as [|? v ? oq Hv H3]; subst. exists op, v, oq. repeat split; auto.
    symmetry. exact (shown_length _ _ _ H1).
  Qed.

  Lemma shown_split l p q out : shown l (p ++ q) out ->
    exists op oq, out = op ++ oq /\ length op = length p /\ shown l p op /\ shown l q oq.
  Proof.
    intros H. apply Forall2_app_inv_l in H. destruct H as (op & oq & H1 & H2 & ->).
    exists op, oq. repeat split; auto. symmetry. exact (shown_length _ _ _ H1).
  Qed.

  (** ** insert_at and remove_at *)
  Lemma remove_at_spec (p : list nat) (k : nat) (q : list nat) (op : list A) (v : A) (oq : list A) : length op = length p -> length oq = length q ->
    exists d, sort_remove_at (A := A) (p ++ k :: q) (length p) = Some (p ++ q, d)
      /\ apply_to_vec d (op ++ v :: oq) = Some (op ++ oq).
  Proof.
    intros Hp Hq. unfold sort_remove_at. rewrite usub_Some by (rewrite app_length; simpl; lia).
    rewrite app_length. simpl.
    destruct (Nat.eqb_spec (length p) (length p + S (length q) - 1)) as [E|E].
    - destruct q as [|x q]; [|simpl in E; lia]. destruct oq; [|discriminate].
      unfold vpop. rewrite rev_app_distr. simpl. rewrite rev_involutive.
      exists Pop. rewrite !app_nil_r. split; [reflexivity|]. apply apply_pop_app.
    - rewrite vremove_app by reflexivity. exists (RemoveAt (length p)). split; [reflexivity|].
      apply apply_remove_app. exact Hp.
  Qed.

  Lemma insert_at_spec (p : list nat) (k : nat) (q : list nat) (op : list A) (v : A) (oq : list A) : length op = length p -> length oq = length q ->
    exists d, sort_insert_at (p ++ q) (length p) k v = Some (p ++ k :: q, d)
      /\ apply_to_vec d (op ++ oq) = Some (op ++ v :: oq).
  Proof.
    intros Hp Hq. unfold sort_insert_at. rewrite app_length.
    destruct (Nat.eqb_spec (length p) (length p + length q)) as [E|E].
    - destruct q as [|x q]; [|simpl in E; lia]. destruct oq; [|discriminate].
      exists (Push v). rewrite !app_nil_r. split; reflexivity.
    - rewrite vinsert_app by reflexivity. exists (InsertAt (length p) v). split; [reflexivity|].
      apply apply_insert_app. exact Hp.
  Qed.

  (** ** Replace *)
  Lemma sort_insert_spec l r k : k < length l -> ~ In k r -> (forall i, In i r -> i < length l) ->
    StronglySorted (ilt l) r ->
    exists r', sort_insert (compare_at compare l) k r = Some r' /\ StronglySorted (ilt l) r'
      /\ (forall i, In i r' <-> i = k \/ In i r).
  Proof.
    intros Hk. induction r as [|i r IH]; intros Hni Hr Hs.
    - exists [k]. split; [reflexivity|]. split; [repeat constructor|].
      intros i. simpl. split; [intros [H|[]]; auto|intros [H|[]]; auto].
    - inversion Hs as [|? ? Hs1 Hs2]; subst. rewrite Forall_forall in Hs2. cbn [sort_insert].
      assert (Hi : i < length l) by (apply Hr; left; reflexivity).
      assert (Hne : i <> k) by (intros ->; apply Hni; left; reflexivity).
      destruct (ilt_total l i k Hi Hk Hne) as [H|H].
      + unfold compare_at at 1. destruct H as (a & b & Ha & Hb & H). rewrite Ha, Hb.
        rewrite (vlt_cmp_gt k b i a H).
        destruct IH as (r' & E & Hs' & Hin').
        * intros Hx. apply Hni. right. exact Hx.
        * intros j Hj. apply Hr. right. exact Hj.
        * exact Hs1.
        * rewrite E. exists (i :: r'). split; [reflexivity|]. split.
          -- constructor; [exact Hs'|]. apply Forall_forall. intros x Hx. apply Hin' in Hx.
             destruct Hx as [->|Hx]; [exists a, b; auto|exact (Hs2 x Hx)].
          -- intros x. simpl. rewrite Hin'. tauto.
      + assert (Hc : compare_at compare l k i = Some Lt).
        { unfold compare_at. destruct H as (a & b & Ha & Hb & H). rewrite Ha, Hb.
          rewrite (vlt_cmp_lt k a i b H). reflexivity. }
        rewrite Hc. exists (k :: i :: r). split; [reflexivity|]. split.
        * constructor; [exact Hs|]. apply Forall_forall. intros x [<-|Hx]; [exact H|].
          exact (ilt_trans l k i x H (Hs2 x Hx)).
        * intros x. simpl. split; intros Hx; [destruct Hx as [Hx|Hx]; [left; auto|right; exact Hx]|destruct Hx as [->|Hx]; [left; reflexivity|right; exact Hx]].
  Qed.

  Lemma sort_unstable_spec l s : (forall i, In i s -> i < length l) -> NoDup s ->
    exists r, sort_unstable_by (compare_at compare l) s = Some r /\ StronglySorted (ilt l) r
      /\ (forall i, In i r <-> In i s).
  Proof.
    induction s as [|k s IH]; intros Hr Hnd.
    - exists []. split; [reflexivity|]. split; [constructor|tauto].
    - inversion Hnd as [|? ? Hni Hnd']; subst. destruct IH as (r & E & Hs & Hin).
      + intros i Hi. apply Hr. right. exact Hi.
      + exact Hnd'.
      + simpl. rewrite E. destruct (sort_insert_spec l r k) as (r' & E' & Hs' & Hin').
        * apply Hr. left. reflexivity.
        * rewrite Hin. exact Hni.
        * intros i Hi. apply Hin in Hi. apply Hr. right. exact Hi.
        * exact Hs.
        * exists r'. split; [exact E'|]. split; [exact Hs'|].
          intros i. rewrite Hin', Hin. simpl. split; intros [H|H]; auto.
  Qed.

  Lemma pick_shown l idx : (forall i, In i idx -> i < length l) ->
    exists out, pick l idx = Some out /\ shown l idx out.
  Proof.
    induction idx as [|i idx IH]; intros Hr.
    - exists []. split; [reflexivity|constructor].
    - destruct IH as (out & E & H); [intros j Hj; apply Hr; right; exact Hj|]. simpl.
      destruct (nth_error l i) as [v|] eqn:Ev.
      + rewrite E. exists (v :: out). split; [reflexivity|]. constructor; assumption.
      + apply nth_error_None in Ev. assert (i < length l) by (apply Hr; left; reflexivity). lia.
  Qed.

  (** ** One change *)
  Definition sinv (s : sort_state (A := A)) (ds os : list (vecdiff A)) : Prop :=
    exists l out mid, replay ds = Some l /\ so_values s = l /\ full l (so_indexes s)
      /\ shown l (so_indexes s) out /\ replay os = Some mid
      /\ match so_pending s with
         | None => mid = out
         | Some d => apply_to_vec d mid = Some out
             /\ exists p x q, out = p ++ x :: q /\ mid = p ++ q
                /\ exists ds' i, ds = ds' ++ [UpdateAt i x]
         end.

  Lemma full_nil : full [] [].
  Proof. split; [|constructor]. intros i. simpl. split; [intros []|intros [H _]; lia]. Qed.

  Lemma but_not_in k l idx : but k l idx -> ~ In k idx.
  Proof. intros [Hin _] H. apply Hin in H. tauto. Qed.

  Lemma full_but_push l v idx : full l idx -> but (length l) (l ++ [v]) idx.
  Proof.
    intros [Hin Hs]. split.
    - intros i. rewrite Hin, app_length. simpl. split; intros [H1 H2]; [split; lia|split; [lia|exact I]].
    - revert Hs. apply sorted_impl. intros i j Hi Hj.
      apply (ilt_renumber _ _ (fun i => i) (fun i => i < length l)).
      + intros k Hk. rewrite nth_error_app1 by exact Hk. reflexivity.
      + auto.
      + apply Hin in Hi. tauto.
      + apply Hin in Hj. tauto.
  Qed.

  Lemma shown_push l v idx out : shown l idx out -> shown (l ++ [v]) idx out.
  Proof.
    intros H. induction H as [|i w idx out H1 H2 IH]; constructor; [|exact IH].
    rewrite nth_error_app1; [exact H1|]. apply nth_error_Some. rewrite H1. discriminate.
  Qed.

  Lemma shown_app l p q op oq : shown l p op -> shown l q oq -> shown l (p ++ q) (op ++ oq).
  Proof. apply Forall2_app. Qed.

  Lemma shown_ins l p k q op v oq : nth_error l k = Some v -> shown l p op -> shown l q oq ->
    shown l (p ++ k :: q) (op ++ v :: oq).
  Proof. intros Hk Hp Hq. apply shown_app; [exact Hp|]. constructor; assumption. Qed.

  Lemma decrement_app p q k : decrement_indexes (p ++ q) k = decrement_indexes p k ++ decrement_indexes q k.
  Proof. apply map_app. Qed.
  Lemma decrement_self k q : decrement_indexes (k :: q) k = k :: decrement_indexes q k.
  Proof. unfold decrement_indexes. simpl. rewrite Nat.ltb_irrefl. reflexivity. Qed.
  Lemma decrement_length p k : length (decrement_indexes p k) = length p.
  Proof. apply map_length. Qed.
  Lemma increment_length p k : length (increment_indexes p k) = length p.
  Proof. apply map_length. Qed.

  Lemma sort_step_inv s ds os d : so_pending s = None ->
    sinv s ds os -> replay (ds ++ [d]) <> None ->
    exists s' oo, sort_step compare s d = Some (s', oo) /\ sinv s' (ds ++ [d]) (os ++ olist oo)
      /\ (oo = None -> so_pending s' = None).
  Proof.
    intros Hpend (l & out & mid & Hl & Hv & Hf & Hsh & Ho & Hm) Hg.
    destruct s as [pd vs idx]. cbn [so_pending so_values so_indexes] in *. subst pd vs mid.
    rewrite replay_snoc, Hl in Hg. destruct (apply_to_vec d l) as [l'|] eqn:Ha; [|congruence]. clear Hg.
    assert (Hl' : replay (ds ++ [d]) = Some l') by (rewrite replay_snoc, Hl; exact Ha).
    (* the ordinary case: one diff, nothing pending *)
    assert (Hone : forall idx' out' dd, full l' idx' -> shown l' idx' out' ->
      apply_to_vec dd out = Some out' ->
      exists s' oo, Some (mkSort None l' idx', Some dd) = Some (s', oo)
        /\ sinv s' (ds ++ [d]) (os ++ olist oo) /\ (oo = None -> so_pending s' = None)).
    { intros idx' out' dd Hf' Hs' Hd. do 2 eexists. split; [reflexivity|]. split; [|reflexivity].
      exists l', out', out'. cbn [so_pending so_values so_indexes olist].
      rewrite (replay_snoc os), Ho. split; [exact Hl'|]. split; [reflexivity|]. split; [exact Hf'|].
      split; [exact Hs'|]. split; [exact Hd|reflexivity]. }
    apply apply_inv in Ha. destruct d as [nv|i x|i x|i|o n|x| |]; cbn [sort_step].
    - (* Replace *)
      subst l'. destruct (sort_unstable_spec nv (seq 0 (length nv))) as (r & E & Hs & Hin).
      { intros i Hi. apply in_seq in Hi. lia. }
      { apply seq_NoDup. }
      rewrite E. destruct (pick_shown nv r) as (out' & E' & Hs').
      { intros i Hi. apply Hin in Hi. apply in_seq in Hi. lia. }
      rewrite E'. apply Hone with (out' := out'); [|exact Hs'|reflexivity].
      split; [|exact Hs]. intros i. rewrite Hin, in_seq. split; [intros H; split; [lia|exact I]|lia].
    - (* InsertAt *)
      destruct Ha as (l1 & l2 & -> & -> & <-). rewrite vinsert_app by reflexivity.
      assert (Hb := full_increment l1 x l2 idx Hf).
      assert (Hs1 := shown_increment l1 x l2 idx out Hsh).
      destruct (but_insert _ _ _ Hb) as (p & q & E & Es & Hf').
      { rewrite app_length. simpl. lia. }
      rewrite Es, E in *. destruct (shown_split _ _ _ _ Hs1) as (op & oq & -> & Hlp & Hp & Hq).
      destruct (insert_at_spec p (length l1) q op x oq Hlp (eq_sym (shown_length _ _ _ Hq))) as (dd & E2 & Ha).
      rewrite E2. apply Hone with (out' := op ++ x :: oq); [exact Hf'| |exact Ha].
      apply shown_ins; [apply nth_mid|exact Hp|exact Hq].
    - (* UpdateAt *)
      destruct Ha as (l1 & y & l2 & -> & -> & <-).
      destruct (full_split _ _ (length l1) Hf) as (p & q & -> & Es & Hb).
      { rewrite app_length. simpl. lia. }
      rewrite Es. destruct (shown_mid _ _ _ _ _ Hsh) as (op & v & oq & -> & Hlp & _ & Hp & Hq).
      assert (Hlq := eq_sym (shown_length _ _ _ Hq)).
      destruct (remove_at_spec p (length l1) q op v oq Hlp Hlq) as (dd & E2 & Ha).
      rewrite E2, vset_app by reflexivity.
      assert (Hni := but_not_in _ _ _ Hb).
      assert (Hb' := but_update l1 y x l2 _ Hb).
      assert (Hs' : shown (l1 ++ x :: l2) (p ++ q) (op ++ oq)).
      { apply (shown_update l1 y x l2); [exact Hni|]. apply shown_app; assumption. }
      destruct (but_insert _ _ _ Hb') as (p' & q' & E & Es' & Hf').
      { rewrite app_length. simpl. lia. }
      rewrite Es'. rewrite E in Hs'. destruct (shown_split _ _ _ _ Hs') as (op' & oq' & Eo & Hlp' & Hp' & Hq').
      assert (Hlq' := eq_sym (shown_length _ _ _ Hq')).
      destruct (Nat.eqb_spec (length p) (length p')) as [El|El].
      + destruct (app_inj_length p p' q q' E El) as [-> ->].
        destruct (app_inj_length op op' oq oq' Eo) as [-> ->]; [lia|].
        rewrite vinsert_app by reflexivity.
        apply Hone with (out' := op' ++ x :: oq'); [exact Hf'| |].
        * apply shown_ins; [apply nth_mid|exact Hp'|exact Hq'].
        * apply apply_update_app. exact Hlp.
      + rewrite E. destruct (insert_at_spec p' (length l1) q' op' x oq' Hlp' Hlq') as (dd' & E3 & Ha').
        rewrite E3. do 2 eexists. split; [reflexivity|]. split; [|discriminate].
        exists (l1 ++ x :: l2), (op' ++ x :: oq'), (op ++ oq). cbn [so_pending so_values so_indexes olist].
        split; [exact Hl'|]. split; [reflexivity|]. split; [exact Hf'|].
        split; [apply shown_ins; [apply nth_mid|exact Hp'|exact Hq']|].
        split; [rewrite replay_snoc, Ho; exact Ha|]. split; [rewrite Eo; exact Ha'|].
        exists op', x, oq'. split; [reflexivity|]. split; [exact Eo|]. eexists _, _. reflexivity.
    - (* RemoveAt *)
      destruct Ha as (l1 & y & l2 & -> & -> & <-).
      destruct (full_split _ _ (length l1) Hf) as (p & q & -> & Es & Hb).
      { rewrite app_length. simpl. lia. }
      rewrite Es. rewrite vremove_app by reflexivity.
      destruct (shown_mid _ _ _ _ _ Hsh) as (op & v & oq & -> & Hlp & _ & Hp & Hq).
      rewrite decrement_app, decrement_self.
      destruct (remove_at_spec (decrement_indexes p (length l1)) (length l1) (decrement_indexes q (length l1))
        op v oq) as (dd & E2 & Ha).
      { rewrite decrement_length. exact Hlp. }
      { rewrite decrement_length. exact (eq_sym (shown_length _ _ _ Hq)). }
      rewrite decrement_length in E2. rewrite E2.
      apply Hone with (out' := op ++ oq); [| |exact Ha]; rewrite <- decrement_app.
      + apply but_decrement with (x := y). exact Hb.
      + apply shown_decrement with (x := y); [exact (but_not_in _ _ _ Hb)|]. apply shown_app; assumption.
    - (* Move *)
      destruct Ha as (l1 & y & l2 & m1 & m2 & -> & <- & Hm & -> & <-).
      destruct (full_split _ _ (length l1) Hf) as (p & q & -> & Es & Hb).
      { rewrite app_length. simpl. lia. }
      rewrite Es. rewrite vremove_app by reflexivity.
      destruct (shown_mid _ _ _ _ _ Hsh) as (op & v & oq & -> & Hlp & Hv & Hp & Hq).
      rewrite nth_mid in Hv. injection Hv as <-.
      rewrite decrement_app, decrement_self, vremove_app by (apply decrement_length).
      rewrite <- decrement_app.
      assert (Hf1 := but_decrement l1 y l2 _ Hb).
      assert (Hs1 := shown_decrement l1 y l2 _ _ (but_not_in _ _ _ Hb) (shown_app _ _ _ _ _ Hp Hq)).
      rewrite Hm in *. rewrite vinsert_app by reflexivity.
      assert (Hb2 := full_increment m1 y m2 _ Hf1).
      assert (Hs2 := shown_increment m1 y m2 _ _ Hs1).
      destruct (but_insert _ _ _ Hb2) as (p' & q' & E & Es' & Hf').
      { rewrite app_length. simpl. lia. }
      rewrite Es'. rewrite E in Hs2 |- *.
      destruct (shown_split _ _ _ _ Hs2) as (op' & oq' & Eo & Hlp' & Hp' & Hq').
      rewrite vinsert_app by reflexivity.
      assert (Hsh' : shown (m1 ++ y :: m2) (p' ++ length m1 :: q') (op' ++ y :: oq'))
        by (apply shown_ins; [apply nth_mid|exact Hp'|exact Hq']).
      destruct (Nat.eqb_spec (length p) (length p')) as [El|El].
      + destruct (app_inj_length op op' oq oq' Eo) as [-> ->]; [lia|].
        do 2 eexists. split; [reflexivity|]. split; [|reflexivity].
        exists (m1 ++ y :: m2), (op' ++ y :: oq'), (op' ++ y :: oq').
        cbn [so_pending so_values so_indexes olist]. rewrite app_nil_r.
        split; [exact Hl'|]. split; [reflexivity|]. split; [exact Hf'|]. split; [exact Hsh'|]. split; [exact Ho|reflexivity].
      + apply Hone with (out' := op' ++ y :: oq'); [exact Hf'|exact Hsh'|].
        cbn [apply_to_vec]. rewrite vremove_app by exact Hlp. rewrite Eo. apply vinsert_app. exact Hlp'.
    - (* Push *)
      subst l'.
      assert (Hb := full_but_push l x idx Hf).
      assert (Hs1 := shown_push l x idx out Hsh).
      destruct (but_insert _ _ _ Hb) as (p & q & E & Es & Hf').
      { rewrite app_length. simpl. lia. }
      rewrite Es, E in *. destruct (shown_split _ _ _ _ Hs1) as (op & oq & -> & Hlp & Hp & Hq).
      destruct (insert_at_spec p (length l) q op x oq Hlp (eq_sym (shown_length _ _ _ Hq))) as (dd & E2 & Ha).
      rewrite E2. apply Hone with (out' := op ++ x :: oq); [exact Hf'| |exact Ha].
      apply shown_ins; [apply nth_mid|exact Hp|exact Hq].
    - (* Pop *)
      destruct Ha as (y & ->). rewrite usub_Some by (rewrite app_length; simpl; lia).
      rewrite app_length. replace (length l' + length [y] - 1) with (length l') by (simpl; lia).
      destruct (full_split _ _ (length l') Hf) as (p & q & -> & Es & Hb).
      { rewrite app_length. simpl. lia. }
      rewrite Es. unfold vpop at 1. rewrite rev_app_distr. simpl rev at 1. cbn [app]. rewrite rev_involutive.
      destruct (shown_mid _ _ _ _ _ Hsh) as (op & v & oq & -> & Hlp & _ & Hp & Hq).
      destruct (remove_at_spec p (length l') q op v oq Hlp (eq_sym (shown_length _ _ _ Hq))) as (dd & E2 & Ha).
      rewrite E2. apply Hone with (out' := op ++ oq); [| |exact Ha].
      + assert (H := but_decrement l' y [] _ Hb). rewrite app_nil_r in H.
        replace (decrement_indexes (p ++ q) (length l')) with (p ++ q) in H; [exact H|].
        unfold decrement_indexes. rewrite <- (map_id (p ++ q)) at 1. apply map_ext_in.
        intros a Hin. apply Hb in Hin. rewrite app_length in Hin. simpl in Hin.
        destruct (Nat.ltb_spec (length l') a); lia.
      + assert (H := shown_decrement l' y [] _ _ (but_not_in _ _ _ Hb) (shown_app _ _ _ _ _ Hp Hq)).
        rewrite app_nil_r in H.
        replace (decrement_indexes (p ++ q) (length l')) with (p ++ q) in H; [exact H|].
        unfold decrement_indexes. rewrite <- (map_id (p ++ q)) at 1. apply map_ext_in.
        intros a Hin. apply Hb in Hin. rewrite app_length in Hin. simpl in Hin.
        destruct (Nat.ltb_spec (length l') a); lia.
    - (* Clear *)
      subst l'. apply Hone with (out' := []); [exact full_nil|constructor|reflexivity].
  Qed.

  (** ** From indexes to the stable sort *)
  Lemma shown_in l idx out : shown l idx out -> forall v, In v out -> exists i, In i idx /\ nth_error l i = Some v.
  Proof.
    induction 1 as [|i w idx out H1 H2 IH]; intros v Hv; [destruct Hv|].
    destruct Hv as [<-|Hv]; [exists i; split; [left; reflexivity|exact H1]|].
    destruct (IH v Hv) as (j & Hj & E). exists j. split; [right; exact Hj|exact E].
  Qed.

  Lemma shown_seq (l : list A) : shown l (seq 0 (length l)) l.
  Proof.
    assert (H : forall m k, (forall i, nth_error m i = nth_error l (k + i)) -> shown l (seq k (length m)) m).
    { induction m as [|a m IH]; intros k Hk; simpl; constructor.
      - rewrite <- (Nat.add_0_r k), <- Hk. reflexivity.
      - apply IH. intros i. 
        replace (S k + i) with (k + S i) by lia. rewrite <- Hk. reflexivity. }
    apply H. reflexivity.
  Qed.

  Lemma shown_filter (l : list A) t idx out : shown l idx out ->
    shown l (filter (fun i => match nth_error l i with Some v => t v | None => false end) idx) (filter t out).
  Proof.
    induction 1 as [|i v idx out H1 H2 IH]; simpl; [constructor|]. rewrite H1.
    destruct (t v); [constructor; assumption|exact IH].
  Qed.

  Lemma shown_unique l idx out out' : shown l idx out -> shown l idx out' -> out = out'.
  Proof.
    intros H. revert out'. induction H as [|i v idx out H1 H2 IH]; intros out' H'.
    - inversion H'. reflexivity.
    - inversion H' as [|? v' ? o' E1 E2]; subst. rewrite H1 in E1. injection E1 as <-. f_equal. exact (IH _ E2).
  Qed.

  Lemma shown_perm l idx idx' : Permutation idx idx' ->
    forall out out', shown l idx out -> shown l idx' out' -> Permutation out out'.
  Proof.
    induction 1 as [|i a b Hp IH|i j a|a b c H1 IH1 H2 IH2]; intros out out' Ho Ho'.
    - inversion Ho; inversion Ho'; subst. constructor.
    - inversion Ho as [|? v ? o E1 E2]; subst. inversion Ho' as [|? v' ? o' E3 E4]; subst.
      rewrite E1 in E3. injection E3 as <-. constructor. exact (IH _ _ E2 E4).
    - inversion Ho as [|? v ? o E1 E2]; subst. inversion E2 as [|? w ? o2 E3 E4]; subst.
      inversion Ho' as [|? v' ? o' E5 E6]; subst. inversion E6 as [|? w' ? o3 E7 E8]; subst.
      rewrite E1 in E7. injection E7 as <-. rewrite E3 in E5. injection E5 as <-.
      rewrite (shown_unique _ _ _ _ E4 E8). constructor.
    - assert (Hex : exists m, shown l b m).
      { assert (Hr : forall i, In i b -> exists v, nth_error l i = Some v).
        { intros i Hi. apply Permutation_in with (l' := c) in Hi; [|exact H2].
          clear - Hi Ho'. induction Ho' as [|k w idx o E1 E2 IH]; [destruct Hi|].
          destruct Hi as [->|Hi]; [exists w; exact E1|exact (IH Hi)]. }
        clear - Hr. induction b as [|i b IH]; [exists []; constructor|].
        destruct (Hr i (or_introl eq_refl)) as (v & Hv).
        destruct IH as (m & Hm); [intros j Hj; apply Hr; right; exact Hj|].
        exists (v :: m). constructor; assumption. }
      destruct Hex as (m & Hm). transitivity m; [exact (IH1 _ _ Ho Hm)|exact (IH2 _ _ Hm Ho')].
  Qed.

  Lemma ilt_le l i j a b : ilt l i j -> nth_error l i = Some a -> nth_error l j = Some b -> compare a b <> Gt.
  Proof.
    intros (a' & b' & Ha & Hb & H) Ha' Hb'. rewrite Ha in Ha'. injection Ha' as <-.
    rewrite Hb in Hb'. injection Hb' as <-. destruct H as [H|[H _]]; rewrite H; discriminate.
  Qed.

  Lemma shown_sorted l idx out : shown l idx out -> StronglySorted (ilt l) idx ->
    StronglySorted (fun a b => compare a b <> Gt) out.
  Proof.
    induction 1 as [|i v idx out H1 H2 IH]; intros Hs; [constructor|].
    inversion Hs as [|? ? Hs1 Hs2]; subst. constructor; [exact (IH Hs1)|].
    apply Forall_forall. intros w Hw. destruct (shown_in _ _ _ H2 w Hw) as (j & Hj & E).
    rewrite Forall_forall in Hs2. exact (ilt_le l i j v w (Hs2 j Hj) H1 E).
  Qed.

  Lemma full_stable l idx out : full l idx -> shown l idx out -> stable_sort_of compare l out.
  Proof.
    intros [Hin Hs] Hsh. split; [|split].
    - apply (shown_perm l (seq 0 (length l)) idx); [|apply shown_seq|exact Hsh].
      apply NoDup_Permutation.
      + apply seq_NoDup.
      + clear Hin Hsh out. induction Hs as [|i idx H IH Hi]; constructor; [|exact IH].
        intros Hc. rewrite Forall_forall in Hi. exact (ilt_irrefl l i (Hi i Hc)).
      + intros i. rewrite in_seq, Hin. split; [intros H; split; [lia|exact I]|lia].
    - exact (shown_sorted l idx out Hsh Hs).
    - intros a. set (t := fun b => match compare a b with Eq => true | _ => false end).
      assert (H1 := shown_filter l t _ _ Hsh). assert (H2 := shown_filter l t _ _ (shown_seq l)).
      set (ti := fun i => match nth_error l i with Some v => t v | None => false end) in *.
      assert (E : filter ti idx = filter ti (seq 0 (length l))).
      { apply (sorted_unique lt); [intros x; lia|intros x y; lia| | |].
        - apply sorted_impl with (R := ilt l); [|apply sorted_filter; exact Hs].
          intros i j Hi Hj (vi & vj & Ei & Ej & Hv). apply filter_In in Hi, Hj.
          destruct Hi as [_ Hi]. destruct Hj as [_ Hj]. unfold ti, t in Hi, Hj. rewrite Ei in Hi. rewrite Ej in Hj.
          destruct (compare a vi) eqn:Ci; try discriminate. destruct (compare a vj) eqn:Cj; try discriminate.
          destruct Hv as [Hv|[_ Hv]]; [|exact Hv]. exfalso.
          assert (H3 : compare vj vi <> Gt).
          { apply cmp_trans with (b := a); [rewrite (cmp_opp a vj), Cj; discriminate|rewrite Ci; discriminate]. }
          rewrite (cmp_opp vi vj), Hv in H3. apply H3. reflexivity.
        - apply sorted_filter. apply seq_sorted.
        - intros i. rewrite !filter_In, Hin, in_seq. split; intros [H H']; (split; [|exact H']); [lia|split; [lia|exact I]]. }
      rewrite E in H1. exact (shown_unique _ _ _ _ H1 H2).
  Qed.

  (** ** Runs *)
  Lemma sinv_emit td : forall s pst os, so_pending s = None ->
    sinv s (yielded pst) os -> replay (yielded pst ++ yielded td) <> None ->
    exists s' sr r, loop_emit (sort_step compare) s pst td = Some (s', sr, r)
      /\ sinv s' (yielded (past sr)) (os ++ rlist r)
      /\ replay (yielded (past sr) ++ yielded (todo sr)) <> None
      /\ (r = Pending \/ r = Ready None -> so_pending s' = None).
  Proof.
    induction td as [|x td IH]; intros s pst os Hp HI HP.
    - do 3 eexists. split; [reflexivity|].
      unfold rlist; simpl. rewrite yielded_app. simpl. rewrite !app_nil_r in *. auto.
    - destruct x as [|[d|]]; simpl.
      + do 3 eexists. split; [reflexivity|].
        unfold rlist; simpl. rewrite yielded_app. simpl. rewrite !app_nil_r in *. auto.
      + assert (HPd : replay (yielded pst ++ [d]) <> None).
        { apply replay_prefix with (es := yielded td). rewrite <- app_assoc. exact HP. }
        destruct (sort_step_inv s (yielded pst) os d Hp HI HPd) as (s1 & oo & E & HI1 & Hp1).
        rewrite E. destruct oo as [o|].
        * do 3 eexists. split; [reflexivity|]. unfold rlist; simpl. rewrite yielded_app. simpl.
          split; [exact HI1|]. split; [rewrite <- app_assoc; exact HP|]. intros [H|H]; discriminate.
        * simpl in HI1. rewrite app_nil_r in HI1.
          apply IH; rewrite ?yielded_app; simpl; [exact (Hp1 eq_refl)|exact HI1|].
          rewrite <- app_assoc. exact HP.
      + do 3 eexists. split; [reflexivity|].
        unfold rlist; simpl. rewrite yielded_app. simpl. rewrite !app_nil_r in *. auto.
  Qed.

  Lemma sort_mirror script : good_vec_script script -> forall n, exists st sr outs l out,
    run (sort_poll compare) n (sort_init, fresh script) = Some ((st, sr), outs)
    /\ conveyed sr = Some l
    /\ stable_sort_of compare l out
    /\ (replay (yielded outs) = Some out
        \/ exists p x q, out = p ++ x :: q /\ replay (yielded outs) = Some (p ++ q)
           /\ ~ last_out outs Pending /\ ~ last_out outs (Ready None)
           /\ exists ds i, yielded (past sr) = ds ++ [UpdateAt i x]).
  Proof.
    intros Hg n.
    destruct (run_inv0 (sort_poll compare)
      (fun st outs => sinv (fst st) (yielded (past (snd st))) (yielded outs)
        /\ replay (yielded (past (snd st)) ++ yielded (todo (snd st))) <> None
        /\ (last_out outs Pending \/ last_out outs (Ready None) -> so_pending (fst st) = None))
      (sort_init, fresh script)) with (n := n) as ([s sr] & outs & Hr & HI & _ & Hp).
    - split; [|split].
      + exists [], [], []. split; [reflexivity|]. split; [reflexivity|]. split; [exact full_nil|].
        split; [constructor|]. split; reflexivity.
      + exact Hg.
      + reflexivity.
    - intros [s sr] outs (HI & HP & Hp) _. cbn [fst snd] in *. destruct s as [pd vs idx].
      unfold sort_poll. destruct pd as [d|].
      + do 2 eexists. split; [reflexivity|]. cbn [fst snd]. split; [|split].
        * destruct HI as (l & out & mid & H1 & H2 & H3 & H4 & H5 & H6 & _).
          cbn [so_pending so_values so_indexes] in *. exists l, out, out.
          rewrite yielded_app. cbn [yielded so_pending so_values so_indexes]. rewrite replay_snoc, H5. auto 8.
        * exact HP.
        * reflexivity.
      + destruct (sinv_emit (todo sr) (mkSort None vs idx) (past sr) (yielded outs) eq_refl HI HP)
          as (s' & sr' & r & E & HI' & HP' & Hp').
        unfold emit_poll. rewrite E. do 2 eexists. split; [reflexivity|]. cbn [fst snd].
        rewrite yielded_app. split; [exact HI'|]. split; [exact HP'|].
        rewrite !last_out_snoc. intros [H|H]; apply Hp'; auto.
    - cbn [fst snd] in *.
      destruct HI as (l & out & mid & H1 & H2 & H3 & H4 & H5 & H6).
      exists s, sr, outs, l, out. split; [exact Hr|]. split; [exact H1|].
      split; [exact (full_stable _ _ _ H3 H4)|].
      destruct (so_pending s) as [d|].
      + right. destruct H6 as (_ & p & x & q & -> & -> & ds' & i & E). exists p, x, q.
        split; [reflexivity|]. split; [exact H5|]. split; [intros H; discriminate Hp; auto|].
        split; [intros H; discriminate Hp; auto|]. exists ds', i. exact E.
      + left. subst mid. exact H5.
  Qed.
End SortBy.

(** Wake-ups and ends, whatever the comparison. *)
Lemma sort_wake {A} (compare : A -> A -> comparison) : single_source_ok (sort_poll compare) sort_init.
Proof.
  intros script n s sr outs H.
  cut ((last_out outs Pending -> awaits sr)
       /\ (last_out outs (Ready None) <-> ended sr)
       /\ obeys_end (past sr)
       /\ (~ In (Ready None) outs -> ~ ended sr)); [tauto|].
  revert H.
  apply (run_inv_partial0 (sort_poll compare)
    (fun st outs => (last_out outs Pending -> awaits (snd st))
       /\ (last_out outs (Ready None) <-> ended (snd st))
       /\ obeys_end (past (snd st))
       /\ (~ In (Ready None) outs -> ~ ended (snd st)))) with (s' := (s, sr)).
  - simpl. split; [|split; [|split]].
    + intros Hx. exfalso. exact (last_out_nil _ Hx).
    + split; [intros Hx; exfalso; exact (last_out_nil _ Hx)|intros []].
    + apply obeys_end_nil.
    + intros _ [].
  - clear. intros [[pd vs idx] sr] outs [s' sr'] o (_ & _ & Hoe & Hne) Hno Hm.
    cbn [fst snd] in *. specialize (Hne Hno). unfold ended in Hne. unfold sort_poll in Hm.
    destruct pd as [d|].
    + injection Hm as <- <- <-. rewrite !last_out_snoc. split; [discriminate|].
      split; [split; [discriminate|intros Hc; exfalso; exact (Hne Hc)]|]. split; [exact Hoe|]. intros _. exact Hne.
    + unfold emit_poll in Hm.
      destruct (loop_emit (sort_step compare) (mkSort None vs idx) (past sr) (todo sr)) as [[[s1 sr1] r1]|] eqn:E; [|discriminate].
      injection Hm as <- <- <-.
      apply loop_emit_struct in E. destruct E as (ds & tl & Hp & _ & Htl).
      assert (Hpre : ~ In (Ready None) (past sr ++ somes ds))
        by (apply no_end_app; [exact Hne|apply somes_no_end]).
      rewrite app_assoc in Hp. unfold ended, awaits. rewrite Hp, !last_out_snoc.
      destruct r1 as [|[x|]].
      * subst tl. split; [|split; [|split]].
        -- eexists; reflexivity.
        -- split; [congruence|]. intros Hin. exfalso. revert Hin.
           apply no_end_app; [exact Hpre|apply no_end_pending].
        -- apply obeys_end_snoc. exact Hpre.
        -- intros _. apply no_end_app; [exact Hpre|apply no_end_pending].
      * destruct Htl as [-> _]. rewrite app_nil_r. split; [|split; [|split]].
        -- congruence.
        -- split; [congruence|]. intros Hin. exfalso. exact (Hpre Hin).
        -- apply obeys_end_no_end. exact Hpre.
        -- intros _. exact Hpre.
      * subst tl. split; [|split; [|split]].
        -- congruence.
        -- split; [|congruence]. intros _. apply in_or_app. right. left. reflexivity.
        -- apply obeys_end_snoc. exact Hpre.
        -- intros Hc. exfalso. apply Hc. apply in_or_app. right. left. reflexivity.
Qed.
