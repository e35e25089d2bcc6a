(** Proofs for Enumerate. *)
From Verif Require Import Base Spec BaseFacts VecDiff VecSpec LoopFacts VecFacts VecSimple VecSimpleFacts.

Lemma NoDup_app_remove_l {A} (a b : list A) : NoDup (a ++ b) -> NoDup b.
Proof. induction a as [|x a IH]; simpl; intros H; [exact H|]. inversion H; auto. Qed.

Lemma NoDup_app_remove_r {A} (a b : list A) : NoDup (a ++ b) -> NoDup a.
Proof.
  induction a as [|x a IH]; simpl; intros H; [constructor|]. inversion H as [|? ? Hx H']; subst.
  constructor; [|auto]. intros Hi. apply Hx. apply in_or_app. left. exact Hi.
Qed.

Lemma NoDup_app_disj {A} (a b : list A) x : NoDup (a ++ b) -> In x a -> ~ In x b.
Proof.
  induction a as [|y a IH]; simpl; intros H Hx Hb; [exact Hx|]. inversion H as [|? ? Hy H']; subst.
  destruct Hx as [->|Hx]; [|exact (IH H' Hx Hb)]. apply Hy. apply in_or_app. right. exact Hb.
Qed.

(** ** Cells *)
Lemma cell_get_set h c v c' : c < length h ->
  cell_get (cell_set h c v) c' = if c =? c' then v else cell_get h c'.
Proof.
  unfold cell_get, cell_set. revert c c'. induction h as [|x h IH]; intros c c' Hc; [simpl in Hc; lia|].
  destruct c as [|c]; destruct c' as [|c']; simpl in *; try reflexivity.
  apply IH. lia.
Qed.

Lemma cell_set_length h c v : length (cell_set h c v) = length h.
Proof.
  unfold cell_set. rewrite app_length, firstn_length.
  pose proof (skipn_length c h) as Hs.
  destruct (skipn c h) as [|y t]; simpl in *; lia.
Qed.

Lemma cell_get_app h x c : c < length h -> cell_get (h ++ [x]) c = cell_get h c.
Proof. unfold cell_get. intros H. apply app_nth1. exact H. Qed.

Lemma cell_get_new h x : cell_get (h ++ [x]) (length h) = x.
Proof. unfold cell_get. rewrite app_nth2, Nat.sub_diag by lia. reflexivity. Qed.

Lemma cell_get_out h c : length h <= c -> cell_get h c = None.
Proof. unfold cell_get. apply nth_overflow. Qed.

(** The cells [ms] hold k, k+1, k+2, ... *)
Definition cells_at (h : heap) (ms : list nat) (k : nat) : Prop :=
  map (cell_get h) ms = map Some (seq k (length ms)).

Lemma cells_at_app h a b k : cells_at h (a ++ b) k <-> cells_at h a k /\ cells_at h b (k + length a).
Proof.
  unfold cells_at. rewrite map_app, app_length, seq_app, map_app. split.
  - intros H. assert (Hl : length (map (cell_get h) a) = length (map Some (seq k (length a))))
      by (rewrite !map_length, seq_length; reflexivity).
    clear -H Hl. revert Hl H. generalize (map (cell_get h) a) (map Some (seq k (length a))).
    intros u v. revert v. induction u as [|x u IH]; intros [|y v] Hl H; simpl in *; try discriminate; auto.
    injection H as -> H. injection Hl as Hl. destruct (IH v Hl H) as [-> ->]. auto.
  - intros [-> ->]. reflexivity.
Qed.

Lemma cells_at_cons h c b k : cells_at h (c :: b) k <-> cell_get h c = Some k /\ cells_at h b (k + 1).
Proof.
  unfold cells_at. simpl. rewrite Nat.add_1_r. split.
  - intros H. injection H as H1 H2. auto.
  - intros [-> ->]. reflexivity.
Qed.

Lemma cells_at_frame h h' ms k :
  (forall c, In c ms -> cell_get h' c = cell_get h c) -> cells_at h ms k -> cells_at h' ms k.
Proof. unfold cells_at. intros Hf <-. apply map_ext_in. exact Hf. Qed.

Lemma increment_cells_spec r : forall h k,
  NoDup r -> Forall (fun c => c < length h) r -> cells_at h r k ->
  length (increment_cells h r) = length h
  /\ cells_at (increment_cells h r) r (k + 1)
  /\ forall c, ~ In c r -> cell_get (increment_cells h r) c = cell_get h c.
Proof.
  induction r as [|c r IH]; intros h k Hnd Hlt Hat; cbn [increment_cells].
  - split; [reflexivity|]. split; [reflexivity|auto].
  - apply cells_at_cons in Hat. destruct Hat as [Hc Hat].
    inversion Hnd as [|? ? Hnotin Hnd']; subst. inversion Hlt as [|? ? Hcl Hlt']; subst.
    rewrite Hc. set (h1 := cell_set h c (Some (k + 1))).
    assert (Hlen : length h1 = length h) by apply cell_set_length.
    destruct (IH h1 (k + 1)) as (L & Hat' & Hfr).
    + exact Hnd'.
    + rewrite Hlen. exact Hlt'.
    + revert Hat. apply cells_at_frame. intros c' Hin. unfold h1. rewrite cell_get_set by exact Hcl.
      destruct (Nat.eqb_spec c c'); [subst; contradiction|reflexivity].
    + split; [congruence|]. split.
      * apply cells_at_cons. split; [|exact Hat'].
        rewrite Hfr by exact Hnotin. unfold h1. rewrite cell_get_set by exact Hcl.
        rewrite Nat.eqb_refl. reflexivity.
      * intros c' Hn. rewrite Hfr by (intros Hi; apply Hn; right; exact Hi).
        unfold h1. rewrite cell_get_set by exact Hcl.
        destruct (Nat.eqb_spec c c'); [subst; exfalso; apply Hn; left; reflexivity|reflexivity].
Qed.

Lemma decrement_cells_spec r : forall h k,
  NoDup r -> Forall (fun c => c < length h) r -> cells_at h r (k + 1) ->
  exists h', decrement_cells h r = Some h' /\ length h' = length h
  /\ cells_at h' r k
  /\ forall c, ~ In c r -> cell_get h' c = cell_get h c.
Proof.
  induction r as [|c r IH]; intros h k Hnd Hlt Hat; cbn [decrement_cells].
  - exists h. split; [reflexivity|]. split; [reflexivity|]. split; [reflexivity|auto].
  - apply cells_at_cons in Hat. destruct Hat as [Hc Hat].
    inversion Hnd as [|? ? Hnotin Hnd']; subst. inversion Hlt as [|? ? Hcl Hlt']; subst.
    rewrite Hc, usub_Some by lia. replace (k + 1 - 1) with k by lia.
    set (h1 := cell_set h c (Some k)).
    assert (Hlen : length h1 = length h) by apply cell_set_length.
    destruct (IH h1 (k + 1)) as (h' & E & L & Hat' & Hfr).
    + exact Hnd'.
    + rewrite Hlen. exact Hlt'.
    + revert Hat. apply cells_at_frame. intros c' Hin. unfold h1. rewrite cell_get_set by exact Hcl.
      destruct (Nat.eqb_spec c c'); [subst; contradiction|reflexivity].
    + exists h'. split; [exact E|]. split; [congruence|]. split.
      * apply cells_at_cons. split; [|exact Hat'].
        rewrite Hfr by exact Hnotin. unfold h1. rewrite cell_get_set by exact Hcl.
        rewrite Nat.eqb_refl. reflexivity.
      * intros c' Hn. rewrite Hfr by (intros Hi; apply Hn; right; exact Hi).
        unfold h1. rewrite cell_get_set by exact Hcl.
        destruct (Nat.eqb_spec c c'); [subst; exfalso; apply Hn; left; reflexivity|reflexivity].
Qed.

Lemma clear_cells_spec ms : forall h,
  Forall (fun c => c < length h) ms ->
  length (clear_cells h ms) = length h
  /\ forall c, cell_get (clear_cells h ms) c = if in_dec Nat.eq_dec c ms then None else cell_get h c.
Proof.
  induction ms as [|m ms IH]; intros h Hlt.
  - split; [reflexivity|]. intros c. reflexivity.
  - inversion Hlt as [|? ? Hm Hlt']; subst. unfold clear_cells. cbn [fold_left].
    destruct (IH (cell_set h m None)) as [L G].
    + rewrite cell_set_length. exact Hlt'.
    + fold (clear_cells (cell_set h m None) ms). split; [rewrite L; apply cell_set_length|].
      intros c. rewrite G, cell_get_set by exact Hm.
      destruct (in_dec Nat.eq_dec c ms) as [Hi|Hi]; destruct (in_dec Nat.eq_dec c (m :: ms)) as [Hj|Hj];
        try reflexivity.
      * exfalso. apply Hj. right. exact Hi.
      * destruct Hj as [->|Hj]; [rewrite Nat.eqb_refl; reflexivity|contradiction].
      * destruct (Nat.eqb_spec m c); [subst; exfalso; apply Hj; left; reflexivity|reflexivity].
Qed.

Lemma alloc_cells_spec {A} (vs : list A) : forall h k,
  exists h' cs out, alloc_cells h k vs = (h', cs, out)
   /\ map fst out = cs /\ map snd out = vs
   /\ length h' = length h + length vs
   /\ cs = seq (length h) (length vs)
   /\ cells_at h' cs k
   /\ (forall c, c < length h -> cell_get h' c = cell_get h c).
Proof.
  induction vs as [|v vs IH]; intros h k; cbn [alloc_cells].
  - exists h, [], []. repeat split; auto; simpl; lia.
  - destruct (IH (h ++ [Some k]) (k + 1)) as (h' & cs & out & E & H1 & H2 & H3 & H4 & H5 & H6).
    rewrite E. exists h', (length h :: cs), ((length h, v) :: out).
    rewrite app_length in *. simpl length in *.
    split; [reflexivity|]. split; [simpl; rewrite H1; reflexivity|].
    split; [simpl; rewrite H2; reflexivity|]. split; [lia|].
    split; [simpl; rewrite H4; do 2 f_equal; lia|]. split.
    + apply cells_at_cons. split; [|exact H5].
      rewrite H6 by lia. apply cell_get_new.
    + intros c Hc. rewrite H6 by lia. apply cell_get_app. exact Hc.
Qed.

Lemma slice_tail {A} (l : list A) a b i : length a = i -> l = a ++ b -> slice i (length l) l = Some b.
Proof.
  intros <- ->. unfold slice. rewrite app_length.
  destruct (Nat.leb_spec (length a) (length a + length b)); [|lia].
  destruct (Nat.leb_spec (length a + length b) (length a + length b)); [|lia]. simpl.
  rewrite skipn_app, skipn_all, Nat.sub_diag. simpl. rewrite firstn_all2 by lia. reflexivity.
Qed.

Lemma slice_mid {A} (a b c : list A) i j : length a = i -> length a + length b = j ->
  slice i j (a ++ b ++ c) = Some b.
Proof.
  intros <- <-. unfold slice. rewrite !app_length.
  destruct (Nat.leb_spec (length a) (length a + length b)); [|lia].
  destruct (Nat.leb_spec (length a + length b) (length a + (length b + length c))); [|lia]. simpl.
  rewrite skipn_app, skipn_all, Nat.sub_diag. simpl.
  replace (length a + length b - length a) with (length b) by lia.
  rewrite firstn_app, Nat.sub_diag, firstn_all. simpl. rewrite app_nil_r. reflexivity.
Qed.

(** ** The invariant *)
Definition en_inv {A} (s : en_state) (ds : list (vecdiff A)) (os : list (vecdiff (nat * A))) : Prop :=
  exists l out, replay ds = Some l /\ replay os = Some out
   /\ map fst out = en_mutables s /\ map snd out = l
   /\ NoDup (en_mutables s)
   /\ Forall (fun c => c < length (en_heap s)) (en_mutables s)
   /\ cells_at (en_heap s) (en_mutables s) 0
   /\ (forall c, ~ In c (en_mutables s) -> cell_get (en_heap s) c = None)
   /\ Forall (fun c => c < length (en_heap s)) (handles os)
   /\ handles_stable os.

Lemma handles_snoc {A} (os : list (vecdiff (nat * A))) o :
  handles (os ++ [o]) = handles os ++ map fst (values_of o).
Proof. unfold handles. rewrite flat_map_snoc, map_app. reflexivity. Qed.

Lemma handles_stable_snoc {A} (os : list (vecdiff (nat * A))) d l :
  handles_stable os -> replay os = Some l ->
  match d with
  | UpdateAt i (c, _) => exists v, nth_error l i = Some (c, v)
  | _ => forall c, In c (map fst (values_of d)) -> ~ In c (handles os)
  end ->
  handles_stable (os ++ [d]).
Proof.
  intros Hs Hl Hd pre d' post E.
  destruct post as [|z post] using rev_ind; [|clear IHpost].
  - apply app_inj_tail in E. destruct E as [<- <-]. exists l. auto.
  - rewrite app_comm_cons, app_assoc in E. apply app_inj_tail in E. destruct E as [-> _].
    apply (Hs pre d' post eq_refl).
Qed.

Lemma Forall_lt_mono ms a b : a <= b -> Forall (fun c => c < a) ms -> Forall (fun c => c < b) ms.
Proof. intros H. apply Forall_impl. intros c Hc. lia. Qed.

Lemma NoDup_app_comm_mid {A} (a b : list A) x : NoDup (a ++ x :: b) <-> ~ In x (a ++ b) /\ NoDup (a ++ b).
Proof.
  split.
  - intros H. split; [apply NoDup_remove_2; exact H|apply NoDup_remove_1 with x; exact H].
  - intros [H1 H2]. apply (Permutation_NoDup (l := x :: a ++ b)).
    + apply Permutation_middle.
    + constructor; assumption.
Qed.

Lemma Forall_mid {A} (P : A -> Prop) a x b : Forall P (a ++ x :: b) <-> P x /\ Forall P (a ++ b).
Proof.
  rewrite !Forall_app, Forall_cons_iff. tauto.
Qed.

Lemma map_split_mid {X Y} (f : X -> Y) (l : list X) a y b :
  map f l = a ++ y :: b -> exists l1 x l2, l = l1 ++ x :: l2 /\ map f l1 = a /\ f x = y /\ map f l2 = b.
Proof.
  revert l. induction a as [|z a IH]; intros [|w l] H; try discriminate.
  - injection H as <- <-. exists [], w, l. auto.
  - injection H as <- H. destruct (IH l H) as (l1 & x & l2 & -> & <- & <- & <-).
    exists (w :: l1), x, l2. auto.
Qed.

Lemma map_split_app {X Y} (f : X -> Y) (l : list X) a b :
  map f l = a ++ b -> exists l1 l2, l = l1 ++ l2 /\ map f l1 = a /\ map f l2 = b.
Proof. intros H. apply map_eq_app. exact H. Qed.

Lemma en_step_inv {A} (s : en_state) ds os (d : vecdiff A) :
  en_inv s ds os -> replay (ds ++ [d]) <> None ->
  exists s' oo, enumerate_step s d = Some (s', oo) /\ en_inv s' (ds ++ [d]) (os ++ olist oo).
Proof.
  intros (l & out & Hl & Ho & Hfst & Hsnd & Hnd & Hlt & Hat & Hoth & Hh & Hst) HP.
  destruct s as [h ms]. cbn [en_heap en_mutables] in *.
  rewrite replay_snoc, Hl in HP.
  destruct (apply_to_vec d l) as [l'|] eqn:Ea; [|congruence]. clear HP.
  unfold en_inv. rewrite replay_snoc, Hl, Ea.
  pose proof (apply_inv _ _ _ Ea) as Hd.
  destruct d as [vs|i x|i x|i|o n|x| |]; cbn [enumerate_step en_heap en_mutables].
  - (* Replace *)
    subst l'. destruct (clear_cells_spec ms h Hlt) as [L0 G0].
    destruct (alloc_cells_spec vs (clear_cells h ms) 0) as (h2 & cs & out2 & E & H1 & H2 & H3 & H4 & H5 & H6).
    rewrite E. do 2 eexists. split; [reflexivity|]. cbn [olist en_heap en_mutables].
    exists vs, out2. split; [reflexivity|]. split; [rewrite replay_snoc, Ho; reflexivity|].
    split; [exact H1|]. split; [exact H2|].
    assert (Hcs : Forall (fun c => length h <= c < length h2) cs).
    { rewrite H4. apply Forall_forall. intros c Hc. apply in_seq in Hc. lia. }
    split; [rewrite H4; apply seq_NoDup|].
    split; [revert Hcs; apply Forall_impl; intros c Hc; lia|].
    split; [exact H5|]. split.
    + intros c Hn. destruct (Nat.lt_ge_cases c (length h)) as [Hc|Hc].
      * rewrite H6 by lia. rewrite G0. destruct (in_dec Nat.eq_dec c ms); [reflexivity|]. apply Hoth. exact n.
      * destruct (Nat.lt_ge_cases c (length h2)) as [Hc2|Hc2].
        -- exfalso. apply Hn. rewrite H4. apply in_seq. lia.
        -- apply cell_get_out. lia.
    + rewrite handles_snoc, Forall_app. split.
      * split; [apply Forall_lt_mono with (length h); [lia|exact Hh]|].
        cbn [values_of]. rewrite H1. revert Hcs. apply Forall_impl. intros c Hc. lia.
      * apply handles_stable_snoc with out; [exact Hst|exact Ho|].
        cbn [values_of]. rewrite H1. intros c Hc Hin.
        rewrite Forall_forall in Hcs, Hh. apply Hcs in Hc. apply Hh in Hin. lia.
  - (* InsertAt *)
    destruct Hd as (l1 & l2 & El & -> & <-). rewrite El in Hsnd.
    apply map_split_app in Hsnd. destruct Hsnd as (o1 & o2 & -> & Ho1 & Ho2).
    rewrite map_app in Hfst. set (m1 := map fst o1) in *. set (m2 := map fst o2) in *. subst ms.
    assert (Lm1 : length m1 = length l1) by (unfold m1; rewrite <- Ho1, !map_length; reflexivity).
    rewrite vinsert_app by exact Lm1.
    rewrite (slice_tail (m1 ++ length h :: m2) (m1 ++ [length h]) m2 (length l1 + 1)).
    2:{ rewrite app_length, Lm1. reflexivity. }
    2:{ rewrite <- app_assoc. reflexivity. }
    apply cells_at_app in Hat. destruct Hat as [Hat1 Hat2].
    set (h1 := h ++ [Some (length l1)]).
    assert (Lh1 : length h1 = length h + 1) by (unfold h1; rewrite app_length; reflexivity).
    pose proof Hlt as Hlt0. rewrite Forall_app in Hlt0. destruct Hlt0 as [Hlt1 Hlt2].
    destruct (increment_cells_spec m2 h1 (0 + length m1)) as (L & Hat3 & Hfr).
    { apply NoDup_app_remove_l in Hnd. exact Hnd. }
    { apply Forall_lt_mono with (length h); [lia|exact Hlt2]. }
    { revert Hat2. apply cells_at_frame. intros c Hc. apply cell_get_app.
      rewrite Forall_forall in Hlt2. apply Hlt2. exact Hc. }
    assert (Hnew2 : ~ In (length h) m2).
    { intros Hin. rewrite Forall_forall in Hlt2. apply Hlt2 in Hin. lia. }
    assert (Hnew1 : ~ In (length h) m1).
    { intros Hin. rewrite Forall_forall in Hlt1. apply Hlt1 in Hin. lia. }
    do 2 eexists. split; [reflexivity|]. cbn [olist en_heap en_mutables].
    exists (l1 ++ x :: l2), (o1 ++ (length h, x) :: o2).
    split; [reflexivity|].
    split. { rewrite replay_snoc, Ho. apply apply_insert_app. rewrite <- Ho1, map_length. reflexivity. }
    split. { rewrite map_app. reflexivity. }
    split. { rewrite map_app. cbn [map snd]. rewrite Ho1, Ho2. reflexivity. }
    split. { apply NoDup_app_comm_mid. split; [rewrite in_app_iff; tauto|exact Hnd]. }
    split. { apply Forall_mid. split; [lia|]. apply Forall_lt_mono with (length h); [lia|exact Hlt]. }
    split.
    { apply cells_at_app. split.
      - revert Hat1. apply cells_at_frame. intros c Hc.
        rewrite Hfr.
        + apply cell_get_app. rewrite Forall_forall in Hlt1. apply Hlt1. exact Hc.
        + exact (NoDup_app_disj _ _ _ Hnd Hc).
      - apply cells_at_cons. split.
        + rewrite Hfr by exact Hnew2. unfold h1. rewrite cell_get_new, Lm1. reflexivity.
        + exact Hat3. }
    split.
    { intros c Hn. rewrite in_app_iff in Hn. simpl in Hn.
      rewrite Hfr by tauto.
      destruct (Nat.lt_ge_cases c (length h)) as [Hc|Hc].
      - unfold h1. rewrite cell_get_app by exact Hc. apply Hoth. rewrite in_app_iff. tauto.
      - destruct (Nat.eq_dec c (length h)) as [->|Hne]; [tauto|]. apply cell_get_out. lia. }
    split.
    { rewrite handles_snoc, Forall_app. split; [apply Forall_lt_mono with (length h); [lia|exact Hh]|].
      simpl. constructor; [lia|constructor]. }
    apply handles_stable_snoc with (o1 ++ o2); [exact Hst|exact Ho|].
    simpl. intros c [<-|[]] Hin. rewrite Forall_forall in Hh. apply Hh in Hin. lia.
  - (* UpdateAt *)
    destruct Hd as (l1 & y & l2 & El & -> & <-). rewrite El in Hsnd.
    apply map_split_mid in Hsnd. destruct Hsnd as (o1 & [c y'] & o2 & -> & Ho1 & Hy & Ho2).
    simpl in Hy. subst y'.
    assert (En : nth_error ms (length l1) = Some c).
    { rewrite <- Hfst, map_app, nth_error_app2; rewrite map_length, <- Ho1, map_length; [|lia].
      rewrite Nat.sub_diag. reflexivity. }
    rewrite En. do 2 eexists. split; [reflexivity|]. cbn [olist en_heap en_mutables].
    exists (l1 ++ x :: l2), (o1 ++ (c, x) :: o2).
    split; [reflexivity|].
    split. { rewrite replay_snoc, Ho. apply apply_update_app. rewrite <- Ho1, map_length. reflexivity. }
    split. { rewrite <- Hfst, !map_app. reflexivity. }
    split. { rewrite map_app. cbn [map snd]. rewrite Ho1, Ho2. reflexivity. }
    split; [exact Hnd|]. split; [exact Hlt|]. split; [exact Hat|]. split; [exact Hoth|].
    split.
    { rewrite handles_snoc, Forall_app. split; [exact Hh|]. simpl. constructor; [|constructor].
      rewrite Forall_forall in Hlt. apply Hlt. apply nth_error_In with (length l1). exact En. }
    apply handles_stable_snoc with (o1 ++ (c, y) :: o2); [exact Hst|exact Ho|].
    exists y. rewrite nth_error_app2; rewrite <- Ho1, map_length; [|lia]. rewrite Nat.sub_diag. reflexivity.
  - (* RemoveAt *)
    destruct Hd as (l1 & y & l2 & El & -> & <-). rewrite El in Hsnd.
    apply map_split_mid in Hsnd. destruct Hsnd as (o1 & [c y'] & o2 & -> & Ho1 & Hy & Ho2).
    simpl in Hy. subst y'. rewrite map_app in Hfst. cbn [map fst] in Hfst.
    set (m1 := map fst o1) in *. set (m2 := map fst o2) in *. subst ms.
    assert (Lm1 : length m1 = length l1) by (unfold m1; rewrite <- Ho1, !map_length; reflexivity).
    rewrite vremove_app by exact Lm1.
    rewrite (slice_tail (m1 ++ m2) m1 m2) by (exact Lm1 || reflexivity).
    apply cells_at_app in Hat. destruct Hat as [Hat1 Hat2].
    apply cells_at_cons in Hat2. destruct Hat2 as [Hc Hat2].
    apply NoDup_app_comm_mid in Hnd. destruct Hnd as [Hcn Hnd].
    apply Forall_mid in Hlt. destruct Hlt as [Hcl Hlt].
    pose proof Hlt as Hlt0. rewrite Forall_app in Hlt0. destruct Hlt0 as [Hlt1 Hlt2].
    destruct (decrement_cells_spec m2 h (0 + length m1)) as (h1 & E & L & Hat3 & Hfr).
    { apply NoDup_app_remove_l in Hnd. exact Hnd. }
    { exact Hlt2. }
    { exact Hat2. }
    rewrite E. do 2 eexists. split; [reflexivity|]. cbn [olist en_heap en_mutables].
    exists (l1 ++ l2), (o1 ++ o2).
    split; [reflexivity|].
    split. { rewrite replay_snoc, Ho. apply apply_remove_app. rewrite <- Ho1, map_length. reflexivity. }
    split. { rewrite map_app. reflexivity. }
    split. { rewrite map_app, Ho1, Ho2. reflexivity. }
    split; [exact Hnd|].
    split. { rewrite cell_set_length, L. exact Hlt. }
    assert (Hdis : forall z, In z m1 -> ~ In z m2).
    { intros z. exact (NoDup_app_disj _ _ z Hnd). }
    rewrite in_app_iff in Hcn.
    split.
    { apply cells_at_app. split.
      - revert Hat1. apply cells_at_frame. intros z Hz. rewrite cell_get_set by lia.
        destruct (Nat.eqb_spec c z); [subst; tauto|]. apply Hfr. apply Hdis. exact Hz.
      - revert Hat3. apply cells_at_frame. intros z Hz. rewrite cell_get_set by lia.
        destruct (Nat.eqb_spec c z); [subst; tauto|reflexivity]. }
    split.
    { intros z Hn. rewrite in_app_iff in Hn. rewrite cell_get_set by lia.
      destruct (Nat.eqb_spec c z); [reflexivity|].
      rewrite Hfr by tauto. apply Hoth. rewrite in_app_iff. simpl. tauto. }
    split.
    { rewrite handles_snoc, Forall_app, cell_set_length, L. split; [exact Hh|constructor]. }
    apply handles_stable_snoc with (o1 ++ (c, y) :: o2); [exact Hst|exact Ho|]. simpl. tauto.
  - (* Move *)
    destruct Hd as (l1 & x & l2 & n1 & n2 & El & <- & Hm & -> & <-). rewrite El in Hsnd.
    apply map_split_mid in Hsnd. destruct Hsnd as (o1 & [c x'] & o2 & -> & Ho1 & Hx & Ho2).
    simpl in Hx. subst x'. rewrite map_app in Hfst. cbn [map fst] in Hfst.
    set (m1 := map fst o1) in *. set (m2 := map fst o2) in *. subst ms.
    assert (Lm1 : length m1 = length l1) by (unfold m1; rewrite <- Ho1, !map_length; reflexivity).
    rewrite vremove_app by exact Lm1.
    assert (Hsplit : exists p1 p2, o1 ++ o2 = p1 ++ p2 /\ map snd p1 = n1 /\ map snd p2 = n2).
    { apply (map_split_app snd (o1 ++ o2) n1 n2). rewrite map_app, Ho1, Ho2. exact Hm. }
    destruct Hsplit as (p1 & p2 & Hp & Hp1 & Hp2).
    assert (Hq : m1 ++ m2 = map fst p1 ++ map fst p2).
    { unfold m1, m2. rewrite <- !map_app, Hp. reflexivity. }
    rewrite Hq. set (q1 := map fst p1) in *. set (q2 := map fst p2) in *.
    assert (Lq1 : length q1 = length n1) by (unfold q1; rewrite <- Hp1, !map_length; reflexivity).
    rewrite vinsert_app by exact Lq1.
    apply cells_at_app in Hat. destruct Hat as [Hat1 Hat2].
    apply cells_at_cons in Hat2. destruct Hat2 as [Hc Hat2].
    apply NoDup_app_comm_mid in Hnd. destruct Hnd as [Hcn Hnd].
    apply Forall_mid in Hlt. destruct Hlt as [Hcl Hlt].
    rewrite Hq in Hcn, Hnd, Hlt.
    (* the renumbered heap *)
    assert (HH : exists h1,
      (if length l1 <? length n1
       then let? range := slice (length l1) (length n1) (q1 ++ c :: q2) in decrement_cells h range
       else if length n1 <? length l1
       then let? range := slice (length n1 + 1) (length l1 + 1) (q1 ++ c :: q2) in Some (increment_cells h range)
       else Some h) = Some h1
      /\ length h1 = length h
      /\ cells_at h1 q1 0 /\ cells_at h1 q2 (length n1 + 1)
      /\ forall z, ~ In z (q1 ++ q2) -> cell_get h1 z = cell_get h z).
    { destruct (app_eq_cases _ _ _ _ Hq) as [(e & Eq1 & Em2)|(e & Em1 & Eq2)].
      - (* forward or equal *)
        rewrite Eq1, app_length in Lq1. rewrite Em2 in Hat2.
        apply cells_at_app in Hat2. destruct Hat2 as [Hate Hatq2].
        destruct e as [|z0 e0].
        + rewrite app_nil_r in *. simpl in *.
          assert (Hnn : length l1 = length n1) by lia. rewrite Hnn, Nat.ltb_irrefl.
          exists h. split; [reflexivity|]. split; [reflexivity|].
          split; [rewrite Eq1; exact Hat1|]. split; [|auto].
          replace (length n1 + 1) with (length m1 + 1 + 0) by lia. exact Hatq2.
        + set (e := z0 :: e0) in *.
          assert (Hlt' : length l1 <? length n1 = true) by (apply Nat.ltb_lt; unfold e in Lq1; simpl in Lq1; lia).
          rewrite Hlt'. rewrite Eq1, <- app_assoc.
          rewrite (slice_mid m1 e (c :: q2)) by lia.
          rewrite Eq1, <- app_assoc, Forall_app in Hlt. destruct Hlt as [Hltm1 Hlt].
          rewrite Forall_app in Hlt. destruct Hlt as [Hlte Hltq2].
          rewrite Eq1 in Hnd.
          assert (Hnde : NoDup e).
          { rewrite <- app_assoc in Hnd. apply NoDup_app_remove_l in Hnd.
            apply NoDup_app_remove_r in Hnd. exact Hnd. }
          destruct (decrement_cells_spec e h (length m1) Hnde Hlte Hate) as (h1 & E & L & Hate' & Hfr).
          exists h1. split; [exact E|]. split; [exact L|].
          assert (Hd1 : forall z, In z m1 -> ~ In z e).
          { intros z. apply NoDup_app_remove_r in Hnd. exact (NoDup_app_disj _ _ z Hnd). }
          assert (Hd2 : forall z, In z q2 -> ~ In z e).
          { intros z Hz Hz2. rewrite <- app_assoc in Hnd. apply NoDup_app_remove_l in Hnd.
            exact (NoDup_app_disj _ _ z Hnd Hz2 Hz). }
          split; [|split].
          * apply cells_at_app. split; [|exact Hate'].
            revert Hat1. apply cells_at_frame. intros z Hz. apply Hfr. apply Hd1. exact Hz.
          * replace (length n1 + 1) with (length m1 + 1 + length e) by lia.
            revert Hatq2. apply cells_at_frame. intros z Hz. apply Hfr. apply Hd2. exact Hz.
          * intros z Hz. apply Hfr. intros Hze. apply Hz. rewrite !in_app_iff. tauto.
      - (* backward *)
        destruct e as [|z0 e0].
        + rewrite app_nil_r in *. simpl in *.
          assert (Hnn : length l1 = length n1) by (rewrite <- Lm1, Em1, <- Lq1; reflexivity). rewrite Hnn, Nat.ltb_irrefl.
          exists h. split; [reflexivity|]. split; [reflexivity|].
          split; [rewrite <- Em1; exact Hat1|]. split; [|auto].
          rewrite Eq2. replace (length n1 + 1) with (length m1 + 1) by lia. exact Hat2.
        + set (e := z0 :: e0) in *.
          rewrite Em1, app_length in Lm1.
          assert (Hge : length l1 <? length n1 = false) by (apply Nat.ltb_ge; lia).
          assert (Hlt' : length n1 <? length l1 = true) by (apply Nat.ltb_lt; unfold e in Lm1; simpl in Lm1; lia).
          clearbody e. rewrite Hge, Hlt', Eq2.
          replace (q1 ++ c :: e ++ m2) with ((q1 ++ [c]) ++ e ++ m2) by (rewrite <- app_assoc; reflexivity).
          rewrite (slice_mid (q1 ++ [c]) e m2) by (rewrite app_length; simpl; lia).
          rewrite Em1 in Hat1. apply cells_at_app in Hat1. destruct Hat1 as [Hatq1 Hate].
          rewrite Eq2, app_assoc in Hnd, Hlt.
          rewrite Forall_app in Hlt. destruct Hlt as [Hlt Hltm2].
          rewrite Forall_app in Hlt. destruct Hlt as [Hltq1 Hlte].
          assert (Hnde : NoDup e).
          { apply NoDup_app_remove_r in Hnd. apply NoDup_app_remove_l in Hnd. exact Hnd. }
          destruct (increment_cells_spec e h _ Hnde Hlte Hate) as (L & Hate' & Hfr).
          exists (increment_cells h e). split; [reflexivity|]. split; [exact L|].
          rewrite <- app_assoc in Hnd.
          assert (Hd1 : forall z, In z q1 -> ~ In z e).
          { intros z Hz Hz2. apply (NoDup_app_disj _ _ z Hnd Hz). apply in_or_app. left. exact Hz2. }
          assert (Hd2 : forall z, In z m2 -> ~ In z e).
          { intros z Hz Hz2. apply NoDup_app_remove_l in Hnd.
            exact (NoDup_app_disj _ _ z Hnd Hz2 Hz). }
          split; [|split].
          * revert Hatq1. apply cells_at_frame. intros z Hz. apply Hfr. apply Hd1. exact Hz.
          * apply cells_at_app. split.
            -- replace (length n1 + 1) with (0 + length q1 + 1) by lia. exact Hate'.
            -- rewrite Em1, app_length in Hat2.
               replace (length n1 + 1 + length e) with (0 + (length q1 + length e) + 1) by lia.
               revert Hat2. apply cells_at_frame. intros z Hz. apply Hfr. apply Hd2. exact Hz.
          * intros z Hz. apply Hfr. intros Hze. apply Hz. rewrite !in_app_iff. tauto. }
    destruct HH as (h1 & E & L & Hq1 & Hq2 & Hfr). rewrite E.
    do 2 eexists. split; [reflexivity|]. cbn [olist en_heap en_mutables].
    exists (n1 ++ x :: n2), (p1 ++ (c, x) :: p2).
    split; [reflexivity|].
    split. { rewrite replay_snoc, Ho. cbn [apply_to_vec].
             rewrite vremove_app by (rewrite <- Ho1, map_length; reflexivity).
             rewrite Hp. apply vinsert_app. rewrite <- Hp1, map_length. reflexivity. }
    split. { rewrite map_app. reflexivity. }
    split. { rewrite map_app. cbn [map snd]. rewrite Hp1, Hp2. reflexivity. }
    split. { apply NoDup_app_comm_mid. split; assumption. }
    split. { rewrite cell_set_length, L. apply Forall_mid. split; assumption. }
    rewrite in_app_iff in Hcn.
    split.
    { apply cells_at_app. split.
      - revert Hq1. apply cells_at_frame. intros z Hz. rewrite cell_get_set by lia.
        destruct (Nat.eqb_spec c z); [subst; tauto|reflexivity].
      - apply cells_at_cons. split.
        + rewrite cell_get_set, Nat.eqb_refl by lia. rewrite Lq1. reflexivity.
        + replace (0 + length q1 + 1) with (length n1 + 1) by lia.
          revert Hq2. apply cells_at_frame. intros z Hz. rewrite cell_get_set by lia.
          destruct (Nat.eqb_spec c z); [subst; tauto|reflexivity]. }
    split.
    { intros z Hn. rewrite in_app_iff in Hn. simpl in Hn. rewrite cell_get_set by lia.
      destruct (Nat.eqb_spec c z); [tauto|].
      rewrite Hfr by (rewrite in_app_iff; tauto). apply Hoth.
      intros Hin. assert (Hin2 : In z (m1 ++ m2) \/ z = c).
      { rewrite in_app_iff in Hin. rewrite in_app_iff. simpl in Hin. intuition auto. }
      rewrite Hq, in_app_iff in Hin2. intuition auto. }
    split.
    { rewrite handles_snoc, Forall_app, cell_set_length, L. split; [exact Hh|constructor]. }
    apply handles_stable_snoc with (o1 ++ (c, x) :: o2); [exact Hst|exact Ho|]. simpl. tauto.
  - (* Push *)
    subst l'. assert (Lms : length ms = length l) by (rewrite <- Hfst, <- Hsnd, !map_length; reflexivity).
    do 2 eexists. split; [reflexivity|]. cbn [olist en_heap en_mutables].
    exists (l ++ [x]), (out ++ [(length h, x)]).
    split; [reflexivity|]. split; [rewrite replay_snoc, Ho; reflexivity|].
    split. { rewrite map_app, Hfst. reflexivity. }
    split. { rewrite map_app, Hsnd. reflexivity. }
    assert (Hnew : ~ In (length h) ms).
    { intros Hin. rewrite Forall_forall in Hlt. apply Hlt in Hin. lia. }
    assert (Lh1 : length (h ++ [Some (length ms)]) = length h + 1) by (rewrite app_length; reflexivity).
    split. { apply NoDup_app_comm_mid. rewrite app_nil_r. split; assumption. }
    split. { rewrite Lh1. apply Forall_mid. rewrite app_nil_r. split; [lia|].
             apply Forall_lt_mono with (length h); [lia|exact Hlt]. }
    split.
    { apply cells_at_app. split.
      - revert Hat. apply cells_at_frame. intros z Hz. apply cell_get_app.
        rewrite Forall_forall in Hlt. apply Hlt. exact Hz.
      - apply cells_at_cons. split; [apply cell_get_new|reflexivity]. }
    split.
    { intros z Hn. rewrite in_app_iff in Hn. simpl in Hn.
      destruct (Nat.lt_ge_cases z (length h)) as [Hz|Hz].
      - rewrite cell_get_app by exact Hz. apply Hoth. tauto.
      - apply cell_get_out. rewrite Lh1. destruct (Nat.eq_dec z (length h)); [subst; tauto|lia]. }
    split.
    { rewrite handles_snoc, Forall_app, Lh1. split; [apply Forall_lt_mono with (length h); [lia|exact Hh]|].
      simpl. constructor; [lia|constructor]. }
    apply handles_stable_snoc with out; [exact Hst|exact Ho|].
    simpl. intros c [<-|[]] Hin. rewrite Forall_forall in Hh. apply Hh in Hin. lia.
  - (* Pop *)
    destruct Hd as (x & El). rewrite El in Hsnd.
    apply map_split_mid in Hsnd. destruct Hsnd as (o1 & [c x'] & o2 & -> & Ho1 & Hx & Ho2).
    destruct o2; [|discriminate]. simpl in Hx. subst x'. rewrite map_app in Hfst. cbn [map fst] in Hfst.
    set (m1 := map fst o1) in *. subst ms. rewrite vpop_app.
    apply cells_at_app in Hat. destruct Hat as [Hat1 Hat2].
    apply NoDup_app_comm_mid in Hnd. rewrite app_nil_r in Hnd. destruct Hnd as [Hcn Hnd].
    apply Forall_mid in Hlt. rewrite app_nil_r in Hlt. destruct Hlt as [Hcl Hlt].
    do 2 eexists. split; [reflexivity|]. cbn [olist en_heap en_mutables].
    exists l', o1. split; [reflexivity|].
    split. { rewrite replay_snoc, Ho. apply apply_pop_app. }
    split; [reflexivity|]. split; [exact Ho1|]. split; [exact Hnd|].
    split; [rewrite cell_set_length; exact Hlt|].
    split.
    { revert Hat1. apply cells_at_frame. intros z Hz. rewrite cell_get_set by lia.
      destruct (Nat.eqb_spec c z); [subst; tauto|reflexivity]. }
    split.
    { intros z Hn. rewrite cell_get_set by lia. destruct (Nat.eqb_spec c z); [reflexivity|].
      apply Hoth. rewrite in_app_iff. simpl. tauto. }
    split.
    { rewrite handles_snoc, Forall_app, cell_set_length. split; [exact Hh|constructor]. }
    apply handles_stable_snoc with (o1 ++ [(c, x)]); [exact Hst|exact Ho|]. simpl. tauto.
  - (* Clear *)
    subst l'. destruct (clear_cells_spec ms h Hlt) as [L0 G0].
    do 2 eexists. split; [reflexivity|]. cbn [olist en_heap en_mutables].
    exists [], []. split; [reflexivity|]. split; [rewrite replay_snoc, Ho; reflexivity|].
    split; [reflexivity|]. split; [reflexivity|]. split; [constructor|]. split; [constructor|].
    split; [reflexivity|]. split.
    { intros c _. rewrite G0. destruct (in_dec Nat.eq_dec c ms); [reflexivity|]. apply Hoth. assumption. }
    split.
    { rewrite handles_snoc, Forall_app, L0. split; [exact Hh|constructor]. }
    apply handles_stable_snoc with out; [exact Hst|exact Ho|]. simpl. tauto.
Qed.

Lemma enumerate_correct {A} (script : list (poll (option (vecdiff A)))) :
  good_vec_script script -> forall n, exists st sr outs l out,
    run enumerate_poll n (en_init, fresh script) = Some ((st, sr), outs)
    /\ conveyed sr = Some l
    /\ replay (yielded outs) = Some out
    /\ map snd out = l
    /\ NoDup (map fst out)
    /\ (forall i c v, nth_error out i = Some (c, v) -> cell_get (en_heap st) c = Some i)
    /\ (forall c, In c (handles (yielded outs)) -> ~ In c (map fst out) -> cell_get (en_heap st) c = None)
    /\ handles_stable (yielded outs).
Proof.
  intros Hg n.
  destruct (emit_run_inv (@enumerate_step A) (fun ds => replay ds <> None) (@replay_prefix A) en_inv)
    with (s0 := en_init) (script := script) (n := n)
    as (st & sr & outs & Hr & l & out & H1 & H2 & H3 & H4 & H5 & H6 & H7 & H8 & H9 & H10).
  - intros s ds os d HI HP. exact (en_step_inv s ds os d HI HP).
  - exists [], []. split; [reflexivity|]. split; [reflexivity|]. split; [reflexivity|].
    split; [reflexivity|]. split; [constructor|]. split; [constructor|]. split; [reflexivity|].
    split; [intros [|c] _; reflexivity|]. split; [constructor|].
    intros pre d post E. destruct pre; discriminate.
  - exact Hg.
  - exists st, sr, outs, l, out.
    split; [exact Hr|]. split; [exact H1|]. split; [exact H2|]. split; [exact H4|].
    split; [rewrite H3; exact H5|]. split; [|split; [|exact H10]].
    + intros i c v Hn.
      assert (Hm : nth_error (en_mutables st) i = Some c).
      { rewrite <- H3, nth_error_map, Hn. reflexivity. }
      assert (Hm2 : nth_error (map (cell_get (en_heap st)) (en_mutables st)) i = Some (cell_get (en_heap st) c)).
      { rewrite nth_error_map, Hm. reflexivity. }
      rewrite H7, nth_error_map in Hm2.
      assert (Hlt : i < length (en_mutables st)) by (apply nth_error_Some; congruence).
      rewrite (nth_error_nth' _ 0) in Hm2 by (rewrite seq_length; exact Hlt).
      rewrite seq_nth in Hm2 by exact Hlt. simpl in Hm2. congruence.
    + intros c _ Hn. apply H8. rewrite <- H3. exact Hn.
Qed.
