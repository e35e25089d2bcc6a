(** Which combinators keep these two properties of the diffs: every Move goes forwards, and nothing
    empties what is empty. *)
From Verif Require Import Base Spec BaseFacts LoopFacts VecDiff VecFacts VecSpec VecSimple VecSimpleFacts
  Sort SortSpec SortFacts Chain ChainFacts Slot SlotFacts VecSlotFacts.

Definition fwd {A} (d : vecdiff A) : Prop := match d with Move o n => o <= n | _ => True end.

(** never_empties_empty, from the contents [l] on. *)
Fixpoint fills {A} (l : list A) (ds : list (vecdiff A)) : Prop :=
  match ds with
  | [] => True
  | d :: t => (l = [] -> d <> Clear /\ d <> Replace [])
              /\ match apply_to_vec d l with Some l' => fills l' t | None => True end
  end.

Definition mild {A} (d : vecdiff A) : Prop := d <> Clear /\ d <> Replace [].

Section Fills.
Context {A : Type}.
Implicit Types (l : list A) (ds : list (vecdiff A)).

Lemma fills_app a b : forall l l', apply_all apply_to_vec l a = Some l' -> (fills l (a ++ b) <-> fills l a /\ fills l' b).
Proof.
  induction a as [|d a IH]; intros l l' H; cbn [app apply_all fills] in *.
  - injection H as ->. tauto.
  - destruct (apply_to_vec d l) as [l1|]; [|discriminate]. rewrite (IH _ _ H). tauto.
Qed.

Lemma fills_left a b : forall l, fills l (a ++ b) -> fills l a.
Proof.
  induction a as [|d a IH]; intros l; cbn [app fills]; [tauto|]. intros [H1 H2]. split; [exact H1|].
  destruct (apply_to_vec d l); [exact (IH _ H2)|exact I].
Qed.

Lemma fills_mild ds : Forall mild ds -> forall l, fills l ds.
Proof.
  induction 1 as [|d ds H _ IH]; intros l; cbn [fills]; [exact I|]. split; [intros _; exact H|].
  destruct (apply_to_vec d l); [apply IH|exact I].
Qed.

Lemma nee_fills ds : never_empties_empty ds <-> fills [] ds.
Proof.
  split.
  - intros H. assert (G : forall pre, (exists post, ds = pre ++ post) -> fills [] pre).
    { intros pre. induction pre as [|d pre IH] using rev_ind; intros (post & E); [exact I|].
      assert (Hp : fills [] pre) by (apply IH; exists (d :: post); rewrite E, <- app_assoc; reflexivity).
      destruct (apply_all apply_to_vec [] pre) as [l|] eqn:El.
      - apply (fills_app pre [d] [] l El). split; [exact Hp|]. cbn [fills]. split; [|destruct (apply_to_vec d l); exact I].
        intros ->. apply (H pre d post); [rewrite E, <- app_assoc; reflexivity|exact El].
      - clear - El Hp. revert El Hp. generalize (@nil A). induction pre as [|e pre IH]; intros l El Hp; [discriminate|].
        cbn [app fills apply_all] in *. destruct Hp as [H1 H2]. split; [exact H1|].
        destruct (apply_to_vec e l); [exact (IH _ El H2)|exact I]. }
    apply (G ds). exists []. rewrite app_nil_r. reflexivity.
  - intros H pre d post -> Hr. unfold replay in Hr. apply (fills_app pre (d :: post) [] [] Hr) in H.
    destruct H as [_ [H _]]. exact (H eq_refl).
Qed.

Lemma nee_left a b : never_empties_empty (a ++ b) -> @never_empties_empty A a.
Proof. rewrite !nee_fills. apply fills_left. Qed.

Lemma nee_snoc ds d l : replay ds = Some l -> (never_empties_empty (ds ++ [d]) <-> never_empties_empty ds /\ (l = [] -> mild d)).
Proof.
  intros H. rewrite !nee_fills. rewrite (fills_app ds [d] [] l H). cbn [fills].
  destruct (apply_to_vec d l); unfold mild; tauto.
Qed.
End Fills.

(** ** Invariants of the generic loop, for a run that is given *)
Section EmitPart.
  Context {St D O : Type} (step : St -> D -> option (St * option O)).
  Variable P : list D -> Prop.
  Hypothesis P_prefix : forall a b, P (a ++ b) -> P a.
  Variables I K : St -> list D -> list O -> Prop.
  Hypothesis I_K : forall s ds os, I s ds os -> K s ds os.
  Hypothesis I_some : forall s ds os d s' o, I s ds os -> P (ds ++ [d]) -> step s d = Some (s', Some o) -> K s' (ds ++ [d]) (os ++ [o]).
  Hypothesis I_none : forall s ds os d s', I s ds os -> P (ds ++ [d]) -> step s d = Some (s', None) -> I s' (ds ++ [d]) os.

  Lemma loop_emit_part td : forall s pst os s' sr r,
    I s (yielded pst) os -> P (yielded pst ++ yielded td) -> loop_emit step s pst td = Some (s', sr, r) ->
    K s' (yielded (past sr)) (os ++ rlist r) /\ P (yielded (past sr) ++ yielded (todo sr)).
  Proof.
    induction td as [|x td IH]; intros s pst os s' sr r HI HP H; cbn [loop_emit] in H.
    - injection H as <- <- <-. unfold rlist; simpl. rewrite yielded_app. simpl. rewrite !app_nil_r in *. auto.
    - destruct x as [|[d|]].
      + injection H as <- <- <-. unfold rlist; simpl. rewrite yielded_app. simpl. rewrite !app_nil_r in *. auto.
      + assert (HPd : P (yielded pst ++ [d])).
        { apply P_prefix with (b := yielded td). rewrite <- app_assoc. exact HP. }
        destruct (step s d) as [[s1 [o|]]|] eqn:E; [| |discriminate].
        * injection H as <- <- <-. unfold rlist; simpl. rewrite yielded_app. simpl.
          split; [exact (I_some _ _ _ _ _ _ HI HPd E)|]. rewrite <- app_assoc. exact HP.
        * apply (IH _ _ os) in H; [exact H| |]; rewrite yielded_app; simpl;
            [exact (I_none _ _ _ _ _ HI HPd E)|rewrite <- app_assoc; exact HP].
      + injection H as <- <- <-. unfold rlist; simpl. rewrite yielded_app. simpl. rewrite !app_nil_r in *. auto.
  Qed.
End EmitPart.

Lemma emit_run_part {St D O} (step : St -> D -> option (St * option O)) (P : list D -> Prop)
  (I : St -> list D -> list O -> Prop) s0 script :
  (forall a b, P (a ++ b) -> P a) ->
  (forall s ds os d s' oo, I s ds os -> P (ds ++ [d]) -> step s d = Some (s', oo) -> I s' (ds ++ [d]) (os ++ olist oo)) ->
  I s0 [] [] -> P (yielded script) -> forall n s sr outs,
  run (emit_poll step) n (s0, fresh script) = Some ((s, sr), outs) -> I s (yielded (past sr)) (yielded outs).
Proof.
  intros HP HI H0 Hs n s sr outs Hr.
  apply (run_inv_partial0 (emit_poll step) (fun st outs => I (fst st) (yielded (past (snd st))) (yielded outs)
    /\ P (yielded (past (snd st)) ++ yielded (todo (snd st))))) in Hr; [exact (proj1 Hr)|split; assumption|].
  clear - HP HI. intros [s sr] outs [s' sr'] o [H1 H2] _ E. unfold emit_poll in E. cbn [fst snd] in *.
  destruct (loop_emit step s (past sr) (todo sr)) as [[[s1 sr1] r]|] eqn:El; [|discriminate]. injection E as <- <- <-.
  rewrite yielded_app. apply (loop_emit_part step P HP I I) with (os := yielded outs) in El; auto.
  - intros s2 ds os d s3 o A B C. exact (HI _ _ _ _ _ _ A B C).
  - intros s2 ds os d s3 A B C. pose proof (HI _ _ _ _ _ _ A B C) as X. simpl in X. rewrite app_nil_r in X. exact X.
Qed.

(** ** Combinators that give one diff of the same shape for each diff *)
Definition shape {A B} (d : vecdiff A) (e : vecdiff B) : Prop :=
  match d, e with
  | Replace a, Replace b => length a = length b
  | InsertAt i _, InsertAt j _ | UpdateAt i _, UpdateAt j _ | RemoveAt i, RemoveAt j => i = j
  | Move o n, Move o' n' => o = o' /\ n = n'
  | Push _, Push _ | Pop, Pop | Clear, Clear => True
  | _, _ => False
  end.

Lemma shape_apply {A B} (d : vecdiff A) (e : vecdiff B) l m l' : shape d e -> length l = length m -> apply_to_vec d l = Some l' ->
  exists m', apply_to_vec e m = Some m' /\ length l' = length m'.
Proof.
  intros Hs Hlm Ha. pose proof (apply_length _ _ _ Ha) as Hl. apply apply_inv in Ha.
  destruct d as [vs|i x|i x|i|o n|x| |], e as [vs'|i' x'|i' x'|i'|o' n'|x'| |]; try contradiction; cbn [shape] in Hs.
  - subst. eexists. split; [reflexivity|exact Hs].
  - subst i'. destruct Ha as (l1 & l2 & -> & -> & <-). rewrite app_length in Hlm.
    rewrite <- (firstn_skipn (length l1) m). rewrite apply_insert_app by (rewrite firstn_length; lia).
    eexists. split; [reflexivity|]. rewrite !app_length in *. simpl in *. rewrite firstn_length, skipn_length. lia.
  - subst i'. destruct Ha as (l1 & y & l2 & -> & -> & <-). rewrite app_length in Hlm. simpl in Hlm.
    destruct (skipn (length l1) m) as [|z t] eqn:E. { apply (f_equal (@length B)) in E. rewrite skipn_length in E. simpl in E. lia. }
    rewrite <- (firstn_skipn (length l1) m), E. rewrite apply_update_app by (rewrite firstn_length; lia).
    apply (f_equal (@length B)) in E. rewrite skipn_length in E. simpl in E.
    eexists. split; [reflexivity|]. rewrite !app_length in *. simpl in *. rewrite firstn_length. lia.
  - subst i'. destruct Ha as (l1 & y & l2 & -> & -> & <-). rewrite app_length in Hlm. simpl in Hlm.
    destruct (skipn (length l1) m) as [|z t] eqn:E. { apply (f_equal (@length B)) in E. rewrite skipn_length in E. simpl in E. lia. }
    rewrite <- (firstn_skipn (length l1) m), E. rewrite apply_remove_app by (rewrite firstn_length; lia).
    apply (f_equal (@length B)) in E. rewrite skipn_length in E. simpl in E.
    eexists. split; [reflexivity|]. rewrite !app_length in *. simpl in *. rewrite firstn_length. lia.
  - destruct Hs as [<- <-]. destruct Ha as (l1 & y & l2 & m1 & m2 & -> & <- & Hm & -> & <-). rewrite app_length in Hlm. simpl in Hlm.
    destruct (skipn (length l1) m) as [|z t] eqn:E. { apply (f_equal (@length B)) in E. rewrite skipn_length in E. simpl in E. lia. }
    rewrite <- (firstn_skipn (length l1) m), E. cbn [apply_to_vec]. rewrite vremove_app by (rewrite firstn_length; lia).
    apply (f_equal (@length B)) in E. rewrite skipn_length in E. simpl in E.
    apply (f_equal (@length A)) in Hm. rewrite !app_length in *. simpl in *.
    set (r := firstn (length l1) m ++ t). assert (Hr : length r = length l1 + length l2).
    { unfold r. rewrite app_length, firstn_length. lia. }
    rewrite <- (firstn_skipn (length m1) r). rewrite vinsert_app by (rewrite firstn_length; lia).
    eexists. split; [reflexivity|]. rewrite app_length. simpl. rewrite firstn_length, skipn_length. lia.
  - eexists. split; [reflexivity|]. rewrite !app_length in *. simpl in *. lia.
  - destruct Ha as (x & ->). destruct (exists_last (l := m)) as (m' & z & ->).
    { intros ->. rewrite app_length in Hlm. simpl in Hlm. lia. }
    rewrite apply_pop_app. eexists. split; [reflexivity|]. rewrite !app_length in *. simpl in *. lia.
  - subst. eexists. split; [reflexivity|]. reflexivity.
Qed.

Lemma shape_fills {A B} (ds : list (vecdiff A)) (es : list (vecdiff B)) : Forall2 shape ds es -> forall l m, length l = length m ->
  apply_all apply_to_vec l ds <> None -> fills l ds -> fills m es.
Proof.
  induction 1 as [|d e ds es Hs _ IH]; intros l m Hlm Ha Hf; cbn [fills apply_all] in *; [exact I|].
  destruct Hf as [H1 H2]. split.
  - intros ->. destruct l; [|discriminate]. destruct (H1 eq_refl) as [N1 N2].
    destruct d as [vs| | | | | | |], e as [vs'| | | | | | |]; try contradiction; split; try discriminate; try congruence.
    intros H. injection H as ->. apply N2. destruct vs; [reflexivity|discriminate].
  - destruct (apply_to_vec d l) as [l'|] eqn:E; [|congruence].
    destruct (shape_apply d e l m l' Hs Hlm E) as (m' & -> & Hl). exact (IH l' m' Hl Ha H2).
Qed.

Lemma shape_fwd {A B} (ds : list (vecdiff A)) (es : list (vecdiff B)) : Forall2 shape ds es -> Forall fwd ds -> Forall fwd es.
Proof.
  induction 1 as [|d e ds es Hs _ IH]; intros H; [constructor|]. inversion H; subst. constructor; [|auto].
  destruct d, e; try contradiction; try exact I. destruct Hs as [<- <-]. assumption.
Qed.

Lemma shape_vd_map {A B} (f : A -> B) d : shape d (fst (vd_map f d)).
Proof. destruct d; simpl; auto. symmetry. apply map_length. Qed.

Lemma shape_trans {A B C} (d : vecdiff A) (e : vecdiff B) (g : vecdiff C) : shape d e -> shape e g -> shape d g.
Proof. destruct d, e; try contradiction; destruct g; try contradiction; simpl; try congruence; auto. intros [-> ->]. auto. Qed.

Lemma shape_emit {St A B} (step : St -> vecdiff A -> option (St * option (vecdiff B))) s0 script :
  (forall s d s' oo, step s d = Some (s', oo) -> exists e, oo = Some e /\ shape d e) ->
  forall n s sr outs, run (emit_poll step) n (s0, fresh script) = Some ((s, sr), outs) -> Forall2 shape (yielded (past sr)) (yielded outs).
Proof.
  intros H n s sr outs Hr.
  apply (emit_run_part step (fun _ => True) (fun _ ds os => Forall2 shape ds os)) in Hr; auto.
  intros s1 ds os d s' oo HI _ E. destruct (H _ _ _ _ E) as (e & -> & He). apply Forall2_app; [exact HI|]. constructor; [exact He|constructor].
Qed.

Lemma vmap_shape {A B} (f : A -> B) s d s' oo : vmap_step f s d = Some (s', oo) -> exists e, oo = Some e /\ shape d e.
Proof.
  unfold vmap_step. pose proof (shape_vd_map f d) as H. destruct (vd_map f d) as [e c]. intros E. injection E as <- <-. eauto.
Qed.

Lemma vdebug_shape {A} s (d : vecdiff A) s' oo : vdebug_step s d = Some (s', oo) -> exists e, oo = Some e /\ shape d e.
Proof. intros E. injection E as <- <-. exists d. split; [reflexivity|]. destruct d; simpl; auto. Qed.

Lemma alloc_length {A} (vs : list A) : forall h i, length (snd (alloc_cells h i vs)) = length vs.
Proof.
  induction vs as [|v vs IH]; intros h i; cbn [alloc_cells]; [reflexivity|]. specialize (IH (h ++ [Some i]) (i + 1)).
  destruct (alloc_cells (h ++ [Some i]) (i + 1) vs) as [[h' cs] out]. simpl in *. congruence.
Qed.

Lemma enumerate_shape {A} s (d : vecdiff A) s' oo : enumerate_step s d = Some (s', oo) -> exists e, oo = Some e /\ shape d e.
Proof.
  intros E. destruct d as [vs|i x|i x|i|o n|x| |]; cbn [enumerate_step] in E.
  - pose proof (alloc_length vs (clear_cells (en_heap s) (en_mutables s)) 0) as H.
    destruct (alloc_cells _ 0 vs) as [[h2 cs] out]. injection E as _ <-. eexists. split; [reflexivity|]. simpl in *. auto.
  - destruct (vinsert _ _ _); [|discriminate]. destruct (slice _ _ _); [|discriminate]. injection E as _ <-. eexists. split; [reflexivity|]. reflexivity.
  - destruct (nth_error _ _); [|discriminate]. injection E as _ <-. eexists. split; [reflexivity|]. reflexivity.
  - destruct (vremove _ _) as [[? ?]|]; [|discriminate]. destruct (slice _ _ _); [|discriminate]. destruct (decrement_cells _ _); [|discriminate].
    injection E as _ <-. eexists. split; [reflexivity|]. reflexivity.
  - destruct (vremove _ _) as [[? ?]|]; [|discriminate]. destruct (vinsert _ _ _); [|discriminate].
    match type of E with (match ?x with _ => _ end = _) => destruct x; [|discriminate] end.
    injection E as _ <-. eexists. split; [reflexivity|]. split; reflexivity.
  - injection E as _ <-. eexists. split; [reflexivity|]. exact I.
  - destruct (vpop _) as [[? ?]|]; [|discriminate]. injection E as _ <-. eexists. split; [reflexivity|]. exact I.
  - injection E as _ <-. eexists. split; [reflexivity|]. exact I.
Qed.

(** ** filter and filter_map *)
Lemma find_mono idx o n i j : o <= n -> find_index idx o = Some i -> find_index idx n = Some j -> i <= j.
Proof.
  intros Hle. unfold find_index. destruct (o <=? length idx); [|discriminate]. destruct (n <=? length idx); [|discriminate].
  intros H1 H2. injection H1 as <-. injection H2 as <-.
  replace n with (o + (n - o)) by lia. rewrite <- (firstn_skipn o idx) at 2.
  destruct (Nat.le_gt_cases (length idx) o) as [L|L].
  - rewrite (firstn_all2 idx L), (skipn_all2 idx L), app_nil_r. rewrite firstn_all2 by lia. lia.
  - rewrite firstn_app. rewrite (firstn_all2 (n := o + (n - o)) (firstn o idx)) by (rewrite firstn_length; lia).
    rewrite filter_app, app_length. lia.
Qed.

Lemma filter_map_fwd {A B} (f : A -> option B) s d s' oo : filter_map_step f s d = Some (s', oo) -> fwd d -> Forall fwd (olist oo).
Proof.
  intros E Hf. assert (Done : forall x : option (vecdiff B), (forall o n, x <> Some (Move o n)) -> Forall fwd (olist x)).
  { intros [x|] H; [|constructor]. constructor; [|constructor]. destruct x; try exact I. exfalso. exact (H _ _ eq_refl). }
  destruct d as [vs|i x|i x|i|o n|x| |]; cbn [filter_map_step] in E.
  5:{ destruct (vremove _ _) as [[[] ?]|]; [| |discriminate].
      - destruct (vinsert _ _ _); [|discriminate]. destruct (find_index _ o) eqn:E1; [|discriminate]. destruct (find_index _ n) eqn:E2; [|discriminate].
        injection E as _ <-. constructor; [|constructor]. exact (find_mono _ _ _ _ _ Hf E1 E2).
      - destruct (vinsert _ _ _); [|discriminate]. injection E as _ <-. constructor. }
  all: apply Done; intros o1 n1 ->.
  all: repeat match type of E with
       | context [match ?x with _ => _ end] => destruct x; try discriminate
       | context [if ?x then _ else _] => destruct x; try discriminate
       end.
  all: discriminate.
Qed.

Lemma filter_map_forward {A B} (f : A -> option B) script n s sr outs :
  run (filter_map_poll f) n (fm_init, fresh script) = Some ((s, sr), outs) -> Forall fwd (yielded script) ->
  Forall fwd (yielded outs).
Proof.
  intros Hr Hs. apply (emit_run_part (filter_map_step f) (Forall fwd) (fun _ _ os => Forall fwd os)) in Hr; auto.
  - intros a b. rewrite Forall_app. tauto.
  - intros s1 ds os d s' oo HI HP E. rewrite Forall_app in HP. destruct HP as [_ HP]. inversion HP; subst.
    apply Forall_app. split; [exact HI|]. exact (filter_map_fwd f _ _ _ _ E H1).
Qed.

(** ** sort_by_cloned *)
Section SortCalm.
  Context {A : Type} (compare : A -> A -> comparison).
  Hypothesis TP : total_preorder compare.

  Lemma insert_at_kind idx si k (v : A) idx' d : sort_insert_at idx si k v = Some (idx', d) -> fwd d /\ mild d.
  Proof.
    unfold sort_insert_at. destruct (si =? length idx); [intros H; injection H as _ <-; split; [exact I|split; discriminate]|].
    destruct (vinsert _ _ _); [|discriminate]. intros H. injection H as _ <-. split; [exact I|split; discriminate].
  Qed.

  Lemma remove_at_kind idx si idx' (d : vecdiff A) : sort_remove_at idx si = Some (idx', d) -> fwd d /\ mild d.
  Proof.
    unfold sort_remove_at. destruct (usub _ _); [|discriminate].
    destruct (si =? n).
    - destruct (vpop idx) as [[? ?]|]; intros H; injection H as _ <-; (split; [exact I|split; discriminate]).
    - destruct (vremove _ _) as [[? ?]|]; [|discriminate]. intros H. injection H as _ <-. split; [exact I|split; discriminate].
  Qed.

  (** A Move that goes forwards gives one that goes forwards: what was before the element still is. *)
  Lemma move_forward s ds os o n s' oo : so_pending s = None -> sinv compare s ds os -> replay (ds ++ [Move o n]) <> None -> o <= n ->
    sort_step compare s (Move o n) = Some (s', oo) -> Forall fwd (olist oo).
  Proof.
    intros Hpend (l & out & mid & Hl & Hv & Hf & Hsh & Ho & Hm) Hg Hle E.
    destruct s as [pd vs idx]. cbn [so_pending so_values so_indexes] in *. subst pd vs mid.
    rewrite replay_snoc, Hl in Hg. destruct (apply_to_vec (Move o n) l) as [l'|] eqn:Ha; [|congruence]. clear Hg.
    apply apply_inv in Ha. destruct Ha as (l1 & y & l2 & m1 & m2 & -> & <- & Hm & -> & <-).
    cbn [sort_step] in E.
    destruct (full_split compare TP _ _ (length l1) Hf) as (p & q & -> & Es & Hb).
    { rewrite app_length. simpl. lia. }
    rewrite Es in E. rewrite vremove_app in E by reflexivity.
    rewrite decrement_app, decrement_self, vremove_app in E by (apply decrement_length).
    rewrite <- decrement_app in E.
    assert (Hf1 := but_decrement compare l1 y l2 _ Hb).
    rewrite Hm in *. rewrite vinsert_app in E by reflexivity.
    assert (Hb2 := full_increment compare m1 y m2 _ Hf1).
    destruct (but_insert compare TP _ _ _ Hb2) as (p' & q' & Epq & Es' & Hf').
    { rewrite app_length. simpl. lia. }
    rewrite Es', Epq in E. rewrite vinsert_app in E by reflexivity.
    destruct (Nat.eqb_spec (length p) (length p')) as [El|El]; injection E as _ <-; [constructor|].
    constructor; [|constructor]. cbn [fwd].
    destruct (Nat.le_gt_cases (length p) (length p')) as [L|L]; [exact L|]. exfalso.
    set (g := fun i : nat => (fun j => if length m1 <=? j then j + 1 else j) (if length l1 <? i then i - 1 else i)).
    assert (Eg : map g (p ++ q) = p' ++ q').
    { rewrite <- Epq. unfold increment_indexes, decrement_indexes. rewrite map_map. reflexivity. }
    destruct (nth_error p (length p')) as [x|] eqn:Ex; [|apply nth_error_None in Ex; lia].
    assert (Hxp : In x p) by (apply nth_error_In in Ex; exact Ex).
    assert (Hq : In (g x) q').
    { assert (N : nth_error (p' ++ q') (length p') = Some (g x)).
      { rewrite <- Eg. apply map_nth_error. rewrite nth_error_app1; assumption. }
      rewrite nth_error_app2 in N by lia. rewrite Nat.sub_diag in N. apply nth_error_In in N. exact N. }
    (* x is before the element, and its image is after it *)
    assert (H1 : ilt compare (l1 ++ y :: l2) x (length l1)).
    { destruct Hf as [_ Hs]. clear - Hs Hxp. induction p as [|a p IH]; [destruct Hxp|]. inversion Hs as [|? ? Hs1 Hs2]; subst.
      destruct Hxp as [->|Hxp]; [|exact (IH Hs1 Hxp)]. rewrite Forall_forall in Hs2. apply Hs2. apply in_or_app. right. left. reflexivity. }
    assert (H2 : ilt compare (m1 ++ y :: m2) (length m1) (g x)).
    { destruct Hf' as [_ Hs]. clear - Hs Hq. induction p' as [|a p' IH]; inversion Hs as [|? ? Hs1 Hs2]; subst; [|exact (IH Hs1)].
      rewrite Forall_forall in Hs2. exact (Hs2 _ Hq). }
    destruct H1 as (a & y1 & Ha1 & Hy1 & V1). destruct H2 as (y2 & b & Hy2 & Hb1 & V2).
    rewrite nth_mid in Hy1, Hy2. injection Hy1 as <-. injection Hy2 as <-.
    assert (Hne : x <> length l1). { intros ->. apply (but_not_in compare _ _ _ Hb). apply in_or_app. left. exact Hxp. }
    assert (Hab : b = a).
    { unfold g in Hb1. rewrite nth_inc, <- Hm, (nth_dec l1 l2 y x Hne) in Hb1. rewrite Ha1 in Hb1. injection Hb1 as <-. reflexivity. }
    subst b. destruct TP as [Opp _]. pose proof (Opp a y) as Hopp. unfold vlt in V1, V2.
    destruct V1 as [V1|[V1 V1']]; rewrite V1 in Hopp; simpl in Hopp; rewrite Hopp in V2.
    - destruct V2 as [V2|[V2 _]]; discriminate.
    - destruct V2 as [V2|[_ V2]]; [discriminate|]. unfold g in V2.
      destruct (Nat.ltb_spec (length l1) x); [lia|]. destruct (Nat.leb_spec (length m1) x); lia.
  Qed.

  (** What the other changes give. *)
  Lemma sort_step_calm s ds os d s' oo : so_pending s = None -> sinv compare s ds os -> replay (ds ++ [d]) <> None ->
    sort_step compare s d = Some (s', oo) ->
    (fwd d -> Forall fwd (olist oo))
    /\ (forall e, so_pending s' = Some e -> fwd e /\ mild e)
    /\ (mild d -> Forall mild (olist oo)).
  Proof.
    intros Hp Hi Hg E. destruct d as [vs|i x|i x|i|o n|x| |].
    5:{ split; [intros Hf; exact (move_forward _ _ _ _ _ _ _ Hp Hi Hg Hf E)|].
        destruct s as [pd vs0 idx]; cbn [sort_step so_pending] in *. subst pd.
        repeat match type of E with
           | context [match ?x with _ => _ end] => destruct x; try discriminate E
           | context [if ?x then _ else _] => destruct x; try discriminate E
           end; injection E as <- <-; cbn [so_pending]; (split; [discriminate|]); intros _; repeat constructor; discriminate. }
    1:{ destruct (sort_step_inv compare TP s ds os (Replace vs) Hp Hi Hg) as (s1 & o1 & E1 & (l & out & mid & Hl & Hv & Hf & Hsh & Ho & _) & _).
        rewrite E in E1. injection E1 as <- <-.
        destruct s as [pd vs0 idx]; cbn [sort_step so_pending] in *. subst pd.
        destruct (sort_unstable_by _ _) as [ni|] eqn:E2; [|discriminate]. destruct (pick vs ni) as [so|] eqn:E3; [|discriminate].
        injection E as <- <-. cbn [so_pending so_values so_indexes] in *. split; [intros _; repeat constructor|]. split; [discriminate|].
        intros [_ M]. constructor; [|constructor]. split; [discriminate|]. intros H. injection H as ->. apply M.
        destruct ni as [|k ni]; [|cbn [pick] in E3; destruct (nth_error vs k); [|discriminate]; destruct (pick vs ni); discriminate].
        subst vs. destruct Hf as [Hf _]. destruct l as [|z l]; [reflexivity|]. exfalso. apply (Hf 0). split; [simpl; lia|exact I]. }
    all: destruct s as [pd vs0 idx]; cbn [sort_step so_pending] in *; subst pd.
    all: repeat match type of E with
           | context [sort_insert_at ?a ?b ?c ?d] => destruct (sort_insert_at a b c d) as [[? ?]|] eqn:?; [|discriminate E]
           | context [sort_remove_at ?a ?b] => destruct (sort_remove_at a b) as [[? ?]|] eqn:?; [|discriminate E]
           | context [match ?x with _ => _ end] => destruct x; try discriminate E
           | context [if ?x then _ else _] => destruct x; try discriminate E
           end.
    all: repeat match goal with
           | H : sort_insert_at _ _ _ _ = Some _ |- _ => apply insert_at_kind in H
           | H : sort_remove_at _ _ = Some _ |- _ => apply remove_at_kind in H
           end.
    all: injection E as <- <-; cbn [so_pending olist].
    all: split; [intros Hf; constructor; [|constructor]; first [exact I|tauto]|].
    all: split; [intros e He; first [discriminate He|injection He as <-; assumption]|].
    all: intros M; constructor; [|constructor]; first [exact M|tauto|split; discriminate].
  Qed.

  Lemma sort_calm script n s sr outs : good_vec_script script ->
    run (sort_poll compare) n (sort_init, fresh script) = Some ((s, sr), outs) ->
    (Forall fwd (yielded script) -> Forall fwd (yielded outs))
    /\ (never_empties_empty (yielded script) -> never_empties_empty (yielded outs)).
  Proof.
    intros Hg Hr.
    set (P := fun (F N : Prop) (ds : list (vecdiff A)) => replay ds <> None /\ (F -> Forall fwd ds) /\ (N -> never_empties_empty ds)).
    set (K := fun (F N : Prop) (s : sort_state (A := A)) ds os => sinv compare s ds os /\ (F -> Forall fwd os) /\ (N -> never_empties_empty os)
              /\ forall e, so_pending s = Some e -> fwd e /\ mild e).
    assert (G : forall F N : Prop, P F N (yielded script) -> K F N s (yielded (past sr)) (yielded outs)).
    2:{ split; intros H.
        - apply (G True False); [|exact I]. split; [exact Hg|]. split; [auto|intros []].
        - apply (G False True); [|exact I]. split; [exact Hg|]. split; [intros []|auto]. }
    intros F N HP.
    assert (Ppre : forall a b, P F N (a ++ b) -> P F N a).
    { intros a b (H1 & H2 & H3). split; [exact (replay_prefix a b H1)|]. split.
      - intros f. apply H2 in f. apply Forall_app in f. apply f.
      - intros f. exact (nee_left a b (H3 f)). }
    assert (X : K F N (fst (s, sr)) (yielded (past (snd (s, sr)))) (yielded outs)
                /\ P F N (yielded (past (snd (s, sr))) ++ yielded (todo (snd (s, sr))))).
    2:{ exact (proj1 X). }
    revert Hr. apply (run_inv_partial0 (sort_poll compare) (fun st outs => K F N (fst st) (yielded (past (snd st))) (yielded outs)
      /\ P F N (yielded (past (snd st)) ++ yielded (todo (snd st))))).
    { cbn. split; [|exact HP]. split; [|split; [constructor|split; [intros _ [|] d post H; discriminate|discriminate]]].
      exists [], [], []. cbn. split; [reflexivity|]. split; [reflexivity|]. split; [apply full_nil|]. split; [constructor|]. auto. }
    clear s sr outs. intros [s sr] outs [s' sr'] o [HK HPs] _ E. cbn [fst snd] in *.
    destruct s as [pd vs idx]. unfold sort_poll in E. destruct pd as [e|].
    - injection E as <- <- <-. split; [|exact HPs]. destruct HK as (Hi & H1 & H2 & H3). rewrite yielded_app. cbn [yielded].
      destruct (H3 e eq_refl) as [Hf Hm]. destruct Hi as (l & out & mid & Hl & Hv & Hfu & Hsh & Ho & Ha & _).
      split; [|split; [|split; [|discriminate]]].
      + exists l, out, out. cbn [so_pending so_values so_indexes] in *. split; [exact Hl|]. split; [exact Hv|]. split; [exact Hfu|].
        split; [exact Hsh|]. rewrite replay_snoc, Ho, Ha. auto.
      + intros f. apply Forall_app. split; [exact (H1 f)|]. constructor; [exact Hf|constructor].
      + intros f. apply (nee_snoc _ _ _ Ho). split; [exact (H2 f)|intros _; exact Hm].
    - unfold emit_poll in E. destruct (loop_emit (sort_step compare) (mkSort None vs idx) (past sr) (todo sr)) as [[[s1 sr1] r]|] eqn:El; [|discriminate].
      injection E as <- <- <-. rewrite yielded_app.
      apply (loop_emit_part (sort_step compare) (P F N) Ppre (fun s ds os => so_pending s = None /\ K F N s ds os) (K F N))
        with (os := yielded outs) in El; [exact El| | | |split; [reflexivity|exact HK]|exact HPs].
      + intros s0 ds os [_ H]. exact H.
      + intros s0 ds os d s2 o [Hp (Hi & H1 & H2 & _)] (Q1 & Q2 & Q3) Es.
        destruct (sort_step_inv compare TP s0 ds os d Hp Hi Q1) as (s3 & o3 & E3 & Hi3 & _). rewrite Es in E3. injection E3 as <- <-.
        destruct (sort_step_calm s0 ds os d s2 (Some o) Hp Hi Q1 Es) as (C1 & C2 & C3).
        split; [exact Hi3|]. split; [|split; [|exact C2]].
        * intros f. apply Forall_app. split; [exact (H1 f)|]. apply C1. specialize (Q2 f). apply Forall_app in Q2.
          destruct Q2 as [_ Q2]. inversion Q2; subst. assumption.
        * intros f. destruct Hi as (l & out & mid & Hl & Hv & Hfu & Hsh & Ho & Hm). rewrite Hp in Hm. subst mid.
          apply (nee_snoc _ _ _ Ho). split; [exact (H2 f)|]. intros ->.
          assert (Le : l = []).
          { destruct l as [|z l]; [reflexivity|]. exfalso. apply shown_length in Hsh. destruct (so_indexes s0) as [|]; [|discriminate].
            destruct Hfu as [Hfu _]. apply (Hfu 0). split; [simpl; lia|exact I]. }
          assert (Hmd : mild d) by (apply (proj1 (nee_snoc _ _ _ Hl) (Q3 f)); exact Le).
          specialize (C3 Hmd). inversion C3; subst. assumption.
      + intros s0 ds os d s2 [Hp (Hi & H1 & H2 & _)] (Q1 & Q2 & Q3) Es.
        destruct (sort_step_inv compare TP s0 ds os d Hp Hi Q1) as (s3 & o3 & E3 & Hi3 & Hp3). rewrite Es in E3. injection E3 as <- <-.
        simpl in Hi3. rewrite app_nil_r in Hi3. split; [exact (Hp3 eq_refl)|]. split; [exact Hi3|]. split; [exact H1|]. split; [exact H2|].
        rewrite (Hp3 eq_refl). discriminate.
  Qed.
End SortCalm.

(** ** chain *)
Section ChainCalm.
  Context {A : Type}.
  Implicit Types st : chain_state A.

  Lemma poll_slot_fwd (sl sl' : slot (option (vecdiff A))) r : Forall fwd (deliverable sl) -> poll_slot sl = (r, sl') ->
    Forall fwd (deliverable sl') /\ forall d, r = Some (Ready (Some d)) -> fwd d.
  Proof.
    unfold deliverable, delivered. destruct sl as [[] [pst td]]; cbn; intros H E; [|injection E as <- <-; split; [exact H|discriminate]].
    destruct td as [|a td]; cbn in E; injection E as <- <-; cbn.
    - rewrite yielded_app. cbn. rewrite !app_nil_r in *. split; [exact H|discriminate].
    - rewrite yielded_app. destruct a as [|[d|]]; cbn in *; rewrite ?app_nil_r, <- ?app_assoc; (split; [exact H|]); try discriminate.
      intros e He. injection He as <-. rewrite Forall_app in H. destruct H as [_ H]. inversion H; subst. assumption.
  Qed.

  Definition fwds st : Prop := Forall fwd (deliverable (ch_left st)) /\ Forall fwd (deliverable (ch_right st)) /\ Forall fwd (ch_pending st).

  Lemma fwd_all (ds : list (vecdiff A)) : (forall o n, ~ In (Move o n) ds) -> Forall fwd ds.
  Proof. intros H. apply Forall_forall. intros [] Hi; try exact I. exfalso. exact (H _ _ Hi). Qed.

  Lemma fwd_map {B} (g : B -> vecdiff A) (l : list B) : (forall b, fwd (g b)) -> Forall fwd (map g l).
  Proof. intros H. induction l; constructor; auto. Qed.

  Lemma rc_fwd r st st' oo : fwds st -> (forall d, r = Some (Ready (Some d)) -> fwd d) -> process_right_change r st = Some (st', oo) ->
    fwds st' /\ Forall fwd (olist oo).
  Proof.
    intros (F1 & F2 & F3) Hd E. destruct r as [[|[d|]]|]; cbn [process_right_change] in E.
    1, 3, 4: injection E as <- <-; split; [split; [exact F1|]; split; [exact F2|exact F3]|constructor].
    specialize (Hd d eq_refl).
    destruct d as [vs|i x|i x|i|o n|x| |].
    1, 8: destruct (ch_left_len st =? 0); injection E as <- <-; split; [|repeat constructor| |constructor];
      (split; [exact F1|]; split; [exact F2|]); cbn; rewrite ?Forall_app; try exact F3; repeat split; auto;
      try (apply fwd_map; intros; exact I); apply fwd_all; intros o n Hi; apply repeat_spec in Hi; discriminate.
    all: repeat match type of E with context [match ?x with _ => _ end] => destruct x; try discriminate E end.
    all: injection E as <- <-; (split; [split; [exact F1|]; split; [exact F2|exact F3]|]); constructor; [|constructor]; cbn in *; try exact I; lia.
  Qed.

  Lemma push_some_fwd r st st' : fwds st -> (forall d, r = Some (Ready (Some d)) -> fwd d) -> push_some (process_right_change r st) = Some st' -> fwds st'.
  Proof.
    intros F Hd E. unfold push_some in E. destruct (process_right_change r st) as [[s1 o]|] eqn:E1; [|discriminate]. injection E as <-.
    destruct (rc_fwd _ _ _ _ F Hd E1) as [(G1 & G2 & G3) G4]. destruct o; [|split; [|split]; assumption].
    split; [exact G1|]. split; [exact G2|]. cbn. apply Forall_app. split; assumption.
  Qed.

  Lemma replace_fwd vs st st' oo : fwds st -> process_replace vs st = Some (st', oo) -> fwds st' /\ Forall fwd (olist oo).
  Proof.
    intros (F1 & F2 & F3) E. unfold process_replace, poll_right in E. destruct (poll_slot (ch_right st)) as [r sl] eqn:Es.
    destruct (poll_slot_fwd _ _ _ F2 Es) as [G Hd].
    assert (X : (exists rv, r = Some (Ready (Some (Replace rv))) /\ Some (set_right_len (length rv) (set_left_len (length vs) (set_right sl st)), Some (Replace (vs ++ rv))) = Some (st', oo))
      \/ (exists st3 ps, push_some (process_right_change r st3) = Some st' /\ ch_left st3 = ch_left st /\ ch_right st3 = sl /\ ch_pending st3 = ch_pending st ++ ps
          /\ Forall fwd ps /\ Forall fwd (olist oo))).
    { destruct (match r with Some (Ready (Some (Replace _))) => true | _ => false end) eqn:Eb.
      - left. destruct r as [[|[[]|]]|]; try discriminate. eauto.
      - right. destruct (ch_right_len st =? 0) eqn:E0.
        all: destruct r as [[|[d|]]|]; try (destruct d); try discriminate; cbn -[push_some process_right_change] in E; rewrite E0 in E;
          match type of E with context [push_some (process_right_change ?b0 ?s0)] => destruct (push_some (process_right_change b0 s0)) as [s4|] eqn:E4; [|discriminate]; injection E as <- <-;
            first [exists s0, []; split; [exact E4|]; split; [reflexivity|]; split; [reflexivity|]; split; [cbn; rewrite app_nil_r; reflexivity|]; split; repeat constructor
                  |eexists s0, (_ ++ _); split; [exact E4|]; split; [reflexivity|]; split; [reflexivity|]; split; [cbn; rewrite <- app_assoc; reflexivity|]; split; [|constructor];
                   apply Forall_app; split; apply fwd_map; intros; exact I] end. }
    destruct X as [(rv & -> & X)|(st3 & ps & X & X1 & X2 & X3 & X4 & X5)].
    - injection X as <- <-. split; [|repeat constructor]. split; [exact F1|]. split; [exact G|exact F3].
    - split; [|exact X5]. apply (push_some_fwd r st3); [|exact Hd|exact X]. split; [rewrite X1; exact F1|]. split; [rewrite X2; exact G|].
      rewrite X3. apply Forall_app. split; assumption.
  Qed.

  Lemma clear_fwd st st' oo : fwds st -> process_clear st = Some (st', oo) -> fwds st' /\ Forall fwd (olist oo).
  Proof.
    intros (F1 & F2 & F3) E. unfold process_clear, poll_right in E. destruct (poll_slot (ch_right st)) as [r sl] eqn:Es.
    destruct (poll_slot_fwd _ _ _ F2 Es) as [G Hd].
    assert (X : (r = Some (Ready (Some Clear)) /\ Some (set_right_len 0 (set_left_len 0 (set_right sl st)), Some Clear) = Some (st', oo))
      \/ (exists st3 ps, push_some (process_right_change r st3) = Some st' /\ ch_left st3 = ch_left st /\ ch_right st3 = sl /\ ch_pending st3 = ch_pending st ++ ps
          /\ Forall fwd ps /\ Forall fwd (olist oo))).
    { destruct (match r with Some (Ready (Some Clear)) => true | _ => false end) eqn:Eb.
      - left. destruct r as [[|[[]|]]|]; try discriminate. eauto.
      - right. destruct (ch_right_len st =? 0) eqn:E0.
        all: destruct r as [[|[d|]]|]; try (destruct d); try discriminate; cbn -[push_some process_right_change] in E; rewrite E0 in E;
          match type of E with context [push_some (process_right_change ?b0 ?s0)] => destruct (push_some (process_right_change b0 s0)) as [s4|] eqn:E4; [|discriminate]; injection E as <- <-;
            first [exists s0, []; split; [exact E4|]; split; [reflexivity|]; split; [reflexivity|]; split; [cbn; rewrite app_nil_r; reflexivity|]; split; repeat constructor
                  |eexists s0, _; split; [exact E4|]; split; [reflexivity|]; split; [reflexivity|]; split; [cbn; reflexivity|]; split; [|constructor];
                   apply fwd_map; intros; exact I] end. }
    destruct X as [(-> & X)|(st3 & ps & X & X1 & X2 & X3 & X4 & X5)].
    - injection X as <- <-. split; [|repeat constructor]. split; [exact F1|]. split; [exact G|exact F3].
    - split; [|exact X5]. apply (push_some_fwd r st3); [|exact Hd|exact X]. split; [rewrite X1; exact F1|]. split; [rewrite X2; exact G|].
      rewrite X3. apply Forall_app. split; assumption.
  Qed.

  Lemma left_fwd st st' oo : fwds st -> process_left st = Some (st', oo) -> fwds st' /\ Forall fwd (olist oo).
  Proof.
    intros (F1 & F2 & F3) E. unfold process_left in E. destruct (poll_slot (ch_left st)) as [r sl] eqn:Es.
    destruct (poll_slot_fwd _ _ _ F1 Es) as [G Hd].
    assert (F : fwds (set_left sl st)) by (split; [exact G|]; split; [exact F2|exact F3]).
    destruct r as [[|[d|]]|].
    1, 3, 4: injection E as <- <-; split; [exact F|constructor].
    specialize (Hd d eq_refl). destruct d as [vs|i x|i x|i|o n|x| |].
    1: exact (replace_fwd _ _ _ _ F E).
    7: exact (clear_fwd _ _ _ F E).
    all: repeat match type of E with context [match ?x with _ => _ end] => destruct x; try discriminate E end.
    all: injection E as <- <-; (split; [exact F|]); constructor; [|constructor]; cbn in *; try exact I; lia.
  Qed.

  Lemma chain_poll_fwd st st' o : fwds st -> chain_poll st = Some (st', o) -> fwds st' /\ Forall fwd (yielded [o]).
  Proof.
    assert (Pop : forall st d st', fwds st -> pop_front st = Some (d, st') -> fwds st' /\ Forall fwd [d]).
    { intros s d s' (F1 & F2 & F3) E. unfold pop_front in E. destruct (ch_pending s) as [|e ds]; [discriminate|]. injection E as <- <-.
      inversion F3; subst. split; [split; [exact F1|]; split; [exact F2|assumption]|]. constructor; [assumption|constructor]. }
    intros F E. unfold chain_poll in E. destruct (pop_front st) as [[d s]|] eqn:E0; [injection E as <- <-; exact (Pop _ _ _ F E0)|].
    destruct (process_left st) as [[s1 [d|]]|] eqn:E1; [| |discriminate]; destruct (left_fwd _ _ _ F E1) as [G1 G2].
    { injection E as <- <-. split; assumption. }
    destruct (pop_front s1) as [[d s]|] eqn:E2; [injection E as <- <-; exact (Pop _ _ _ G1 E2)|].
    destruct (process_right s1) as [[s2 oo]|] eqn:E3; [|discriminate].
    assert (H : fwds s2 /\ Forall fwd (olist oo)).
    { unfold process_right, poll_right in E3. destruct (poll_slot (ch_right s1)) as [r sl] eqn:Es. destruct G1 as (F1 & F2 & F3).
      destruct (poll_slot_fwd _ _ _ F2 Es) as [G Hd]. apply (rc_fwd _ _ _ _) in E3; [exact E3| |exact Hd]. split; [exact F1|]. split; [exact G|exact F3]. }
    destruct H as [H1 H2]. destruct oo as [d|]; [injection E as <- <-; split; assumption|].
    destruct (pop_front s2) as [[d s]|] eqn:E4; [injection E as <- <-; exact (Pop _ _ _ H1 E4)|].
    destruct (negb _ && negb _); injection E as <- <-; split; auto; constructor.
  Qed.

  Lemma chain_forward l r n st outs : run chain_poll n (chain_init l r) = Some (st, outs) ->
    Forall fwd (yielded l) -> Forall fwd (yielded r) -> Forall fwd (yielded outs).
  Proof.
    intros H Hl Hr. cut (fwds st /\ Forall fwd (yielded outs)); [tauto|]. revert H.
    apply (run_inv_partial0 chain_poll (fun st outs => fwds st /\ Forall fwd (yielded outs))).
    - split; [|constructor]. split; [exact Hl|]. split; [exact Hr|constructor].
    - intros s os s' o [F Ho] _ E. destruct (chain_poll_fwd _ _ _ F E) as [F' Ho']. split; [exact F'|].
      rewrite yielded_app. apply Forall_app. split; assumption.
  Qed.

  (** *** never_empties_empty *)
  Lemma mild_map {B} (g : B -> vecdiff A) (l : list B) : (forall b, mild (g b)) -> Forall mild (map g l).
  Proof. intros H. induction l; constructor; auto. Qed.
  Lemma mild_pops n : Forall (@mild A) (repeat Pop n).
  Proof. induction n; constructor; auto. split; discriminate. Qed.

  Lemma rc_fills sl r st st' oo L R R' : polled true sl r (ch_right st) R R' -> ch_left_len st = length L -> ch_right_len st = length R ->
    process_right_change r st = Some (st', oo) -> exists ps, ch_pending st' = ch_pending st ++ ps /\ fills (L ++ R) (ps ++ olist oo).
  Proof.
    intros (_ & _ & _ & Hr) HL HR E. destruct r as [[|[d|]]|]; cbn [process_right_change] in E.
    1, 3, 4: injection E as <- <-; exists []; cbn; rewrite app_nil_r; auto.
    destruct Hr as (_ & Ha & Hst). specialize (Hst eq_refl).
    assert (Hone : forall d0, (L ++ R = [] -> mild d0) -> fills (L ++ R) ([] ++ [d0])).
    { intros d0 H. cbn. split; [exact H|]. destruct (apply_to_vec d0 (L ++ R)); exact I. }
    destruct d as [vs|i x|i x|i|o n|x| |].
    1, 8: destruct (Nat.eqb_spec (ch_left_len st) 0) as [E0|E0]; injection E as <- <-.
    - exists []. split; [cbn; rewrite app_nil_r; reflexivity|]. apply Hone. intros H. apply app_eq_nil in H. exact (Hst (proj2 H)).
    - eexists (_ ++ _). split; [cbn; rewrite <- app_assoc; reflexivity|]. cbn [olist]. rewrite app_nil_r. apply fills_mild. apply Forall_app.
      split; [apply mild_pops|apply mild_map; intros; split; discriminate].
    - exists []. split; [cbn; rewrite app_nil_r; reflexivity|]. apply Hone. intros H. apply app_eq_nil in H. exact (Hst (proj2 H)).
    - eexists. split; [cbn; reflexivity|]. cbn [olist]. rewrite app_nil_r. apply fills_mild. apply mild_pops.
    - injection E as <- <-. exists []. split; [cbn; rewrite app_nil_r; reflexivity|]. apply Hone. split; discriminate.
    - injection E as <- <-. exists []. split; [cbn; rewrite app_nil_r; reflexivity|]. apply Hone. split; discriminate.
    - destruct (usub _ _); [|discriminate]. injection E as <- <-. exists []. split; [cbn; rewrite app_nil_r; reflexivity|]. apply Hone. split; discriminate.
    - injection E as <- <-. exists []. split; [cbn; rewrite app_nil_r; reflexivity|]. apply Hone. split; discriminate.
    - injection E as <- <-. exists []. split; [cbn; rewrite app_nil_r; reflexivity|]. apply Hone. split; discriminate.
    - destruct (usub _ _); [|discriminate]. injection E as <- <-. exists []. split; [cbn; rewrite app_nil_r; reflexivity|]. apply Hone. split; discriminate.
  Qed.

  Lemma push_some_fills sl r st st' L R R' : polled true sl r (ch_right st) R R' -> ch_left_len st = length L -> ch_right_len st = length R ->
    push_some (process_right_change r st) = Some st' -> exists ps, ch_pending st' = ch_pending st ++ ps /\ fills (L ++ R) ps.
  Proof.
    intros Hp HL HR E. unfold push_some in E. destruct (process_right_change r st) as [[s1 o]|] eqn:E1; [|discriminate].
    destruct (rc_fills _ _ _ _ _ _ _ _ Hp HL HR E1) as (ps & X1 & X2). injection E as <-. exists (ps ++ olist o). split; [|exact X2].
    destruct o; cbn; rewrite X1, <- ?app_assoc, ?app_nil_r; reflexivity.
  Qed.

  Lemma replace_fills st st' oo vs L R : side true (ch_right st) (ch_right_len st) R -> ch_left_len st = length L -> ch_pending st = [] ->
    (L = [] -> vs <> []) -> process_replace vs st = Some (st', oo) -> fills (L ++ R) (olist oo ++ ch_pending st').
  Proof.
    intros HR HL Hp Hvs E. destruct (poll_right_ok true st R HR) as (r & sl & R' & Es & Hpol).
    assert (HlR : ch_right_len st = length R) by apply HR.
    unfold process_replace in E. rewrite Es in E. clear Es.
    assert (X : (exists rv, r = Some (Ready (Some (Replace rv))) /\ Some (set_right_len (length rv) (set_left_len (length vs) (set_right sl st)), Some (Replace (vs ++ rv))) = Some (st', oo))
      \/ (exists st3 ps, push_some (process_right_change r st3) = Some st' /\ ch_right st3 = sl /\ ch_left_len st3 = length vs /\ ch_right_len st3 = length R
          /\ ch_pending st3 = ps /\ fills (L ++ R) (olist oo ++ ps) /\ apply_all apply_to_vec (L ++ R) (olist oo ++ ps) = Some (vs ++ R))).
    { destruct (match r with Some (Ready (Some (Replace _))) => true | _ => false end) eqn:Eb.
      - left. destruct r as [[|[[]|]]|]; try discriminate. eauto.
      - right. destruct (Nat.eqb_spec (ch_right_len st) 0) as [E0|E0].
        + assert (RN : R = []) by (destruct R; [reflexivity|simpl in HlR; lia]). subst R.
          assert (Y : exists s4, push_some (process_right_change r (set_left_len (length vs) (set_right sl st))) = Some s4 /\ s4 = st' /\ oo = Some (Replace vs)).
          { destruct r as [[|[d|]]|]; try (destruct d); try discriminate; cbn -[push_some process_right_change] in E; rewrite E0 in E; cbn -[push_some process_right_change] in E;
            match type of E with context [push_some (process_right_change ?b0 ?s0)] => destruct (push_some (process_right_change b0 s0)) as [s4|] eqn:E4; [|discriminate]; injection E as <- <-; exists s4; split; [first [exact E4|reflexivity]|]; auto end. }
          destruct Y as (s4 & E4 & -> & ->). exists (set_left_len (length vs) (set_right sl st)), [].
          split; [exact E4|]. split; [reflexivity|]. split; [reflexivity|]. split; [exact HlR|]. split; [exact Hp|].
          split; [|cbn; rewrite app_nil_r; reflexivity]. cbn. split; [|exact I]. intros HLn. rewrite app_nil_r in HLn. specialize (Hvs HLn).
          split; [discriminate|congruence].
        + eassert (Y : exists s4, push_some (process_right_change r (push_back (map (fun iv => InsertAt (fst iv) (snd iv)) (combine (seq 0 (length vs)) vs))
                  (push_back (map RemoveAt (rev (seq 0 (length L)))) (set_left_len (length vs) (set_right sl st))))) = Some s4 /\ s4 = st' /\ oo = None).
          { apply Nat.eqb_neq in E0. destruct r as [[|[d|]]|]; try (destruct d); try discriminate; cbn -[push_some process_right_change] in E; rewrite E0 in E; rewrite HL in E;
            match type of E with context [push_some (process_right_change ?b0 ?s0)] => destruct (push_some (process_right_change b0 s0)) as [s4|] eqn:E4; [|discriminate]; injection E as <- <-; exists s4; split; [first [exact E4|reflexivity]|]; auto end. }
          destruct Y as (s4 & E4 & -> & ->). eexists _, _. split; [exact E4|]. split; [reflexivity|]. split; [reflexivity|]. split; [exact HlR|]. split; [reflexivity|].
          cbn. rewrite Hp. cbn. split.
          * apply fills_mild. apply Forall_app. split; apply mild_map; intros; split; discriminate.
          * rewrite (applies_app _ _ _ _ (applies_removes L R _ eq_refl)). apply (applies_inserts vs R [] 0). reflexivity. }
    destruct X as [(rv & -> & X)|(st3 & ps & X & X1 & X2 & X3 & X4 & X5 & X6)].
    - injection X as <- <-. cbn. rewrite Hp. split; [|exact I]. intros HLn. apply app_eq_nil in HLn. destruct HLn as [HLn _].
      split; [discriminate|]. intros H. injection H as H. apply app_eq_nil in H. exact (Hvs HLn (proj1 H)).
    - rewrite <- X1 in Hpol. destruct (push_some_fills _ _ _ _ _ _ _ Hpol X2 X3 X) as (ps' & Y1 & Y2). rewrite Y1, X4, app_assoc.
      apply (fills_app _ _ _ _ X6). split; assumption.
  Qed.

  Lemma clear_fills st st' oo L R : side true (ch_right st) (ch_right_len st) R -> ch_left_len st = length L -> ch_pending st = [] ->
    L <> [] -> process_clear st = Some (st', oo) -> fills (L ++ R) (olist oo ++ ch_pending st').
  Proof.
    intros HR HL Hp Hn E. destruct (poll_right_ok true st R HR) as (r & sl & R' & Es & Hpol).
    assert (HlR : ch_right_len st = length R) by apply HR.
    assert (Hn' : L ++ R <> []) by (destruct L; [congruence|discriminate]).
    unfold process_clear in E. rewrite Es in E. clear Es.
    assert (X : (r = Some (Ready (Some Clear)) /\ Some (set_right_len 0 (set_left_len 0 (set_right sl st)), Some Clear) = Some (st', oo))
      \/ (exists st3 ps, push_some (process_right_change r st3) = Some st' /\ ch_right st3 = sl /\ ch_left_len st3 = @length A [] /\ ch_right_len st3 = length R
          /\ ch_pending st3 = ps /\ fills (L ++ R) (olist oo ++ ps) /\ apply_all apply_to_vec (L ++ R) (olist oo ++ ps) = Some ([] ++ R))).
    { destruct (match r with Some (Ready (Some Clear)) => true | _ => false end) eqn:Eb.
      - left. destruct r as [[|[[]|]]|]; try discriminate. eauto.
      - right. destruct (Nat.eqb_spec (ch_right_len st) 0) as [E0|E0].
        + assert (RN : R = []) by (destruct R; [reflexivity|simpl in HlR; lia]). subst R.
          assert (Y : exists s4, push_some (process_right_change r (set_left_len 0 (set_right sl st))) = Some s4 /\ s4 = st' /\ oo = Some Clear).
          { destruct r as [[|[d|]]|]; try (destruct d); try discriminate; cbn -[push_some process_right_change] in E; rewrite E0 in E; cbn -[push_some process_right_change] in E;
            match type of E with context [push_some (process_right_change ?b0 ?s0)] => destruct (push_some (process_right_change b0 s0)) as [s4|] eqn:E4; [|discriminate]; injection E as <- <-; exists s4; split; [first [exact E4|reflexivity]|]; auto end. }
          destruct Y as (s4 & E4 & -> & ->). exists (set_left_len 0 (set_right sl st)), [].
          split; [exact E4|]. split; [reflexivity|]. split; [reflexivity|]. split; [exact HlR|]. split; [exact Hp|].
          split; [|reflexivity]. cbn. split; [|exact I]. intros HLn. contradiction.
        + assert (Y : exists s4, push_some (process_right_change r
                  (push_back (map RemoveAt (rev (seq 0 (length L)))) (set_left_len 0 (set_right sl st)))) = Some s4 /\ s4 = st' /\ oo = None).
          { apply Nat.eqb_neq in E0. destruct r as [[|[d|]]|]; try (destruct d); try discriminate; cbn -[push_some process_right_change] in E; rewrite E0 in E; rewrite HL in E;
            match type of E with context [push_some (process_right_change ?b0 ?s0)] => destruct (push_some (process_right_change b0 s0)) as [s4|] eqn:E4; [|discriminate]; injection E as <- <-; exists s4; split; [first [exact E4|reflexivity]|]; auto end. }
          destruct Y as (s4 & E4 & -> & ->). eexists _, _. split; [exact E4|]. split; [reflexivity|]. split; [reflexivity|]. split; [exact HlR|]. split; [reflexivity|].
          cbn. rewrite Hp. cbn. split.
          * apply fills_mild. apply mild_map; intros; split; discriminate.
          * exact (applies_removes L R _ eq_refl). }
    destruct X as [(-> & X)|(st3 & ps & X & X1 & X2 & X3 & X4 & X5 & X6)].
    - injection X as <- <-. cbn. rewrite Hp. split; [|exact I]. intros HLn. contradiction.
    - rewrite <- X1 in Hpol. destruct (push_some_fills _ _ _ _ _ _ _ Hpol X2 X3 X) as (ps' & Y1 & Y2). rewrite Y1, X4, app_assoc.
      apply (fills_app _ _ _ _ X6). split; assumption.
  Qed.

  Lemma left_fills st st' oo L R : side true (ch_left st) (ch_left_len st) L -> side true (ch_right st) (ch_right_len st) R -> ch_pending st = [] ->
    process_left st = Some (st', oo) -> fills (L ++ R) (olist oo ++ ch_pending st').
  Proof.
    intros (Hok & Hrep & Hg & HlL) HR Hp E.
    destruct (poll_polled true _ _ Hok Hrep Hg) as (L' & Hpol). unfold process_left in E.
    destruct (poll_slot (ch_left st)) as [r sl]. cbn [fst snd] in Hpol. destruct Hpol as (_ & _ & _ & Hr).
    destruct r as [[|[d|]]|].
    1, 3, 4: injection E as <- <-; cbn; rewrite Hp; exact I.
    destruct Hr as (_ & _ & Hst). specialize (Hst eq_refl).
    assert (Hone : forall d0, mild d0 -> fills (L ++ R) ([d0] ++ [])).
    { intros d0 H. cbn. split; [intros _; exact H|]. destruct (apply_to_vec d0 (L ++ R)); exact I. }
    destruct d as [vs|i x|i x|i|o n|x| |].
    1:{ apply (replace_fills (set_left sl st) st' oo vs L R HR HlL Hp); [|exact E]. intros HL. destruct (Hst HL) as [_ H]. congruence. }
    7:{ apply (clear_fills (set_left sl st) st' oo L R HR HlL Hp); [|exact E]. intros HL. destruct (Hst HL) as [H _]. congruence. }
    all: repeat match type of E with context [match ?x with _ => _ end] => destruct x; try discriminate E end.
    all: injection E as <- <-; cbn [olist ch_pending set_left_len set_left]; rewrite Hp; apply Hone; split; discriminate.
  Qed.

  Lemma chain_filled l r n st outs : good_vec_script l -> good_vec_script r ->
    never_empties_empty (yielded l) -> never_empties_empty (yielded r) ->
    run chain_poll n (chain_init l r) = Some (st, outs) -> never_empties_empty (yielded outs).
  Proof.
    intros Gl Gr Nl Nr H.
    assert (X : chain_inv true st outs /\ fills [] (yielded outs ++ ch_pending st)).
    2:{ apply nee_fills. exact (fills_left _ _ _ (proj2 X)). }
    revert H. apply (run_inv_partial0 chain_poll (fun st outs => chain_inv true st outs /\ fills [] (yielded outs ++ ch_pending st))).
    - split; [|exact I]. destruct (chain_run true l r) with (n := 0) as (s0 & o0 & E & HI & _).
      + split; [exact Gl|auto].
      + split; [exact Gr|auto].
      + cbn in E. injection E as <- <-. exact HI.
    - clear. intros st outs st' o [HI Hf] _ E.
      destruct (chain_step true st outs HI) as (s1 & o1 & E1 & HI' & _). rewrite E in E1. injection E1 as <- <-. split; [exact HI'|]. clear HI'.
      destruct HI as (L & R & mid & HL & HR & Hrep & Happ & _). unfold chain_poll, pop_front in E.
      rewrite yielded_app, <- app_assoc.
      destruct (ch_pending st) as [|d ds] eqn:Hp; [|injection E as <- <-; exact Hf].
      cbn [apply_all] in Happ. injection Happ as ->. rewrite app_nil_r in Hf.
      destruct (process_left_ok true st L R HL HR Hp) as (st1 & oo & L1 & R1 & E1 & HL1 & HR1 & Ha1 & _).
      pose proof (left_fills st st1 oo L R HL HR Hp E1) as F1. rewrite E1 in E.
      assert (Hgo : forall X, fills (L ++ R) X -> fills [] (yielded outs ++ X)).
      { intros X HX. apply (fills_app _ _ _ _ Hrep). split; assumption. }
      destruct oo as [d|]; [injection E as <- <-; apply Hgo; exact F1|]. cbn [olist app] in *.
      destruct (ch_pending st1) as [|d ds] eqn:Hp1; [|injection E as <- <-; apply Hgo; exact F1].
      cbn [apply_all] in Ha1. injection Ha1 as Ha1. rewrite Ha1 in *.
      destruct (poll_right_ok true st1 R1 HR1) as (r & sl' & R2 & E2 & Hpol). unfold process_right in E. rewrite E2 in E.
      destruct (process_right_change r (set_right sl' st1)) as [[st2 oo]|] eqn:E3; [|discriminate].
      destruct (rc_fills (ch_right st1) r (set_right sl' st1) st2 oo L1 R1 R2 Hpol (proj2 (proj2 (proj2 HL1))) (proj2 (proj2 (proj2 HR1))) E3) as (ps & P1 & P2).
      cbn in P1. rewrite Hp1 in P1. cbn in P1. rewrite P1 in *.
      destruct oo as [d|].
      + injection E as <- <-. cbn [yielded app]. rewrite P1.
        destruct (process_right_ok true st1 L1 R1 HL1 HR1 Hp1) as (st3 & oo3 & R3 & E4 & _).
        destruct (right_change_ok true (ch_right st1) r (set_right sl' st1) L1 R1 R2 (L1 ++ R1) Hpol (proj2 (proj2 (proj2 HL1))) (proj2 (proj2 (proj2 HR1))))
          as (st5 & o5 & ps5 & E5 & _ & _ & _ & _ & Q1 & Q2 & _).
        { cbn. rewrite Hp1. reflexivity. }
        rewrite E3 in E5. injection E5 as <- <-. cbn in Q1. rewrite Hp1, P1 in Q1. cbn in Q1. rewrite <- Q1 in Q2.
        assert (Hn : ps = []) by (apply Q2; discriminate). rewrite Hn in *. apply Hgo. exact P2.
      + cbn [olist] in P2. rewrite app_nil_r in P2. destruct ps as [|d ds]; [|injection E as <- <-; apply Hgo; exact P2].
        destruct (negb _ && negb _); injection E as <- <-; cbn; rewrite P1; apply Hgo; exact I.
  Qed.
End ChainCalm.
