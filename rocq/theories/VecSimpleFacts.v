(** Proofs for VecSimple. *)
From Verif Require Import Base Spec BaseFacts VecDiff VecSpec LoopFacts VecFacts VecSimple.

Lemma flat_map_snoc {A B} (f : A -> list B) l x : flat_map f (l ++ [x]) = flat_map f l ++ f x.
Proof. rewrite flat_map_app. simpl. rewrite app_nil_r. reflexivity. Qed.

(** ** map *)
Lemma apply_map {A B} (f : A -> B) d (l l' : list A) :
  apply_to_vec d l = Some l' -> apply_to_vec (fst (vd_map f d)) (map f l) = Some (map f l').
Proof.
  intros H. apply apply_inv in H. destruct d as [vs|i x|i x|i|o n|x| |]; cbn [vd_map fst].
  - subst. reflexivity.
  - destruct H as (l1 & l2 & -> & -> & <-). rewrite !map_app. cbn [map].
    apply apply_insert_app. apply map_length.
  - destruct H as (l1 & y & l2 & -> & -> & <-). rewrite !map_app. cbn [map].
    apply apply_update_app. apply map_length.
  - destruct H as (l1 & y & l2 & -> & -> & <-). rewrite !map_app. cbn [map].
    apply apply_remove_app. apply map_length.
  - destruct H as (l1 & x & l2 & m1 & m2 & -> & <- & Hm & -> & <-). cbn [apply_to_vec].
    rewrite !map_app. cbn [map]. rewrite vremove_app by apply map_length.
    rewrite <- map_app, Hm, map_app. apply vinsert_app. apply map_length.
  - subst. rewrite map_app. reflexivity.
  - destruct H as (x & ->). rewrite map_app. apply apply_pop_app.
  - subst. reflexivity.
Qed.

Lemma vd_map_calls {A B} (f : A -> B) d : snd (vd_map f d) = values_of d.
Proof. destruct d; reflexivity. Qed.

Lemma vmap_mirror {A B} (f : A -> B) script :
  good_vec_script script -> forall n, exists calls sr outs l,
    run (vmap_poll f) n ([], fresh script) = Some ((calls, sr), outs)
    /\ conveyed sr = Some l
    /\ replay (yielded outs) = Some (map f l)
    /\ calls = flat_map values_of (yielded (past sr)).
Proof.
  intros Hg n.
  destruct (emit_run_inv (vmap_step f) (fun ds => replay ds <> None) (@replay_prefix A)
    (fun calls ds os => calls = flat_map values_of ds /\
       exists l, replay ds = Some l /\ replay os = Some (map f l)))
    with (s0 := @nil A) (script := script) (n := n) as (calls & sr & outs & Hr & Hc & l & H1 & H2).
  - intros calls ds os d (Hc & l & Hl & Ho) HP. unfold vmap_step.
    destruct (vd_map f d) as [out c] eqn:E.
    exists (calls ++ c), (Some out). split; [reflexivity|]. split.
    + rewrite flat_map_snoc, Hc. f_equal. rewrite <- (vd_map_calls f d), E. reflexivity.
    + rewrite replay_snoc, Hl in *. destruct (apply_to_vec d l) as [l'|] eqn:Ea; [|congruence].
      exists l'. split; [reflexivity|]. cbn [olist]. rewrite replay_snoc, Ho.
      apply (apply_map f) in Ea. rewrite E in Ea. exact Ea.
  - split; [reflexivity|]. exists []. auto.
  - exact Hg.
  - exists calls, sr, outs, l. auto.
Qed.

(** ** filter, filter_map *)
Section FilterMap.
  Context {A B : Type} (f : A -> option B).

  Lemma ifm_app l1 l2 : iter_filter_map f (l1 ++ l2) = iter_filter_map f l1 ++ iter_filter_map f l2.
  Proof.
    induction l1 as [|a l1 IH]; [reflexivity|]. simpl. destruct (f a); rewrite IH; reflexivity.
  Qed.

  Lemma ifm_cons_some a b l : f a = Some b -> iter_filter_map f (a :: l) = b :: iter_filter_map f l.
  Proof. intros H. simpl. rewrite H. reflexivity. Qed.

  Lemma ifm_cons_none a l : f a = None -> iter_filter_map f (a :: l) = iter_filter_map f l.
  Proof. intros H. simpl. rewrite H. reflexivity. Qed.

  Notation acc := (fun v => is_some (f v)).

  Lemma count_acc l : length (filter (fun x => x) (map acc l)) = length (iter_filter_map f l).
  Proof.
    induction l as [|a l IH]; [reflexivity|]. simpl. unfold is_some at 1.
    destruct (f a); simpl; rewrite IH; reflexivity.
  Qed.

  Lemma find_index_acc l r i : length l = i ->
    find_index (map acc l ++ r) i = Some (length (iter_filter_map f l)).
  Proof.
    intros <-. unfold find_index. rewrite app_length, map_length.
    destruct (Nat.leb_spec (length l) (length l + length r)); [|lia].
    rewrite firstn_app, map_length, Nat.sub_diag, firstn_all2 by (rewrite map_length; lia).
    simpl. rewrite app_nil_r, count_acc. reflexivity.
  Qed.

  (** The side condition on backward moves: if the moved element is accepted, then so is
      the element just before its old position. Forward moves are always fine. *)
  Definition move_ok (l : list A) (d : vecdiff A) : Prop :=
    match d with
    | Move o n => n < o -> forall x y, nth_error l o = Some x -> nth_error l (o - 1) = Some y ->
                  is_some (f x) = true -> is_some (f y) = true
    | _ => True
    end.

  Definition moves_ok (ds : list (vecdiff A)) : Prop :=
    forall pre d post l, ds = pre ++ d :: post -> replay pre = Some l -> move_ok l d.

  Lemma moves_ok_prefix a b : moves_ok (a ++ b) -> moves_ok a.
  Proof.
    intros H pre d post l E Hl. apply (H pre d (post ++ b) l); [|exact Hl].
    rewrite E, <- app_assoc. reflexivity.
  Qed.

  Lemma moves_ok_last ds d l : moves_ok (ds ++ [d]) -> replay ds = Some l -> move_ok l d.
  Proof. intros H Hl. exact (H ds d [] l eq_refl Hl). Qed.

  Definition fm_inv (s : fm_state A) (ds : list (vecdiff A)) (os : list (vecdiff B)) : Prop :=
    fm_calls s = flat_map values_of ds
    /\ exists l, replay ds = Some l
       /\ fm_indexes s = map acc l
       /\ replay os = Some (iter_filter_map f l).

  Lemma ifm_length_snoc_some l y b : f y = Some b ->
    length (iter_filter_map f (l ++ [y])) = S (length (iter_filter_map f l)).
  Proof. intros H. rewrite ifm_app, app_length. simpl. rewrite H. simpl. lia. Qed.

  Lemma fm_step_inv s ds os d :
    fm_inv s ds os -> replay (ds ++ [d]) <> None -> moves_ok (ds ++ [d]) ->
    exists s' oo, filter_map_step f s d = Some (s', oo)
      /\ fm_inv s' (ds ++ [d]) (os ++ olist oo).
  Proof.
    intros (Hc & l & Hl & Hi & Ho) HP HM.
    pose proof (moves_ok_last _ _ _ HM Hl) as Hmv.
    unfold fm_inv. rewrite replay_snoc, Hl in *.
    destruct (apply_to_vec d l) as [l'|] eqn:Ea; [|congruence]. clear HP HM.
    rewrite flat_map_snoc.
    pose proof (apply_inv _ _ _ Ea) as Hd.
    destruct s as [idx calls]. cbn [fm_indexes fm_calls] in *. subst idx calls.
    destruct d as [vs|i x|i x|i|o n|x| |]; cbn [filter_map_step fm_indexes fm_calls values_of].
    - (* Replace *)
      subst l'. do 2 eexists. split; [reflexivity|]. split; [reflexivity|].
      exists vs. split; [reflexivity|]. split; [reflexivity|].
      cbn [olist]. rewrite replay_snoc, Ho. reflexivity.
    - (* InsertAt *)
      destruct Hd as (l1 & l2 & -> & -> & <-). rewrite map_app.
      destruct (f x) as [b|] eqn:Ef.
      + rewrite vinsert_app by apply map_length.
        rewrite (find_index_acc l1) by reflexivity.
        do 2 eexists. split; [reflexivity|]. split; [reflexivity|].
        eexists. split; [reflexivity|]. split.
        * cbn [fm_indexes]. rewrite map_app. cbn [map]. rewrite Ef. reflexivity.
        * cbn [olist]. rewrite replay_snoc, Ho, !ifm_app, (ifm_cons_some _ _ _ Ef).
          apply apply_insert_app. reflexivity.
      + rewrite vinsert_app by apply map_length.
        do 2 eexists. split; [reflexivity|]. split; [reflexivity|].
        eexists. split; [reflexivity|]. split.
        * cbn [fm_indexes]. rewrite map_app. cbn [map]. rewrite Ef. reflexivity.
        * cbn [olist]. rewrite app_nil_r, Ho, !ifm_app, (ifm_cons_none _ _ Ef). reflexivity.
    - (* UpdateAt *)
      destruct Hd as (l1 & y & l2 & -> & -> & <-). rewrite map_app. cbn [map].
      assert (En : nth_error (map acc l1 ++ is_some (f y) :: map acc l2) (length l1)
                   = Some (is_some (f y))).
      { rewrite nth_error_app2; rewrite map_length; [|lia]. rewrite Nat.sub_diag. reflexivity. }
      destruct (f x) as [b|] eqn:Ef; rewrite En; destruct (f y) as [c|] eqn:Ey; cbn [is_some].
      + rewrite (find_index_acc l1) by reflexivity.
        do 2 eexists. split; [reflexivity|]. split; [reflexivity|].
        eexists. split; [reflexivity|]. split.
        * cbn [fm_indexes]. rewrite map_app. cbn [map]. rewrite Ef. reflexivity.
        * cbn [olist]. rewrite replay_snoc, Ho, !ifm_app, (ifm_cons_some _ _ _ Ef), (ifm_cons_some _ _ _ Ey).
          apply apply_update_app. reflexivity.
      + rewrite vset_app by apply map_length. rewrite (find_index_acc l1) by reflexivity.
        do 2 eexists. split; [reflexivity|]. split; [reflexivity|].
        eexists. split; [reflexivity|]. split.
        * cbn [fm_indexes]. rewrite map_app. cbn [map]. rewrite Ef. reflexivity.
        * cbn [olist]. rewrite replay_snoc, Ho, !ifm_app, (ifm_cons_some _ _ _ Ef), (ifm_cons_none _ _ Ey).
          apply apply_insert_app. reflexivity.
      + rewrite vset_app by apply map_length. rewrite (find_index_acc l1) by reflexivity.
        do 2 eexists. split; [reflexivity|]. split; [reflexivity|].
        eexists. split; [reflexivity|]. split.
        * cbn [fm_indexes]. rewrite map_app. cbn [map]. rewrite Ef. reflexivity.
        * cbn [olist]. rewrite replay_snoc, Ho, !ifm_app, (ifm_cons_none _ _ Ef), (ifm_cons_some _ _ _ Ey).
          apply apply_remove_app. reflexivity.
      + do 2 eexists. split; [reflexivity|]. split; [reflexivity|].
        eexists. split; [reflexivity|]. split.
        * cbn [fm_indexes]. rewrite map_app. cbn [map]. rewrite Ef. reflexivity.
        * cbn [olist]. rewrite app_nil_r, Ho, !ifm_app, (ifm_cons_none _ _ Ef), (ifm_cons_none _ _ Ey).
          reflexivity.
    - (* RemoveAt *)
      destruct Hd as (l1 & y & l2 & -> & -> & <-). rewrite map_app. cbn [map].
      rewrite vremove_app by apply map_length.
      destruct (f y) as [c|] eqn:Ey; cbn [is_some].
      + rewrite (find_index_acc l1) by reflexivity.
        do 2 eexists. split; [reflexivity|]. split; [symmetry; apply app_nil_r|].
        eexists. split; [reflexivity|]. split.
        * cbn [fm_indexes]. rewrite map_app. reflexivity.
        * cbn [olist]. rewrite replay_snoc, Ho, !ifm_app, (ifm_cons_some _ _ _ Ey).
          apply apply_remove_app. reflexivity.
      + do 2 eexists. split; [reflexivity|]. split; [symmetry; apply app_nil_r|].
        eexists. split; [reflexivity|]. split.
        * cbn [fm_indexes]. rewrite map_app. reflexivity.
        * cbn [olist]. rewrite app_nil_r, Ho, !ifm_app, (ifm_cons_none _ _ Ey). reflexivity.
    - (* Move *)
      destruct Hd as (l1 & x & l2 & m1 & m2 & -> & <- & Hm & -> & <-).
      rewrite map_app. cbn [map]. rewrite vremove_app by apply map_length.
      destruct (f x) as [b|] eqn:Ex; cbn [is_some].
      + rewrite <- map_app, Hm, map_app. rewrite vinsert_app by apply map_length.
        assert (Hfi : find_index (map acc m1 ++ true :: map acc m2) (length l1)
                      = Some (length (iter_filter_map f l1))).
        { destruct (app_eq_cases _ _ _ _ Hm) as [(e & -> & ->)|(e & -> & ->)].
          - rewrite map_app, <- app_assoc. apply find_index_acc. reflexivity.
          - destruct e as [|z e0] using rev_ind; [|clear IHe0].
            + rewrite app_nil_r. apply find_index_acc. reflexivity.
            + assert (Hz : is_some (f z) = true).
              { apply (Hmv) with (x := x).
                - rewrite !app_length. simpl. lia.
                - rewrite nth_error_app2, Nat.sub_diag by lia. reflexivity.
                - rewrite nth_error_app1; rewrite !app_length; simpl; [|lia].
                  rewrite app_assoc. rewrite nth_error_app2; rewrite app_length; [|lia].
                  replace (length m1 + (length e0 + 1) - 1 - (length m1 + length e0)) with 0 by lia.
                  reflexivity.
                - rewrite Ex. reflexivity. }
              destruct (f z) as [c|] eqn:Ez; [|discriminate].
              rewrite !map_app. cbn [map]. rewrite Ez. cbn [is_some].
              assert (E2 : map acc m1 ++ true :: (map acc e0 ++ [true]) ++ map acc l2
                         = map acc (m1 ++ x :: e0) ++ true :: map acc l2).
              { rewrite map_app. cbn [map]. rewrite Ex. cbn [is_some].
                rewrite <- !app_assoc. cbn [app]. reflexivity. }
              rewrite E2, (find_index_acc (m1 ++ x :: e0)).
              * f_equal. rewrite !ifm_app, !app_length, (ifm_cons_some _ _ _ Ex), (ifm_cons_some _ _ _ Ez).
                simpl. lia.
              * rewrite !app_length. simpl. lia. }
        rewrite Hfi, (find_index_acc m1) by reflexivity.
        do 2 eexists. split; [reflexivity|]. split; [symmetry; apply app_nil_r|].
        eexists. split; [reflexivity|]. split.
        * cbn [fm_indexes]. rewrite map_app. cbn [map]. rewrite Ex. reflexivity.
        * cbn [olist]. rewrite replay_snoc, Ho. cbn [apply_to_vec].
          rewrite ifm_app, (ifm_cons_some _ _ _ Ex), vremove_app by reflexivity.
          rewrite <- ifm_app, Hm, ifm_app, vinsert_app by reflexivity.
          rewrite ifm_app, (ifm_cons_some _ _ _ Ex). reflexivity.
      + rewrite <- map_app, Hm, map_app. rewrite vinsert_app by apply map_length.
        do 2 eexists. split; [reflexivity|]. split; [symmetry; apply app_nil_r|].
        eexists. split; [reflexivity|]. split.
        * cbn [fm_indexes]. rewrite map_app. cbn [map]. rewrite Ex. reflexivity.
        * cbn [olist]. rewrite app_nil_r, Ho.
          rewrite ifm_app, (ifm_cons_none _ _ Ex), <- ifm_app, Hm.
          rewrite !ifm_app, (ifm_cons_none _ _ Ex). reflexivity.
    - (* Push *)
      subst l'. destruct (f x) as [b|] eqn:Ef.
      + do 2 eexists. split; [reflexivity|]. split; [reflexivity|].
        eexists. split; [reflexivity|]. split.
        * cbn [fm_indexes]. rewrite map_app. cbn [map]. rewrite Ef. reflexivity.
        * cbn [olist]. rewrite replay_snoc, Ho, ifm_app, (ifm_cons_some _ _ _ Ef). reflexivity.
      + do 2 eexists. split; [reflexivity|]. split; [reflexivity|].
        eexists. split; [reflexivity|]. split.
        * cbn [fm_indexes]. rewrite map_app. cbn [map]. rewrite Ef. reflexivity.
        * cbn [olist]. rewrite app_nil_r, Ho, ifm_app, (ifm_cons_none _ _ Ef). simpl.
          rewrite app_nil_r. reflexivity.
    - (* Pop *)
      destruct Hd as (x & ->). rewrite map_app. cbn [map]. rewrite vpop_app.
      destruct (f x) as [b|] eqn:Ef; cbn [is_some].
      + do 2 eexists. split; [reflexivity|]. split; [symmetry; apply app_nil_r|].
        eexists. split; [reflexivity|]. split; [reflexivity|].
        cbn [olist]. rewrite replay_snoc, Ho, ifm_app, (ifm_cons_some _ _ _ Ef).
        apply apply_pop_app.
      + do 2 eexists. split; [reflexivity|]. split; [symmetry; apply app_nil_r|].
        eexists. split; [reflexivity|]. split; [reflexivity|].
        cbn [olist]. rewrite app_nil_r, Ho, ifm_app, (ifm_cons_none _ _ Ef). simpl.
        rewrite app_nil_r. reflexivity.
    - (* Clear *)
      subst l'. do 2 eexists. split; [reflexivity|]. split; [symmetry; apply app_nil_r|].
      exists []. split; [reflexivity|]. split; [reflexivity|].
      cbn [olist]. rewrite replay_snoc, Ho. reflexivity.
  Qed.

  Lemma fm_mirror script :
    good_vec_script script -> moves_ok (yielded script) ->
    forall n, exists st sr outs l,
      run (filter_map_poll f) n (fm_init, fresh script) = Some ((st, sr), outs)
      /\ conveyed sr = Some l
      /\ replay (yielded outs) = Some (iter_filter_map f l)
      /\ fm_calls st = flat_map values_of (yielded (past sr)).
  Proof.
    intros Hg HM n.
    destruct (emit_run_inv (filter_map_step f) (fun ds => replay ds <> None /\ moves_ok ds))
      with (Inv := fm_inv) (s0 := @fm_init A) (script := script) (n := n)
      as (st & sr & outs & Hr & Hc & l & H1 & H2 & H3).
    - intros a b [H1 H2]. split; [exact (replay_prefix _ _ H1)|exact (moves_ok_prefix _ _ H2)].
    - intros s ds os d HI [H1 H2]. exact (fm_step_inv s ds os d HI H1 H2).
    - split; [reflexivity|]. exists []. auto.
    - split; assumption.
    - exists st, sr, outs, l. auto.
  Qed.
End FilterMap.

Lemma ifm_filter {A} (p : A -> bool) l : iter_filter_map (filter_closure p) l = filter p l.
Proof.
  induction l as [|a l IH]; [reflexivity|]. simpl. unfold filter_closure at 1.
  destruct (p a); rewrite IH; reflexivity.
Qed.

Lemma ifm_flat_map {A B} (f : A -> option B) l : iter_filter_map f l = accepted_values f l.
Proof.
  induction l as [|a l IH]; [reflexivity|]. unfold accepted_values in *. simpl. rewrite IH.
  destruct (f a); reflexivity.
Qed.

Lemma backward_moves_ok_moves {A B} (f : A -> option B) (acc : A -> bool) ds :
  (forall a, acc a = is_some (f a)) -> backward_moves_ok acc ds -> moves_ok f ds.
Proof.
  intros Ha H pre d post l E Hl. destruct d as [| | | |o n| | |]; cbn [move_ok]; auto.
  intros Hno x y Hx Hy Hfx. rewrite <- Ha in *. exact (H pre o n post l x y E Hl Hno Hx Hy Hfx).
Qed.

Lemma filter_map_mirror {A B} (f : A -> option B) script :
  good_vec_script script -> backward_moves_ok (fun a => is_some (f a)) (yielded script) ->
  forall n, exists st sr outs l,
    run (filter_map_poll f) n (fm_init, fresh script) = Some ((st, sr), outs)
    /\ conveyed sr = Some l
    /\ replay (yielded outs) = Some (accepted_values f l)
    /\ fm_calls st = flat_map values_of (yielded (past sr)).
Proof.
  intros Hg Hm n. destruct (fm_mirror f script Hg (backward_moves_ok_moves f _ _ (fun _ => eq_refl) Hm) n)
    as (st & sr & outs & l & H1 & H2 & H3 & H4).
  exists st, sr, outs, l. rewrite <- ifm_flat_map. auto.
Qed.

Lemma filter_mirror {A} (p : A -> bool) script :
  good_vec_script script -> backward_moves_ok p (yielded script) ->
  forall n, exists st sr outs l,
    run (filter_poll p) n (fm_init, fresh script) = Some ((st, sr), outs)
    /\ conveyed sr = Some l
    /\ replay (yielded outs) = Some (filter p l)
    /\ fm_calls st = flat_map values_of (yielded (past sr)).
Proof.
  intros Hg Hm n.
  assert (Ha : forall a, p a = is_some (filter_closure p a)).
  { intros a. unfold filter_closure. destruct (p a); reflexivity. }
  destruct (fm_mirror (filter_closure p) script Hg (backward_moves_ok_moves _ _ _ Ha Hm) n)
    as (st & sr & outs & l & H1 & H2 & H3 & H4).
  exists st, sr, outs, l. rewrite <- ifm_filter. auto.
Qed.

(** ** The predicate is consulted once per value even when the mirror is wrong *)
Lemma fm_step_calls {A B} (f : A -> option B) s d s' oo :
  filter_map_step f s d = Some (s', oo) -> fm_calls s' = fm_calls s ++ values_of d.
Proof.
  destruct d as [vs|i x|i x|i|o n|x| |]; cbn [filter_map_step values_of]; intros H.
  - injection H as <- <-. reflexivity.
  - destruct (f x); destruct (vinsert i _ _) as [idx|]; try discriminate.
    + destruct (find_index idx i); [|discriminate]. injection H as <- <-. reflexivity.
    + injection H as <- <-. reflexivity.
  - destruct (f x); destruct (nth_error (fm_indexes s) i) as [[|]|]; try discriminate;
      try (destruct (vset i _ _) as [idx|]; [|discriminate]);
      try (destruct (find_index _ i); [|discriminate]); injection H as <- <-; reflexivity.
  - destruct (vremove i _) as [[[|] idx]|]; try discriminate.
    + destruct (find_index idx i); [|discriminate]. injection H as <- <-. simpl. rewrite app_nil_r. reflexivity.
    + injection H as <- <-. simpl. rewrite app_nil_r. reflexivity.
  - destruct (vremove o _) as [[[|] idx]|]; try discriminate; destruct (vinsert n _ _) as [idx2|]; try discriminate.
    + destruct (find_index idx2 o); [|discriminate]. destruct (find_index idx2 n); [|discriminate].
      injection H as <- <-. simpl. rewrite app_nil_r. reflexivity.
    + injection H as <- <-. simpl. rewrite app_nil_r. reflexivity.
  - destruct (f x); injection H as <- <-; reflexivity.
  - destruct (vpop _) as [[[|] idx]|]; try discriminate; injection H as <- <-; simpl; rewrite app_nil_r; reflexivity.
  - injection H as <- <-. simpl. rewrite app_nil_r. reflexivity.
Qed.

(** ** The side condition of the mirror theorem cannot be weakened *)
Lemma ifm_nodup_mid {A B} (f : A -> option B) l1 l2 x bx z t :
  f x = Some bx -> iter_filter_map f l2 = z :: t ->
  NoDup (iter_filter_map f (l1 ++ x :: l2)) -> z <> bx.
Proof.
  intros Hx Hz Hn E. subst z. rewrite ifm_app in Hn. simpl in Hn. rewrite Hx, Hz in Hn.
  apply NoDup_remove_2 in Hn. apply Hn. apply in_or_app. right. left. reflexivity.
Qed.

Lemma fm_bad_move_step {A B} (f : A -> option B) s ds os o n l l' x bx y :
  fm_inv f s ds os -> replay ds = Some l -> NoDup (iter_filter_map f l) ->
  n < o -> nth_error l o = Some x -> nth_error l (o - 1) = Some y ->
  f x = Some bx -> f y = None -> apply_to_vec (Move o n) l = Some l' ->
  exists s' oo, filter_map_step f s (Move o n) = Some (s', oo)
    /\ replay (os ++ olist oo) <> Some (iter_filter_map f l').
Proof.
  intros (Hc & l0 & Hl & Hi & Ho) Hl2 Hnd Hno Hx Hy Hfx Hfy Ea.
  assert (l0 = l) by congruence. subst l0.
  pose proof (apply_inv _ _ _ Ea) as Hd. destruct Hd as (l1 & x' & l2 & n1 & n2 & -> & Lo & Hm & -> & Ln).
  assert (x' = x).
  { rewrite nth_error_app2 in Hx by lia. rewrite Lo, Nat.sub_diag in Hx. simpl in Hx; congruence. } subst x'.
  destruct (@exists_last _ l1) as (k1 & y' & ->).
  { intros ->. simpl in Lo. lia. }
  rewrite app_length in Lo. simpl in Lo.
  assert (y' = y).
  { rewrite <- app_assoc in Hy. rewrite nth_error_app2 in Hy by lia.
    replace (o - 1 - length k1) with 0 in Hy by lia. simpl in Hy. congruence. } subst y'.
  (* n1 is a prefix of k1 *)
  assert (Hpre : exists e, k1 = n1 ++ e /\ n2 = e ++ y :: l2).
  { destruct (app_eq_cases _ _ _ _ Hm) as [(e & Eq1 & Em2)|(e & Em1 & Eq2)].
    - exfalso. assert (length n1 = length (k1 ++ [y]) + length e) by (rewrite Eq1, app_length; reflexivity).
      rewrite app_length in H. simpl in H. lia.
    - destruct (@exists_last _ e) as (e' & w & ->).
      + intros ->. rewrite app_nil_r in Em1. subst n1. rewrite app_length in Ln. simpl in Ln. lia.
      + rewrite app_assoc in Em1. apply app_inj_tail in Em1. destruct Em1 as [-> ->].
        exists e'. split; [reflexivity|]. rewrite Eq2, <- app_assoc. reflexivity. }
  destruct Hpre as (e & -> & ->).
  destruct s as [idx calls]. cbn [fm_indexes fm_calls filter_map_step] in *. subst idx.
  rewrite map_app. cbn [map]. rewrite vremove_app by (rewrite map_length, app_length; simpl; lia).
  rewrite Hfx. cbn [is_some].
  replace (map (fun a => is_some (f a)) ((n1 ++ e) ++ [y]) ++ map (fun a => is_some (f a)) l2)
    with (map (fun a => is_some (f a)) n1 ++ map (fun a => is_some (f a)) (e ++ y :: l2))
    by (rewrite !map_app; simpl; rewrite <- !app_assoc; reflexivity).
  rewrite vinsert_app by (rewrite map_length; exact Ln).
  assert (E2 : map (fun a => is_some (f a)) n1 ++ true :: map (fun a => is_some (f a)) (e ++ y :: l2)
     = map (fun a => is_some (f a)) ((n1 ++ x :: e) ++ y :: l2)).
  { rewrite !map_app. simpl. rewrite Hfx, <- !app_assoc. reflexivity. }
  rewrite E2, map_app.
  rewrite (find_index_acc f (n1 ++ x :: e)) by (rewrite app_length in *; simpl; lia).
  rewrite <- map_app, <- app_assoc, map_app.
  rewrite (find_index_acc f n1) by exact Ln.
  do 2 eexists. split; [reflexivity|]. cbn [olist]. rewrite replay_snoc, Ho.
  cbn [apply_to_vec].
  rewrite !ifm_app in *. simpl iter_filter_map in *. rewrite Hfx, Hfy in *. rewrite app_nil_r in *.
  intros Hbad.
  destruct (vremove (length (iter_filter_map f n1 ++ bx :: iter_filter_map f e)) _) as [[w r]|] eqn:Er; [|discriminate].
  apply vremove_inv in Er. destruct Er as (r1 & r2 & Er & -> & Lr).
  destruct (iter_filter_map f l2) as [|z t] eqn:Ez.
  - apply (f_equal (@length B)) in Er. rewrite !app_length in *. simpl in *. rewrite ?app_length in *. simpl in *. lia.
  - replace ((iter_filter_map f n1 ++ iter_filter_map f e) ++ bx :: z :: t)
      with (((iter_filter_map f n1 ++ iter_filter_map f e) ++ [bx]) ++ z :: t) in Er
      by (rewrite <- app_assoc; reflexivity).
    assert (Hw : w = z).
    { assert (Ll : length ((iter_filter_map f n1 ++ iter_filter_map f e) ++ [bx]) = length r1).
      { rewrite Lr, !app_length. simpl. lia. }
      clear -Er Ll. revert Er Ll. generalize ((iter_filter_map f n1 ++ iter_filter_map f e) ++ [bx]).
      intros u. revert r1. induction u as [|a u IH]; intros [|b r1] E L; simpl in *; try discriminate.
      - congruence.
      - injection E as _ E. injection L as L. exact (IH _ E L). }
    subst w. unfold vinsert in Hbad.
    destruct (length (iter_filter_map f n1) <=? length (r1 ++ r2)) eqn:El; [|discriminate].
    apply Nat.leb_le in El. injection Hbad as Hbad.
    apply (f_equal (fun u => nth_error u (length (iter_filter_map f n1)))) in Hbad.
    rewrite nth_error_app2 in Hbad by (rewrite firstn_length; lia).
    rewrite firstn_length, Nat.min_l, Nat.sub_diag in Hbad by lia. simpl in Hbad.
    rewrite nth_error_app2, Nat.sub_diag in Hbad by lia. simpl in Hbad. injection Hbad as Hbad.
    revert Hbad. apply (ifm_nodup_mid f (n1 ++ e ++ [y]) l2 x bx z t Hfx Ez).
    rewrite !ifm_app. simpl. rewrite Hfx, Hfy, Ez. rewrite ?app_nil_r, <- ?app_assoc in *. exact Hnd.
Qed.

Lemma fm_bad_move {A B} (f : A -> option B) ds o n l l' x bx y :
  replay ds = Some l -> backward_moves_ok (fun a => is_some (f a)) ds ->
  NoDup (accepted_values f l) ->
  n < o -> nth_error l o = Some x -> nth_error l (o - 1) = Some y ->
  f x = Some bx -> f y = None -> apply_to_vec (Move o n) l = Some l' ->
  forall script, yielded script = ds ++ [Move o n] ->
  forall k st sr outs,
    run (filter_map_poll f) k (fm_init, fresh script) = Some ((st, sr), outs) ->
    yielded (past sr) = ds ++ [Move o n] ->
    replay (yielded outs) <> Some (accepted_values f l').
Proof.
  intros Hl Hm Hnd Hno Hx Hy Hfx Hfy Ea script Hs k st sr outs Hr Hp.
  rewrite <- ifm_flat_map in Hnd |- *.
  pose proof (backward_moves_ok_moves f _ _ (fun _ => eq_refl) Hm) as HM.
  destruct (emit_run_inv (filter_map_step f)
     (fun ds' => exists r, ds ++ [Move o n] = ds' ++ r))
     with (Inv := fun s ds' os => (ds' <> ds ++ [Move o n] /\ fm_inv f s ds' os)
                  \/ (ds' = ds ++ [Move o n] /\ replay os <> Some (iter_filter_map f l')))
     (s0 := @fm_init A) (script := script) (n := k) as (st2 & sr2 & outs2 & Hr2 & HI).
  - intros a b (r & E). exists (b ++ r). rewrite app_assoc. exact E.
  - intros s ds' os d HI (r & E).
    destruct HI as [[Hne HI]|[-> _]].
    2:{ exfalso. apply (f_equal (@length _)) in E. rewrite !app_length in E. simpl in E. lia. }
    destruct r as [|z r _] using rev_ind.
    + rewrite app_nil_r in E. apply app_inj_tail in E. destruct E as [<- <-].
      destruct (fm_bad_move_step f s ds os o n l l' x bx y HI Hl Hnd Hno Hx Hy Hfx Hfy Ea) as (s' & oo & E1 & E2).
      exists s', oo. split; [exact E1|]. right. auto.
    + rewrite app_assoc in E. apply app_inj_tail in E. destruct E as [E _].
      assert (HM' : moves_ok f (ds' ++ [d])) by (apply moves_ok_prefix with r; rewrite <- E; exact HM).
      assert (HP' : replay (ds' ++ [d]) <> None).
      { apply replay_prefix with r. rewrite <- E. congruence. }
      destruct (fm_step_inv f s ds' os d HI HP' HM') as (s' & oo & E1 & E2).
      exists s', oo. split; [exact E1|]. left. split; [|exact E2].
      intros Hc. rewrite E in Hc. apply (f_equal (@length _)) in Hc. rewrite !app_length in Hc. simpl in Hc. lia.
  - left. split; [destruct ds; discriminate|]. split; [reflexivity|]. exists []. auto.
  - exists []. rewrite app_nil_r. symmetry. exact Hs.
  - unfold filter_map_poll in Hr. rewrite Hr in Hr2. injection Hr2 as <- <- <-.
    destruct HI as [[Hne _]|[_ HI]]; [contradiction|exact HI].
Qed.

Lemma stream_vec_mirror {A} (script : list (poll (option A))) n :
  exists sr outs,
    run stream_vec_poll n (tt, fresh script) = Some ((tt, sr), outs)
    /\ replay (yielded outs) = Some (yielded (past sr))
    /\ yielded outs = map Push (yielded (past sr)).
Proof.
  destruct (emit_run_inv (@stream_vec_step A) (fun _ => True) (fun _ _ _ => I)
    (fun _ ds os => replay os = Some ds /\ os = map Push ds))
    with (s0 := tt) (script := script) (n := n) as ([] & sr & outs & Hr & H1 & H2).
  - intros [] ds os d [H1 H2] _. exists tt, (Some (Push d)). split; [reflexivity|].
    cbn [olist]. rewrite replay_snoc, H1. split; [reflexivity|]. rewrite map_app, H2. reflexivity.
  - split; reflexivity.
  - exact I.
  - exists sr, outs. auto.
Qed.

Lemma vdebug_same {A} (script : list (poll (option (vecdiff A)))) n :
  exists sr outs,
    run vdebug_poll n (tt, fresh script) = Some ((tt, sr), outs)
    /\ yielded outs = yielded (past sr).
Proof.
  destruct (emit_run_inv (@vdebug_step A) (fun _ => True) (fun _ _ _ => I)
    (fun _ ds os => os = ds))
    with (s0 := tt) (script := script) (n := n) as ([] & sr & outs & Hr & H1).
  - intros [] ds os d -> _. exists tt, (Some d). split; reflexivity.
  - reflexivity.
  - exact I.
  - exists sr, outs. auto.
Qed.

Lemma always_vec_run {A} (vs : list A) n :
  exists st, run always_poll n (Some vs) =
    Some (st, match n with 0 => [] | 1 => [Ready (Some (Replace vs))]
              | _ => [Ready (Some (Replace vs)); Ready None] end).
Proof. destruct n as [|[|n]]; simpl; eauto. Qed.

Lemma simple_vec_wake {A} (f : A -> option A) (g : A -> A) (p : A -> bool) :
  single_source_ok (vmap_poll g) []
  /\ single_source_ok (filter_poll p) fm_init
  /\ single_source_ok (filter_map_poll f) fm_init
  /\ single_source_ok (@enumerate_poll A) en_init
  /\ single_source_ok (@stream_vec_poll A) tt
  /\ single_source_ok (@vdebug_poll A) tt.
Proof.
  repeat match goal with |- _ /\ _ => split end;
    intros script n s sr outs Hr; exact (emit_run_wake _ _ _ _ _ _ _ Hr).
Qed.
