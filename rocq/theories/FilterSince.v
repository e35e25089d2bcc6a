(** filter and filter_map on every source (C09, C10): no panic, and right again after a Replace or Clear. *)
From Verif Require Import Base Spec BaseFacts LoopFacts VecDiff VecSpec VecFacts VecSimple VecSimpleFacts Slot Flatten FlattenSpec SigFutFacts FilterSpec.

Section FilterSince.
  Context {A B : Type} (f : A -> option B).
  Notation acc := (fun v => is_some (f v)).

  (** The log of calls has no influence on the output. *)
  Lemma fm_step_calls idx c c1 d : filter_map_step f (mkFm idx c1) d
    = match filter_map_step f (mkFm idx c) d with
      | Some (s, o) => Some (mkFm (fm_indexes s) (c1 ++ values_of d), o)
      | None => None
      end.
  Proof.
    destruct d; cbn [filter_map_step fm_indexes fm_calls values_of]; rewrite ?app_nil_r;
      repeat match goal with |- context [match ?x with _ => _ end] => destruct x; try reflexivity end; reflexivity.
  Qed.

  (** One diff that is no bad move. *)
  Lemma fm_step_good l d l' c : apply_to_vec d l = Some l' -> move_ok f l d ->
    exists oo, filter_map_step f (mkFm (map acc l) c) d = Some (mkFm (map acc l') (c ++ values_of d), oo)
      /\ forall os, replay os = Some (iter_filter_map f l) -> replay (os ++ olist oo) = Some (iter_filter_map f l').
  Proof.
    intros Ha Hm.
    destruct (fm_step_inv f (mkFm (map acc l) l) [Replace l] [Replace (iter_filter_map f l)] d) as (s & oo & E & _ & l1 & H1 & H2 & H3).
    - split; [cbn; rewrite app_nil_r; reflexivity|]. exists l. auto.
    - rewrite replay_snoc. cbn [replay apply_all apply_to_vec]. rewrite Ha. discriminate.
    - intros pre d1 post l1 E1 E2. destruct pre as [|d2 [|d3 pre]]; injection E1.
      + intros _ <-. exact I.
      + intros _ <- <-. cbn in E2. injection E2 as <-. exact Hm.
      + intros E3 _ _. destruct pre; discriminate.
    - rewrite replay_snoc in H1. cbn [replay apply_all apply_to_vec] in H1. rewrite Ha in H1. injection H1 as <-.
      exists oo. split.
      + rewrite (fm_step_calls _ l c), E, H2. reflexivity.
      + intros os Ho. destruct oo as [o|]; cbn [olist] in *; [|rewrite app_nil_r in *; rewrite Ho; cbn in H3; exact H3].
        rewrite replay_snoc, Ho. rewrite replay_snoc in H3. exact H3.
  Qed.

  (** Any diff. *)
  Lemma fm_step_runs l d l' c : apply_to_vec d l = Some l' ->
    exists oo, filter_map_step f (mkFm (map acc l) c) d = Some (mkFm (map acc l') (c ++ values_of d), oo).
  Proof.
    intros Ha. destruct d as [vs|i x|i x|i|o n|x| |].
    5:{ pose proof (apply_inv _ _ _ Ha) as (l1 & x & l2 & m1 & m2 & -> & <- & Hm & -> & <-).
        cbn [filter_map_step fm_indexes fm_calls values_of]. rewrite map_app. cbn [map]. rewrite vremove_app by apply map_length.
        rewrite app_nil_r, <- map_app, Hm, !map_app. cbn [map]. rewrite !vinsert_app by apply map_length.
        destruct (f x) as [b|] eqn:Ex; cbn [is_some]; [|eauto].
        unfold find_index at 1 2. rewrite !app_length, !map_length. cbn [length].
        apply (f_equal (@length A)) in Hm. rewrite !app_length in Hm.
        rewrite !(proj2 (Nat.leb_le _ _)) by (rewrite ?map_length; lia). eauto. }
    all: destruct (fm_step_good l _ l' c Ha I) as (oo & E & _); eauto.
  Qed.

  (** The output for any diff. *)
  Lemma nth_mid (l1 l2 : list A) y : nth_error (l1 ++ y :: l2) (length l1) = Some y.
  Proof. rewrite nth_error_app2, Nat.sub_diag by lia. reflexivity. Qed.
  Lemma place_app l1 l2 i : length l1 = i -> place f i (l1 ++ l2) = length (iter_filter_map f l1).
  Proof. intros <-. unfold place. rewrite firstn_app, Nat.sub_diag, firstn_all2, app_nil_r, <- ifm_flat_map by lia. reflexivity. Qed.
  Lemma rejected_mid l1 l2 y i : length l1 = i -> rejected f i (l1 ++ y :: l2) = negb (is_some (f y)).
  Proof. intros <-. unfold rejected. rewrite nth_mid. destruct (f y); reflexivity. Qed.

  Lemma fm_step_out l d l' c : apply_to_vec d l = Some l' ->
    filter_map_step f (mkFm (map acc l) c) d = Some (mkFm (map acc l') (c ++ values_of d), filter_out f l d).
  Proof.
    intros Ha. destruct (fm_step_runs l d l' c Ha) as (oo & E). rewrite E. f_equal. f_equal.
    pose proof (apply_inv _ _ _ Ha) as Hd.
    destruct d as [vs|i x|i x|i|o n|x| |]; cbn [filter_map_step fm_indexes fm_calls filter_out] in *.
    - injection E; intros. subst oo. rewrite ifm_flat_map. reflexivity.
    - destruct Hd as (l1 & l2 & -> & -> & Hi). rewrite (place_app l1 l2 i Hi). rewrite map_app in E.
      destruct (f x) as [b|]; rewrite vinsert_app in E by (rewrite map_length; exact Hi).
      + rewrite (find_index_acc f l1) in E by exact Hi. injection E; intros. congruence.
      + injection E; intros. congruence.
    - destruct Hd as (l1 & y & l2 & -> & -> & Hi). rewrite (place_app l1 (y :: l2) i Hi), (rejected_mid l1 l2 y i Hi). rewrite map_app in E. cbn [map] in E.
      assert (En : nth_error (map acc l1 ++ is_some (f y) :: map acc l2) i = Some (is_some (f y))).
      { rewrite <- Hi, <- (map_length acc l1), nth_error_app2, Nat.sub_diag by lia. reflexivity. }
      rewrite En in E.
      destruct (f x) as [b|], (f y) as [b1|]; cbn [is_some negb] in *; try (rewrite vset_app in E by (rewrite map_length; exact Hi));
        try (rewrite (find_index_acc f l1) in E by exact Hi); injection E; intros; congruence.
    - destruct Hd as (l1 & y & l2 & -> & -> & Hi). rewrite (place_app l1 (y :: l2) i Hi), (rejected_mid l1 l2 y i Hi). rewrite map_app in E. cbn [map] in E.
      rewrite vremove_app in E by (rewrite map_length; exact Hi).
      destruct (f y) as [b1|]; cbn [is_some negb] in *; try (rewrite (find_index_acc f l1) in E by exact Hi); injection E; intros; congruence.
    - destruct Hd as (l1 & y & l2 & m1 & m2 & -> & Ho & Hm & -> & Hn). rewrite (place_app l1 (y :: l2) o Ho), (rejected_mid l1 l2 y o Ho).
      assert (Hf : firstn o (l1 ++ y :: l2) ++ skipn (S o) (l1 ++ y :: l2) = m1 ++ m2).
      { rewrite <- Hm, <- Ho. rewrite firstn_app, Nat.sub_diag, firstn_all2, app_nil_r by lia. f_equal.
        replace (l1 ++ y :: l2) with ((l1 ++ [y]) ++ l2) by (rewrite <- app_assoc; reflexivity).
        rewrite skipn_app. replace (S (length l1)) with (length (l1 ++ [y])) by (rewrite app_length; cbn; lia). rewrite skipn_all, Nat.sub_diag. reflexivity. }
      rewrite Hf, (place_app m1 m2 n Hn). rewrite map_app in E. cbn [map] in E. rewrite vremove_app in E by (rewrite map_length; exact Ho).
      rewrite <- map_app, Hm, map_app in E.
      destruct (f y) as [b|] eqn:Ey; cbn [is_some negb] in *; rewrite vinsert_app in E by (rewrite map_length; exact Hn).
      2:{ injection E; intros. congruence. }
      rewrite (find_index_acc f m1 _ n Hn) in E.
      destruct (Nat.ltb_spec n o) as [Hlt|Hge]; cbn [andb].
      + destruct (@exists_last _ l1) as (k1 & z & ->); [intros ->; cbn in Ho; lia|].
        assert (Hp : exists e, k1 = m1 ++ e /\ m2 = e ++ z :: l2).
        { destruct (app_eq_cases _ _ _ _ Hm) as [(e & Eq1 & _)|(e & Em1 & Eq2)].
          - exfalso. apply (f_equal (@length A)) in Eq1. rewrite !app_length in *. cbn in *. lia.
          - destruct (@exists_last _ e) as (e1 & w & ->).
            + intros ->. rewrite app_nil_r in Em1. subst m1. rewrite !app_length in *. cbn in *. lia.
            + rewrite app_assoc in Em1. apply app_inj_tail in Em1 as [-> ->]. exists e1. split; [reflexivity|]. rewrite Eq2, <- app_assoc. reflexivity. }
        destruct Hp as (e & -> & ->). rewrite app_length in Ho. cbn in Ho.
        replace (((m1 ++ e) ++ [z]) ++ y :: l2) with ((m1 ++ e) ++ z :: y :: l2) by (rewrite <- (app_assoc (m1 ++ e)); reflexivity). rewrite (rejected_mid (m1 ++ e) (y :: l2) z (o - 1)) by lia.
        replace (map acc m1 ++ true :: map acc (e ++ z :: l2)) with (map acc (m1 ++ y :: e) ++ map acc (z :: l2)) in E
          by (rewrite !map_app; cbn [map]; rewrite Ey, <- app_assoc; reflexivity).
        rewrite (find_index_acc f (m1 ++ y :: e)) in E by (rewrite app_length in *; cbn; lia).
        injection E; intros X _. subst oo. rewrite !ifm_app. cbn [iter_filter_map]. rewrite Ey. rewrite !app_length.
        intros _. destruct (f z); cbn [is_some negb length app]; f_equal; f_equal; lia.
      + rewrite Nat.add_0_r. assert (Hp : exists e, m1 = l1 ++ e).
        { destruct (app_eq_cases _ _ _ _ Hm) as [(e & -> & _)|(e & -> & _)]; [eauto|].
          rewrite app_length in Ho. destruct e; [exists []; rewrite !app_nil_r; reflexivity|cbn in Ho; lia]. }
        destruct Hp as (e & ->). rewrite map_app, <- app_assoc in E. rewrite (find_index_acc f l1) in E by exact Ho.
        injection E; intros. congruence.
    - destruct (f x); injection E; intros; congruence.
    - destruct Hd as (x & ->). rewrite map_app in E. cbn [map] in E. rewrite vpop_app in E.
      rewrite (rejected_mid l' [] x) by (rewrite app_length; cbn; lia).
      destruct (f x); cbn [is_some negb] in *; injection E; intros; congruence.
    - injection E; intros. congruence.
  Qed.

  Definition since (ds : list (vecdiff A)) (os : list (vecdiff B)) (l : list A) : Prop :=
    forall pre d post, ds = pre ++ d :: post -> resets d = true -> moves_ok f (d :: post) ->
    forall shown, replay os = Some shown -> shown = iter_filter_map f l.

  Definition any_inv (s : fm_state A) (ds : list (vecdiff A)) (os : list (vecdiff B)) : Prop :=
    exists l, s = mkFm (map acc l) (flat_map values_of ds) /\ replay ds = Some l /\ os = filter_outs f [] ds /\ since ds os l.

  Lemma replay_reset (pre post : list (vecdiff A)) d l : resets d = true -> replay (pre ++ d :: post) = Some l -> replay (d :: post) = Some l.
  Proof.
    intros Hd H. unfold replay in *. rewrite apply_all_app in H. destruct (apply_all apply_to_vec [] pre) as [l0|]; [|discriminate].
    cbn [apply_all] in *. destruct d; try discriminate Hd; exact H.
  Qed.

  Lemma filter_outs_snoc ds : forall l0 l d, apply_all apply_to_vec l0 ds = Some l -> apply_to_vec d l <> None ->
    filter_outs f l0 (ds ++ [d]) = filter_outs f l0 ds ++ olist (filter_out f l d).
  Proof.
    induction ds as [|d0 ds IH]; intros l0 l d H Hd; cbn [apply_all filter_outs app] in *.
    - injection H as ->. destruct (apply_to_vec d l); [|congruence]. rewrite app_nil_r. reflexivity.
    - destruct (apply_to_vec d0 l0) as [l1|]; [|discriminate]. rewrite (IH _ _ _ H Hd), app_assoc. reflexivity.
  Qed.

  Lemma any_step s ds os d : any_inv s ds os -> replay (ds ++ [d]) <> None ->
    exists s' oo, filter_map_step f s d = Some (s', oo) /\ any_inv s' (ds ++ [d]) (os ++ olist oo).
  Proof.
    intros (l & -> & Hl & Hw & Hs) HP. pose proof HP as HP1. rewrite replay_snoc, Hl in HP. destruct (apply_to_vec d l) as [l'|] eqn:Ha; [|congruence].
    pose proof (fm_step_out l d l' (flat_map values_of ds) Ha) as E. do 2 eexists. split; [exact E|].
    exists l'. split; [rewrite flat_map_snoc; reflexivity|]. split; [rewrite replay_snoc, Hl; exact Ha|].
    split; [rewrite (filter_outs_snoc ds [] l d Hl), <- Hw by congruence; reflexivity|]. revert E. generalize (filter_out f l d). intros oo E.
    intros pre d0 post Eq Hd Hm shown Ho.
    destruct (snoc_cases post) as [->|(post1 & d1 & ->)].
    - apply app_inj_tail in Eq as [<- <-].
      destruct d; try discriminate Hd; cbn in E, Ha; injection Ha as <-; injection E; intros; subst oo; cbn [olist] in Ho; rewrite replay_snoc in Ho;
        destruct (replay os); try discriminate; cbn in Ho; injection Ho as <-; reflexivity.
    - rewrite app_comm_cons, app_assoc in Eq. apply app_inj_tail in Eq as [-> ->].
      pose proof (replay_reset _ _ _ _ Hd Hl) as Hl1. rewrite app_comm_cons in Hm.
      assert (Hok : move_ok f l d1) by exact (moves_ok_last f _ _ _ Hm Hl1).
      destruct (fm_step_good l d1 l' (flat_map values_of (pre ++ d0 :: post1)) Ha Hok) as (o1 & E1 & H1). rewrite E in E1. injection E1 as <-.
      destruct (replay os) as [sh|] eqn:Eo.
      + assert (sh = iter_filter_map f l) by exact (Hs _ _ _ eq_refl Hd (moves_ok_prefix f _ _ Hm) _ Eo). subst sh.
        rewrite (H1 os Eo) in Ho. injection Ho as <-. reflexivity.
      + exfalso. destruct (replay_prefix os (olist oo)); [rewrite Ho; discriminate|exact Eo].
  Qed.

  Lemma fm_since script : good_vec_script script -> forall n, exists st sr outs l,
    run (filter_map_poll f) n (fm_init, fresh script) = Some ((st, sr), outs)
    /\ conveyed sr = Some l /\ fm_calls st = flat_map values_of (yielded (past sr))
    /\ yielded outs = filter_outs f [] (yielded (past sr)) /\ since (yielded (past sr)) (yielded outs) l.
  Proof.
    intros Hg n.
    destruct (emit_run_inv (filter_map_step f) (fun ds => replay ds <> None)) with (Inv := any_inv) (s0 := @fm_init A) (script := script) (n := n)
      as (st & sr & outs & Hr & l & -> & H1 & H2 & H3).
    - intros a b H. exact (replay_prefix _ _ H).
    - exact any_step.
    - exists []. split; [reflexivity|]. split; [reflexivity|]. split; [reflexivity|]. intros pre d post E. destruct pre; discriminate.
    - exact Hg.
    - eexists _, sr, outs, l. split; [exact Hr|]. auto.
  Qed.
End FilterSince.

Lemma filter_map_since {A B} (f : A -> option B) script : good_vec_script script -> forall n, exists st sr outs l,
  run (filter_map_poll f) n (fm_init, fresh script) = Some ((st, sr), outs)
  /\ conveyed sr = Some l /\ fm_calls st = flat_map values_of (yielded (past sr))
  /\ yielded outs = filter_outs f [] (yielded (past sr))
  /\ forall pre d post, yielded (past sr) = pre ++ d :: post -> resets d = true -> backward_moves_ok (fun a => is_some (f a)) (d :: post) ->
     forall shown, replay (yielded outs) = Some shown -> shown = accepted_values f l.
Proof.
  intros Hg n. destruct (fm_since f script Hg n) as (st & sr & outs & l & H1 & H2 & H3 & H0 & H4). exists st, sr, outs, l.
  split; [exact H1|]. split; [exact H2|]. split; [exact H3|]. split; [exact H0|]. intros pre d post E Hd Hm shown Hs. rewrite <- ifm_flat_map.
  exact (H4 pre d post E Hd (backward_moves_ok_moves f _ _ (fun _ => eq_refl) Hm) shown Hs).
Qed.

Lemma filter_since {A} (p : A -> bool) script : good_vec_script script -> forall n, exists st sr outs l,
  run (filter_poll p) n (fm_init, fresh script) = Some ((st, sr), outs)
  /\ conveyed sr = Some l /\ fm_calls st = flat_map values_of (yielded (past sr))
  /\ yielded outs = filter_outs (fun a => if p a then Some a else None) [] (yielded (past sr))
  /\ forall pre d post, yielded (past sr) = pre ++ d :: post -> resets d = true -> backward_moves_ok p (d :: post) ->
     forall shown, replay (yielded outs) = Some shown -> shown = filter p l.
Proof.
  intros Hg n. destruct (fm_since (filter_closure p) script Hg n) as (st & sr & outs & l & H1 & H2 & H3 & H0 & H4). exists st, sr, outs, l.
  split; [exact H1|]. split; [exact H2|]. split; [exact H3|]. split; [exact H0|]. intros pre d post E Hd Hm shown Hs. rewrite <- ifm_filter.
  refine (H4 pre d post E Hd (backward_moves_ok_moves _ p _ _ Hm) shown Hs).
  intros a. unfold filter_closure. destruct (p a); reflexivity.
Qed.
