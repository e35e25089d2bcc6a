(** Proofs for the SignalMap combinators and the views of a MutableBTreeMap. *)
From Verif Require Import Base Spec BaseFacts VecDiff VecSpec LoopFacts VecFacts Slot SlotFacts VecSlotFacts ChainFacts
  WakeFacts Sort SortFacts Flatten FlattenFacts ElemSignal ElemSignalFacts MapDiff MapSpec MapFacts MapComb.

(** ** Maps whose values are related, key by key *)
Definition mrel {K X Y} (R : X -> Y -> Prop) (a : K * X) (b : K * Y) : Prop := fst a = fst b /\ R (snd a) (snd b).

Definition md_rel {K X Y} (R : X -> Y -> Prop) (d : mapdiff K X) (e : mapdiff K Y) : Prop :=
  match d, e with
  | MReplace xs, MReplace ys => Forall2 (mrel R) xs ys
  | MInsert k x, MInsert j y => k = j /\ R x y
  | MUpdate k x, MUpdate j y => k = j /\ R x y
  | MRemove k, MRemove j => k = j
  | MClear, MClear => True
  | _, _ => False
  end.

Section Rel.
  Context {K X Y : Type} (cmp : K -> K -> comparison) (R : X -> Y -> Prop).

  Lemma get_rel k m n : Forall2 (mrel R) m n ->
    match bt_get cmp k m, bt_get cmp k n with
    | Some x, Some y => R x y
    | None, None => True
    | _, _ => False
    end.
  Proof.
    induction 1 as [|[k1 x] [k2 y] m n [E H] _ IH]; [exact I|]. cbn [fst snd] in *. subst k2. simpl.
    destruct (cmp k k1); [exact H|exact I|exact IH].
  Qed.

  Lemma insert_rel k x y m n : R x y -> Forall2 (mrel R) m n ->
    Forall2 (mrel R) (bt_insert cmp k x m) (bt_insert cmp k y n).
  Proof.
    intros Hxy. induction 1 as [|[k1 x1] [k2 y1] m n [E H] HF IH].
    - constructor; [split; auto|constructor].
    - cbn [fst snd] in *. subst k2. simpl. destruct (cmp k k1).
      + constructor; [split; auto|exact HF].
      + constructor; [split; auto|]. constructor; [split; auto|exact HF].
      + constructor; [split; auto|exact IH].
  Qed.

  Lemma remove_rel k m n : Forall2 (mrel R) m n -> Forall2 (mrel R) (bt_remove cmp k m) (bt_remove cmp k n).
  Proof.
    induction 1 as [|[k1 x1] [k2 y1] m n [E H] HF IH]; [constructor|].
    cbn [fst snd] in *. subst k2. simpl. destruct (cmp k k1).
    - exact HF.
    - constructor; [split; auto|exact HF].
    - constructor; [split; auto|exact IH].
  Qed.

  Lemma from_iter_rel es fs : Forall2 (mrel R) es fs -> Forall2 (mrel R) (bt_from_iter cmp es) (bt_from_iter cmp fs).
  Proof.
    intros HF. unfold bt_from_iter.
    assert (G : forall m n, Forall2 (mrel R) m n ->
      Forall2 (mrel R) (fold_left (fun m '(k, v) => bt_insert cmp k v m) es m)
                       (fold_left (fun m '(k, v) => bt_insert cmp k v m) fs n)).
    { induction HF as [|[k1 x1] [k2 y1] es fs [E H] _ IH]; intros m n Hmn; [exact Hmn|].
      cbn [fst snd] in *. subst k2. simpl. apply IH. apply insert_rel; assumption. }
    apply G. constructor.
  Qed.

  Lemma mapply_rel d e m m' n : md_rel R d e -> Forall2 (mrel R) m n -> apply_to_map cmp d m = Some m' ->
    exists n', apply_to_map cmp e n = Some n' /\ Forall2 (mrel R) m' n'.
  Proof.
    intros Hd HF Ha.
    destruct d as [xs|k x|k x|k|]; destruct e as [ys|j y|j y|j|]; try contradiction Hd; simpl in Hd, Ha |- *.
    - injection Ha as <-. eexists. split; [reflexivity|]. apply from_iter_rel. exact Hd.
    - destruct Hd as [<- Hxy]. assert (G := get_rel k m n HF). destruct (bt_get cmp k m); [discriminate|].
      destruct (bt_get cmp k n); [contradiction|]. injection Ha as <-. eexists. split; [reflexivity|].
      apply insert_rel; assumption.
    - destruct Hd as [<- Hxy]. assert (G := get_rel k m n HF). destruct (bt_get cmp k m); [|discriminate].
      destruct (bt_get cmp k n); [|contradiction]. injection Ha as <-. eexists. split; [reflexivity|].
      apply insert_rel; assumption.
    - subst j. assert (G := get_rel k m n HF). destruct (bt_get cmp k m); [|discriminate].
      destruct (bt_get cmp k n); [|contradiction]. injection Ha as <-. eexists. split; [reflexivity|].
      apply remove_rel; assumption.
    - injection Ha as <-. eexists. split; [reflexivity|constructor].
  Qed.
End Rel.

Lemma mrel_map {K X Y} (f : X -> Y) (m : list (K * X)) (n : list (K * Y)) :
  Forall2 (mrel (fun x y => f x = y)) m n <-> n = map (fun '(k, x) => (k, f x)) m.
Proof.
  split.
  - induction 1 as [|[k1 x] [k2 y] m n [E H] _ IH]; [reflexivity|]. cbn [fst snd] in *. subst. reflexivity.
  - intros ->. induction m as [|[k x] m IH]; constructor; [split; reflexivity|exact IH].
Qed.

Lemma mrel_keys {K X Y} (R : X -> Y -> Prop) (m : list (K * X)) (n : list (K * Y)) :
  Forall2 (mrel R) m n -> map fst m = map fst n.
Proof. induction 1 as [|a b m n [E _] _ IH]; [reflexivity|]. simpl. rewrite E, IH. reflexivity. Qed.

Lemma mreplay_snoc {K V} cmp (ds : list (mapdiff K V)) d :
  mreplay cmp (ds ++ [d]) = match mreplay cmp ds with Some m => apply_to_map cmp d m | None => None end.
Proof.
  rewrite mreplay_app. destruct (mreplay cmp ds) as [m|]; [|reflexivity]. simpl.
  destruct (apply_to_map cmp d m); reflexivity.
Qed.

Lemma mreplay_prefix {K V} cmp (a b : list (mapdiff K V)) : mreplay cmp (a ++ b) <> None -> mreplay cmp a <> None.
Proof. rewrite mreplay_app. destruct (mreplay cmp a); [discriminate|auto]. Qed.

Lemma ascending_prefix {K V} cmp (a b : list (mapdiff K V)) : ascending_entries cmp (a ++ b) -> ascending_entries cmp a.
Proof. intros H es Hes. apply H. apply in_or_app. left. exact Hes. Qed.

Lemma distinct_prefix {K V} (a b : list (mapdiff K V)) : distinct_entries (a ++ b) -> distinct_entries a.
Proof. intros H es Hes. apply H. apply in_or_app. left. exact Hes. Qed.

(** ** always *)
Lemma map_always_run {K V} (es : list (K * V)) n : exists st, run map_always_poll n (Some es) =
  Some (st, match n with 0 => [] | 1 => [Ready (Some (MReplace es))]
            | _ => [Ready (Some (MReplace es)); Ready None] end).
Proof. destruct n as [|[|n]]; eexists; reflexivity. Qed.

(** ** map_value *)
Lemma md_map_calls {K A B} (f : A -> B) (d : mapdiff K A) : snd (md_map f d) = mvalues_of d.
Proof. destruct d; reflexivity. Qed.

Lemma md_map_rel {K A B} (f : A -> B) (d : mapdiff K A) : md_rel (fun x y => f x = y) d (fst (md_map f d)).
Proof. destruct d; simpl; auto. apply mrel_map. reflexivity. Qed.

Lemma map_value_mirror {K A B} (cmp : K -> K -> comparison) (f : A -> B) script :
  good_map_script cmp script -> forall n, exists calls sr outs m,
    run (map_value_poll f) n ([], fresh script) = Some ((calls, sr), outs)
    /\ mconveyed cmp sr = Some m
    /\ mreplay cmp (yielded outs) = Some (map (fun '(k, v) => (k, f v)) m)
    /\ calls = flat_map mvalues_of (yielded (past sr)).
Proof.
  intros Hg n.
  destruct (emit_run_inv (map_value_step f) (fun ds => mreplay cmp ds <> None) (@mreplay_prefix K A cmp)
    (fun calls ds os => calls = flat_map mvalues_of ds /\
       exists m, mreplay cmp ds = Some m /\ mreplay cmp os = Some (map (fun '(k, v) => (k, f v)) m)))
    with (s0 := @nil A) (script := script) (n := n) as (calls & sr & outs & Hr & Hc & m & H1 & H2).
  - intros calls ds os d (Hc & m & Hm & Ho) HP. unfold map_value_step.
    assert (Hrel := md_map_rel f d). assert (Hcalls := md_map_calls f d).
    destruct (md_map f d) as [out c]. cbn [fst snd] in *.
    exists (calls ++ c), (Some out). split; [reflexivity|]. split.
    + rewrite flat_map_app. simpl. rewrite app_nil_r. congruence.
    + rewrite mreplay_snoc, Hm in *. destruct (apply_to_map cmp d m) as [m'|] eqn:Ea; [|congruence].
      exists m'. split; [reflexivity|]. cbn [olist]. rewrite mreplay_snoc, Ho.
      destruct (mapply_rel cmp _ _ _ _ _ _ Hrel (proj2 (mrel_map f m _) eq_refl) Ea) as (n' & E & HF).
      rewrite E. f_equal. apply mrel_map. exact HF.
  - split; [reflexivity|]. exists []. auto.
  - exact Hg.
  - exists calls, sr, outs, m. auto.
Qed.

(** One output per change received. *)
Lemma map_value_same_length {K A B} (f : A -> B) (script : list (poll (option (mapdiff K A)))) n :
  exists calls sr outs, run (map_value_poll f) n ([], fresh script) = Some ((calls, sr), outs)
    /\ yielded outs = map (fun d => fst (md_map f d)) (yielded (past sr)).
Proof.
  destruct (emit_run_inv (@map_value_step K A B f) (fun _ => True) (fun _ _ _ => I)
    (fun _ ds os => os = map (fun d => fst (md_map f d)) ds))
    with (s0 := @nil A) (script := script) (n := n) as (calls & sr & outs & Hr & H).
  - intros calls ds os d Ho _. unfold map_value_step. destruct (md_map f d) as [out c] eqn:E.
    exists (calls ++ c), (Some out). split; [reflexivity|]. rewrite map_app, Ho. simpl. rewrite E. reflexivity.
  - reflexivity.
  - exact I.
  - exists calls, sr, outs. auto.
Qed.

(** ** The views *)
Section ViewFacts.
  Context {K V : Type} (cmp : K -> K -> comparison) (TO : total_order cmp).

  Lemma fst_lt (k : K) (p : list (K * V)) : Forall (fun e => cmp (fst e) k = Lt) p ->
    Forall (fun x => Some (cmp x k) = Some Lt) (map fst p).
  Proof. induction 1; constructor; [congruence|assumption]. Qed.
  Lemma fst_gt (k : K) (q : list (K * V)) : Forall (fun e => cmp k (fst e) = Lt) q ->
    Forall (fun x => Some (cmp x k) = Some Gt) (map fst q).
  Proof. induction 1; constructor; [|assumption]. f_equal. apply (cmp_lt_gt cmp TO). assumption. Qed.

  Lemma search_absent (k : K) (p q : list (K * V)) : Forall (fun e => cmp (fst e) k = Lt) p -> Forall (fun e => cmp k (fst e) = Lt) q ->
    search_err cmp (map fst (p ++ q)) k = Some (length p).
  Proof.
    intros Hp Hq. unfold search_err, binary_search. rewrite map_app, search_not_found; [rewrite map_length; reflexivity|apply fst_lt; exact Hp|apply fst_gt; exact Hq].
  Qed.
  Lemma search_present (k : K) (v : V) (p q : list (K * V)) : Forall (fun e => cmp (fst e) k = Lt) p -> Forall (fun e => cmp k (fst e) = Lt) q ->
    search_ok cmp (map fst (p ++ (k, v) :: q)) k = Some (length p).
  Proof.
    intros Hp Hq. unfold search_ok, binary_search. rewrite map_app. cbn [map fst].
    rewrite search_found; [rewrite map_length; reflexivity|apply fst_lt; exact Hp|rewrite (cmp_refl cmp TO); reflexivity|apply fst_gt; exact Hq].
  Qed.

  Lemma views_step (ks : list K) (m m' : list (K * V)) d :
    ks = map fst m -> is_map cmp m -> (forall es, d = MReplace es -> is_map cmp es) -> apply_to_map cmp d m = Some m' ->
    (exists oo, keys_step cmp ks d = Some (map fst m', oo)
        /\ apply_all apply_to_vec (map fst m) (olist oo) = Some (map fst m'))
    /\ (exists e, entries_step cmp ks d = Some (map fst m', Some e) /\ apply_to_vec e m = Some m').
  Proof.
    intros -> Hm Hes Ha. destruct d as [es|k v|k v|k|]; cbn [keys_step entries_step apply_to_map] in *.
    - injection Ha as <-. specialize (Hes es eq_refl). rewrite (from_iter_map cmp TO) by exact Hes. split.
      + exists (Some (Replace (map fst es))). split; reflexivity.
      + eexists. split; reflexivity.
    - destruct (bt_cases cmp TO k m Hm) as [(p & v0 & q & -> & Hp & Hq)|(_ & p & q & -> & Hp & Hq)].
      + destruct (bt_present cmp TO k v0 p q Hp) as (E & _). rewrite E in Ha. discriminate.
      + destruct (bt_absent cmp TO k p q Hp Hq) as (E & E1 & _). rewrite E, E1 in Ha. injection Ha as <-.
        rewrite (search_absent k p q Hp Hq). rewrite !map_app. cbn [map fst].
        rewrite (vinsert_app (map fst p)) by (rewrite map_length; reflexivity). split.
        * exists (Some (InsertAt (length p) k)). split; [reflexivity|]. cbn [olist apply_all].
          rewrite apply_insert_app by (rewrite map_length; reflexivity). reflexivity.
        * exists (InsertAt (length p) (k, v)). split; [reflexivity|]. apply apply_insert_app. reflexivity.
    - destruct (bt_cases cmp TO k m Hm) as [(p & v0 & q & -> & Hp & Hq)|(_ & p & q & -> & Hp & Hq)].
      + destruct (bt_present cmp TO k v0 p q Hp) as (E & E1 & _). rewrite E, E1 in Ha. injection Ha as <-.
        rewrite (search_present k v0 p q Hp Hq). rewrite !map_app. cbn [map fst]. split.
        * exists None. split; reflexivity.
        * exists (UpdateAt (length p) (k, v)). split; [reflexivity|]. apply apply_update_app. reflexivity.
      + destruct (bt_absent cmp TO k p q Hp Hq) as (E & _). rewrite E in Ha. discriminate.
    - destruct (bt_cases cmp TO k m Hm) as [(p & v0 & q & -> & Hp & Hq)|(_ & p & q & -> & Hp & Hq)].
      + destruct (bt_present cmp TO k v0 p q Hp) as (E & _ & E1). rewrite E, E1 in Ha. injection Ha as <-.
        rewrite (search_present k v0 p q Hp Hq). rewrite !map_app. cbn [map fst].
        rewrite (vremove_app (map fst p)) by (rewrite map_length; reflexivity). split.
        * exists (Some (RemoveAt (length p))). split; [reflexivity|]. cbn [olist apply_all].
          rewrite apply_remove_app by (rewrite map_length; reflexivity). reflexivity.
        * exists (RemoveAt (length p)). split; [reflexivity|]. apply apply_remove_app. reflexivity.
      + destruct (bt_absent cmp TO k p q Hp Hq) as (E & _). rewrite E in Ha. discriminate.
    - injection Ha as <-. split; [exists (Some Clear)|exists Clear]; split; reflexivity.
  Qed.

  Definition view_source (ds : list (mapdiff K V)) : Prop := mreplay cmp ds <> None /\ ascending_entries cmp ds.
  Lemma view_source_prefix a b : view_source (a ++ b) -> view_source a.
  Proof. intros [H1 H2]. split; [exact (mreplay_prefix _ _ _ H1)|exact (ascending_prefix _ _ _ H2)]. Qed.

  Lemma view_source_snoc ds m d : view_source (ds ++ [d]) -> mreplay cmp ds = Some m ->
    is_map cmp m /\ (forall es, d = MReplace es -> is_map cmp es) /\ exists m', apply_to_map cmp d m = Some m' /\ mreplay cmp (ds ++ [d]) = Some m'.
  Proof.
    intros [H1 H2] Hm. split; [exact (mreplay_is_map cmp TO ds m Hm)|]. split.
    - intros es ->. apply H2. apply in_or_app. right. left. reflexivity.
    - rewrite mreplay_snoc, Hm in *. destruct (apply_to_map cmp d m) as [m'|]; [eauto|congruence].
  Qed.

  Lemma keys_mirror script : good_map_script cmp script -> ascending_entries cmp (yielded script) ->
    forall n, exists ks sr outs m,
      run (keys_poll (V := V) cmp) n ([], fresh script) = Some ((ks, sr), outs)
      /\ mconveyed cmp sr = Some m
      /\ replay (yielded outs) = Some (map fst m)
      /\ ascending cmp (map fst m).
  Proof.
    intros Hg Hs n.
    destruct (emit_run_inv (keys_step (V := V) cmp) view_source view_source_prefix
      (fun ks ds os => exists m, mreplay cmp ds = Some m /\ ks = map fst m /\ replay os = Some (map fst m)))
      with (s0 := @nil K) (script := script) (n := n) as (ks & sr & outs & Hr & m & H1 & H2 & H3).
    - intros ks ds os d (m & Hm & Hk & Ho) HP.
      destruct (view_source_snoc ds m d HP Hm) as (Hmap & Hes & m' & Ea & Er).
      destruct (views_step ks m m' d Hk Hmap Hes Ea) as [(oo & E & E1) _].
      exists (map fst m'), oo. split; [exact E|]. exists m'. split; [exact Er|]. split; [reflexivity|].
      unfold replay in *. rewrite apply_all_app, Ho. exact E1.
    - exists []. auto.
    - split; assumption.
    - exists ks, sr, outs, m. split; [exact Hr|]. split; [exact H1|]. split; [exact H3|].
      exact (mreplay_is_map cmp TO _ m H1).
  Qed.

  Lemma entries_mirror script : good_map_script cmp script -> ascending_entries cmp (yielded script) ->
    forall n, exists ks sr outs m,
      run (entries_poll (V := V) cmp) n ([], fresh script) = Some ((ks, sr), outs)
      /\ mconveyed cmp sr = Some m
      /\ replay (yielded outs) = Some m
      /\ is_map cmp m.
  Proof.
    intros Hg Hs n.
    destruct (emit_run_inv (entries_step (V := V) cmp) view_source view_source_prefix
      (fun ks ds os => exists m, mreplay cmp ds = Some m /\ ks = map fst m /\ replay os = Some m))
      with (s0 := @nil K) (script := script) (n := n) as (ks & sr & outs & Hr & m & H1 & H2 & H3).
    - intros ks ds os d (m & Hm & Hk & Ho) HP.
      destruct (view_source_snoc ds m d HP Hm) as (Hmap & Hes & m' & Ea & Er).
      destruct (views_step ks m m' d Hk Hmap Hes Ea) as [_ (e & E & E1)].
      exists (map fst m'), (Some e). split; [exact E|]. exists m'. split; [exact Er|]. split; [reflexivity|].
      cbn [olist]. rewrite replay_snoc, Ho. exact E1.
    - exists []. auto.
    - split; assumption.
    - exists ks, sr, outs, m. split; [exact Hr|]. split; [exact H1|]. split; [exact H3|].
      exact (mreplay_is_map cmp TO _ m H1).
  Qed.
End ViewFacts.

(** ** key_cloned *)
Section KeyFacts.
  Context {K V : Type} (cmp : K -> K -> comparison) (TO : total_order cmp).
  Context (key_eq : K -> K -> bool) (LK : lawful key_eq) (k : K).

  Definition entry_of (ds : list (mapdiff K V)) : option V :=
    match mreplay cmp ds with Some m => bt_get cmp k m | None => None end.

  Lemma find_entry (es : list (K * V)) : NoDup (map fst es) ->
    option_map snd (find (fun e => key_eq (fst e) k) es) = bt_get cmp k (bt_from_iter cmp es).
  Proof.
    intros Hnd. assert (Hm := from_iter_is_map cmp TO es).
    assert (Hin : forall v, In (k, v) (bt_from_iter cmp es) <-> In (k, v) es).
    { intros v. rewrite (in_from_iter cmp TO). split.
      - intros (p & q & -> & _). apply in_or_app. right. left. reflexivity.
      - intros Hi. apply in_split in Hi. destruct Hi as (p & q & ->). exists p, q. split; [reflexivity|].
        intros Hk. rewrite map_app in Hnd. apply NoDup_remove_2 in Hnd. apply Hnd. apply in_or_app. right. exact Hk. }
    destruct (find (fun e => key_eq (fst e) k) es) as [[k' v]|] eqn:E.
    - apply find_some in E. destruct E as [Hi Hk]. apply LK in Hk. simpl in Hk. subst k'. simpl.
      symmetry. apply (get_in cmp TO); [exact Hm|]. apply Hin. exact Hi.
    - simpl. destruct (bt_get cmp k (bt_from_iter cmp es)) as [v|] eqn:Eg; [|reflexivity].
      apply (get_in cmp TO) in Eg; [|exact Hm]. apply Hin in Eg. apply (find_none _ _ E) in Eg. simpl in Eg.
      assert (Ht : key_eq k k = true) by (apply LK; reflexivity). congruence.
  Qed.

  Lemma get_insert_other k' v (m : list (K * V)) : is_map cmp m -> k' <> k -> bt_get cmp k (bt_insert cmp k' v m) = bt_get cmp k m.
  Proof.
    intros Hm Hne. assert (Hm' := insert_is_map cmp TO k' v m Hm).
    destruct (bt_get cmp k m) as [w|] eqn:E.
    - apply (get_in cmp TO) in E; [|exact Hm]. apply (get_in cmp TO); [exact Hm'|]. apply (in_insert cmp TO); [exact Hm|].
      right. split; [congruence|exact E].
    - destruct (bt_get cmp k (bt_insert cmp k' v m)) as [w|] eqn:E2; [|reflexivity].
      apply (get_in cmp TO) in E2; [|exact Hm']. apply (in_insert cmp TO) in E2; [|exact Hm].
      destruct E2 as [[H _]|[_ H]]; [congruence|]. apply (get_in cmp TO) in H; [|exact Hm]. congruence.
  Qed.
  Lemma get_insert_same v (m : list (K * V)) : is_map cmp m -> bt_get cmp k (bt_insert cmp k v m) = Some v.
  Proof.
    intros Hm. apply (get_in cmp TO); [apply (insert_is_map cmp TO); exact Hm|]. apply (in_insert cmp TO); [exact Hm|]. left. auto.
  Qed.
  Lemma get_remove_same (m : list (K * V)) : is_map cmp m -> bt_get cmp k (bt_remove cmp k m) = None.
  Proof.
    intros Hm. destruct (bt_get cmp k (bt_remove cmp k m)) as [w|] eqn:E; [|reflexivity].
    apply (get_in cmp TO) in E; [|apply (remove_is_map cmp TO); exact Hm]. apply (in_remove cmp TO) in E; [|exact Hm].
    destruct E as [H _]. congruence.
  Qed.
  Lemma get_remove_other k' (m : list (K * V)) : is_map cmp m -> k' <> k -> bt_get cmp k (bt_remove cmp k' m) = bt_get cmp k m.
  Proof.
    intros Hm Hne. assert (Hm' := remove_is_map cmp TO k' m Hm).
    destruct (bt_get cmp k m) as [w|] eqn:E.
    - apply (get_in cmp TO) in E; [|exact Hm]. apply (get_in cmp TO); [exact Hm'|]. apply (in_remove cmp TO); [exact Hm|].
      split; [congruence|exact E].
    - destruct (bt_get cmp k (bt_remove cmp k' m)) as [w|] eqn:E2; [|reflexivity].
      apply (get_in cmp TO) in E2; [|exact Hm']. apply (in_remove cmp TO) in E2; [|exact Hm].
      destruct E2 as [_ H]. apply (get_in cmp TO) in H; [|exact Hm]. congruence.
  Qed.

  Lemma key_step_ok base changed ds d :
    entry_of ds = match changed with Some o => o | None => base end ->
    mreplay cmp (ds ++ [d]) <> None -> distinct_entries (ds ++ [d]) ->
    exists changed', key_step key_eq k changed d = Some changed'
      /\ entry_of (ds ++ [d]) = match changed' with Some o => o | None => base end
      /\ (changed <> None -> changed' <> None).
  Proof.
    intros HJ Hg Hd. eexists. split; [reflexivity|]. unfold entry_of in *. rewrite mreplay_snoc in *.
    destruct (mreplay cmp ds) as [m|] eqn:Em; [|congruence].
    assert (Hm := mreplay_is_map cmp TO ds m Em).
    assert (Hk : forall x, key_eq x k = true -> x = k) by (intros x; apply LK).
    assert (Hk' : forall x, key_eq x k = false -> x <> k).
    { intros x E ->. assert (Ht : key_eq k k = true) by (apply LK; reflexivity). congruence. }
    destruct d as [es|k' v|k' v|k'|]; cbn [apply_to_map] in *.
    - rewrite find_entry; [split; [reflexivity|discriminate]|]. apply Hd. apply in_or_app. right. left. reflexivity.
    - destruct (bt_get cmp k' m); [congruence|]. destruct (key_eq k' k) eqn:E.
      + apply Hk in E. subst k'. split; [apply get_insert_same; exact Hm|discriminate].
      + apply Hk' in E. rewrite get_insert_other by assumption. split; [exact HJ|auto].
    - destruct (bt_get cmp k' m); [|congruence]. destruct (key_eq k' k) eqn:E.
      + apply Hk in E. subst k'. split; [apply get_insert_same; exact Hm|discriminate].
      + apply Hk' in E. rewrite get_insert_other by assumption. split; [exact HJ|auto].
    - destruct (bt_get cmp k' m); [|congruence]. destruct (key_eq k' k) eqn:E.
      + apply Hk in E. subst k'. split; [apply get_remove_same; exact Hm|discriminate].
      + apply Hk' in E. rewrite get_remove_other by assumption. split; [exact HJ|auto].
    - split; [reflexivity|discriminate].
  Qed.

  Definition key_source (ds : list (mapdiff K V)) : Prop := mreplay cmp ds <> None /\ distinct_entries ds.
  Lemma key_source_prefix a b : key_source (a ++ b) -> key_source a.
  Proof. intros [H1 H2]. split; [exact (mreplay_prefix _ _ _ H1)|exact (distinct_prefix _ _ H2)]. Qed.

  Definition key_inv (st : bool * src (option (mapdiff K V))) (outs : list (poll (option (option V)))) : Prop :=
    key_source (yielded (past (snd st)) ++ yielded (todo (snd st)))
    /\ (outs = [] -> fst st = true /\ yielded (past (snd st)) = [])
    /\ (outs <> [] -> fst st = false /\ latest_of outs = Some (entry_of (yielded (past (snd st))))).

  Lemma key_poll_ok st outs : key_inv st outs -> exists st' o, key_poll key_eq k st = Some (st', o) /\ key_inv st' (outs ++ [o]).
  Proof.
    destruct st as [first sr]. intros (HP & H0 & H1). cbn [fst snd] in *. unfold key_poll.
    destruct (loop_drain_inv (key_step key_eq k) key_source key_source_prefix
      (fun changed ds => entry_of ds = match changed with Some o => o | None => entry_of (yielded (past sr)) end))
      with (td := todo sr) (s := @None (option V)) (pst := past sr) as (changed & sr' & done & E & HJ & HP').
    - intros c ds d Hc [G1 G2]. destruct (key_step_ok _ c ds d Hc G1 G2) as (c' & Ec & Hc' & _). eauto.
    - reflexivity.
    - exact HP.
    - rewrite E.
      assert (Hne : forall o, outs ++ [o] <> []) by (intros o Hx; apply app_eq_nil in Hx; destruct Hx; discriminate).
      destruct changed as [o|].
      + exists (false, sr'), (Ready (Some o)). split; [reflexivity|]. split; [exact HP'|]. split; [intros Hx; destruct (Hne _ Hx)|].
        intros _. split; [reflexivity|]. rewrite latest_of_app. cbn [snd]. congruence.
      + destruct first.
        * exists (false, sr'), (Ready (Some None)). split; [reflexivity|]. split; [exact HP'|]. split; [intros Hx; destruct (Hne _ Hx)|].
          intros _. split; [reflexivity|]. rewrite latest_of_app. cbn [snd]. rewrite HJ.
          destruct outs as [|o outs]; [|destruct H1 as [H _]; discriminate]. destruct H0 as [_ H]; [reflexivity|]. rewrite H. reflexivity.
        * assert (Ho : outs <> []) by (intros Hx; destruct (H0 Hx); discriminate). destruct (H1 Ho) as [_ Hl].
          destruct done; eexists _, _; (split; [reflexivity|]); (split; [exact HP'|]); (split; [intros Hx; destruct (Hne _ Hx)|]);
          intros _; (split; [reflexivity|]); cbn [snd]; rewrite ?latest_of_end, ?latest_of_pending, HJ; exact Hl.
  Qed.

  Lemma key_run (script : list (poll (option (mapdiff K V)))) : good_map_script cmp script -> distinct_entries (yielded script) -> forall n, exists st outs,
    run (key_poll key_eq k) n (true, fresh script) = Some (st, outs) /\ key_inv st outs.
  Proof.
    intros Hg Hd n. apply (run_inv0 (key_poll key_eq k) key_inv).
    - split; [split; assumption|]. split; [intros _; split; reflexivity|congruence].
    - intros st outs HI _. exact (key_poll_ok st outs HI).
  Qed.

  Lemma key_cloned_mirror (script : list (poll (option (mapdiff K V)))) : good_map_script cmp script -> distinct_entries (yielded script) ->
    forall n, exists first sr outs m,
      run (key_poll key_eq k) n (true, fresh script) = Some ((first, sr), outs)
      /\ mconveyed cmp sr = Some m
      /\ (outs <> [] -> exists o, latest_of outs = Some o /\ forall v, o = Some v <-> In (k, v) m).
  Proof.
    intros Hg Hd n. destruct (key_run script Hg Hd n) as ([first sr] & outs & Hr & [HP _] & _ & H1).
    cbn [fst snd] in *. apply mreplay_prefix in HP. unfold mconveyed.
    destruct (mreplay cmp (yielded (past sr))) as [m|] eqn:Em; [|congruence].
    exists first, sr, outs, m. split; [exact Hr|]. split; [exact Em|]. intros Ho. destruct (H1 Ho) as [_ Hl].
    eexists. split; [exact Hl|]. intros v. unfold entry_of. rewrite Em.
    apply (get_in cmp TO). exact (mreplay_is_map cmp TO _ m Em).
  Qed.
End KeyFacts.

Section KeyWake.
  Context {K V : Type} (key_eq : K -> K -> bool) (k : K).

  Lemma key_drain changed (sr : src (option (mapdiff K V))) : exists changed' sr' done,
    loop_drain (key_step key_eq k) changed (past sr) (todo sr) = Some (changed', sr', done).
  Proof.
    destruct (loop_drain_inv (@key_step K V key_eq k) (fun _ => True) (fun _ _ _ => I) (fun _ _ => True))
      with (td := todo sr) (s := changed) (pst := past sr) as (c & sr' & done & E & _); auto.
    - intros c ds d _ _. eexists. split; [reflexivity|exact I].
    - eauto.
  Qed.

  (** Never panics; the first answer is a value. *)
  Lemma key_cloned_initial (script : list (poll (option (mapdiff K V)))) n : exists st outs,
    run (key_poll key_eq k) n (true, fresh script) = Some (st, outs) /\ (outs <> [] -> has_initial outs).
  Proof.
    destruct (run_inv0 (key_poll (V := V) key_eq k)
      (fun st outs => (outs = [] -> fst st = true) /\ (outs <> [] -> has_initial outs)) (true, fresh script))
      with (n := n) as (st & outs & Hr & _ & H).
    - split; [reflexivity|congruence].
    - intros [first sr] outs (H0 & H1) _. cbn [fst] in *. unfold key_poll. destruct (key_drain None sr) as (c & sr' & done & ->).
      assert (Hne : forall o, outs ++ [o] <> []) by (intros o Hx; apply app_eq_nil in Hx; destruct Hx; discriminate).
      assert (Hgo : forall o, (outs = [] -> exists v, o = Ready (Some v)) -> has_initial (outs ++ [o])).
      { intros o Ho. destruct outs as [|x outs].
        - destruct (Ho eq_refl) as (v & ->). exists v, []. reflexivity.
        - destruct H1 as (a & t & E); [discriminate|]. rewrite E. exists a, (t ++ [o]). reflexivity. }
      destruct c as [c|]; [|destruct first; [|destruct done]]; eexists _, _; (split; [reflexivity|]);
      (split; [intros Hx; destruct (Hne _ Hx)|intros _; apply Hgo]); intros Ho; eauto; specialize (H0 Ho); discriminate.
    - exists st, outs. auto.
  Qed.

  Lemma key_cloned_rearms : rearms (key_poll (V := V) key_eq k) snd.
  Proof.
    intros [first sr] [first' sr'] H. unfold key_poll in H.
    destruct (loop_drain (key_step key_eq k) None (past sr) (todo sr)) as [[[c sr1] done]|] eqn:E; [|discriminate].
    destruct c as [c|]; [discriminate|]. destruct first; [discriminate|]. destruct done; [discriminate|]. injection H as <- <-.
    apply loop_drain_struct in E. destruct E as (ds & Hp & _). exists (somes ds). cbn [snd]. rewrite Hp, <- app_assoc. reflexivity.
  Qed.

  (** When the end of the source is never answered to the first poll, nor in the same poll as a change. *)
  Definition ends_alone (script : list (poll (option (mapdiff K V)))) : Prop :=
    forall p q, script = p ++ Ready None :: q -> exists p', p = p' ++ [Pending].

  Lemma script_end (a r s : list (poll (option (mapdiff K V)))) e :
    a ++ Ready None :: r = s ++ repeat Pending e -> exists r', s = a ++ Ready None :: r'.
  Proof.
    assert (Hno : forall x y, repeat (@Pending (option (mapdiff K V))) e <> x ++ Ready None :: y).
    { intros x y E. assert (Hi : In (Ready None) (repeat (@Pending (option (mapdiff K V))) e)).
      { rewrite E. apply in_or_app. right. left. reflexivity. } apply repeat_spec in Hi. discriminate. }
    intros E. apply app_eq_app in E. destruct E as (l & [[-> E]|[-> E]]).
    - exfalso. exact (Hno _ _ E).
    - destruct l as [|x l]; [exfalso; exact (Hno [] r (eq_sym E))|]. injection E as <- _. exists l. reflexivity.
  Qed.

  Lemma key_cloned_ends script n first sr outs : ends_alone script ->
    run (key_poll (V := V) key_eq k) n (true, fresh script) = Some ((first, sr), outs) ->
    (last_out outs Pending -> awaits sr) /\ (last_out outs (Ready None) <-> ended sr) /\ obeys_end (past sr).
  Proof.
    intros Hal H.
    cut ((last_out outs Pending -> awaits sr) /\ (last_out outs (Ready None) <-> ended sr) /\ obeys_end (past sr)
      /\ plays script sr /\ (outs = [] -> past sr = []) /\ (outs <> [] -> first = false)
      /\ (~ In (Ready None) outs -> ~ ended sr)); [tauto|].
    change sr with (snd (first, sr)). change first with (fst (first, sr)) at 1. revert H.
    apply (run_inv_partial0 (key_poll (V := V) key_eq k) (fun st outs =>
      (last_out outs Pending -> awaits (snd st)) /\ (last_out outs (Ready None) <-> ended (snd st)) /\ obeys_end (past (snd st))
      /\ plays script (snd st) /\ (outs = [] -> past (snd st) = []) /\ (outs <> [] -> fst st = false)
      /\ (~ In (Ready None) outs -> ~ ended (snd st)))).
    - cbn [fst snd]. split; [intros Hl; exfalso; exact (last_out_nil _ Hl)|]. split; [split; [intros Hl; exfalso; exact (last_out_nil _ Hl)|intros []]|].
      split; [apply obeys_end_nil|]. split; [apply plays_fresh|]. split; [reflexivity|]. split; [congruence|]. intros _ [].
    - intros [f s] os [f' s'] o (_ & _ & _ & Hpl & Hfirst & Hff & Hne) Hno Hp. cbn [fst snd] in *. specialize (Hne Hno). unfold key_poll in Hp.
      destruct (loop_drain (key_step key_eq k) None (past s) (todo s)) as [[[c s1] done]|] eqn:E; [|discriminate].
      assert (Hpl1 := loop_drain_plays (key_step key_eq k) script (todo s) None (past s) c s1 done).
      destruct s as [pst td]. cbn [past todo] in *. specialize (Hpl1 Hpl E).
      assert (Hst := E). apply loop_drain_struct in Hst. destruct Hst as (ds & Hps & _).
      assert (Hpre : ~ In (Ready None) (pst ++ somes ds)) by (apply no_end_app; [exact Hne|apply somes_no_end]).
      assert (Hno' : forall x, os ++ [x] <> []) by (intros x Hx; apply app_eq_nil in Hx; destruct Hx; discriminate).
      assert (Hobe : obeys_end (past s1)) by (rewrite Hps; apply obeys_end_snoc; exact Hpre).
      assert (Hdone : done = true -> ds = [] /\ c = None /\ f = false).
      { intros ->. destruct Hpl1 as (e & Hpl1). rewrite Hps in Hpl1. cbn [drain_end] in Hpl1. rewrite <- app_assoc in Hpl1. cbn [app] in Hpl1.
        apply script_end in Hpl1. destruct Hpl1 as (r' & Hsc). destruct (Hal _ _ Hsc) as (p' & Hp').
        destruct ds as [|d ds'] eqn:Eds using rev_ind.
        - split; [reflexivity|]. simpl in Hp'. rewrite app_nil_r in Hp'. split.
          + destruct td as [|[|[d0|]] td']; cbn [loop_drain] in E; try (injection E; intros; subst; reflexivity).
            destruct (key_step key_eq k None d0) as [c1|]; [|discriminate]. apply loop_drain_struct in E. destruct E as (ds2 & Hps2 & _).
            rewrite Hps in Hps2. cbn in Hps2. rewrite app_nil_r in Hps2.
            exfalso. apply (f_equal (@length _)) in Hps2. rewrite !app_length in Hps2. simpl in Hps2. lia.
          + apply Hff. intros ->. rewrite Hfirst in Hp' by reflexivity. destruct p'; discriminate.
        - exfalso. unfold somes in Hp'. rewrite map_app in Hp'. cbn [map] in Hp'. rewrite app_assoc in Hp'. apply app_inj_tail in Hp'. destruct Hp' as [_ Hp']. discriminate. }
      assert (Hend : ended s1 <-> done = true).
      { unfold ended. rewrite Hps. split.
        - intros Hi. apply in_app_or in Hi. destruct Hi as [Hi|[Hi|[]]]; [contradiction|]. destruct done; [reflexivity|discriminate].
        - intros ->. apply in_or_app. right. left. reflexivity. }
      assert (Haw : done = false -> awaits s1) by (intros ->; eexists; exact Hps).
      assert (Hgo : forall f2, f2 = false -> (o = Pending -> done = false) -> (o = Ready None <-> done = true) -> f' = f2 -> s' = s1 ->
        (last_out (os ++ [o]) Pending -> awaits s') /\ (last_out (os ++ [o]) (Ready None) <-> ended s') /\ obeys_end (past s')
        /\ plays script s' /\ (os ++ [o] = [] -> past s' = []) /\ (os ++ [o] <> [] -> f' = false) /\ (~ In (Ready None) (os ++ [o]) -> ~ ended s')).
      { intros f2 -> H1 H2 -> ->. rewrite !last_out_snoc. split; [auto|]. split; [rewrite Hend; exact H2|]. split; [exact Hobe|]. split; [exact Hpl1|].
        split; [intros Hx; destruct (Hno' _ Hx)|]. split; [reflexivity|]. intros Hx He. apply Hx. apply Hend in He. apply H2 in He. subst o.
        apply in_or_app. right. left. reflexivity. }
      destruct c as [c|]; [|destruct f; [|destruct done]]; injection Hp as <- <- <-; apply (Hgo false); try reflexivity; try discriminate;
      (split; [discriminate|]; intros Hd; destruct (Hdone Hd) as (_ & ? & ?); discriminate) || (split; auto; discriminate).
  Qed.

  Lemma key_cloned_end_sound (script : list (poll (option (mapdiff K V)))) n first sr outs :
    run (key_poll (V := V) key_eq k) n (true, fresh script) = Some ((first, sr), outs) ->
    last_out outs (Ready None) -> ended sr.
  Proof.
    intros H. change sr with (snd (first, sr)). revert H.
    apply (run_inv_partial0 (key_poll (V := V) key_eq k) (fun st outs => last_out outs (Ready None) -> ended (snd st))).
    - intros Hl. exfalso. exact (last_out_nil _ Hl).
    - intros [f s] os [f' s'] o _ _ Hp. rewrite last_out_snoc. intros ->. unfold key_poll in Hp.
      destruct (loop_drain (key_step key_eq k) None (past s) (todo s)) as [[[c s1] done]|] eqn:E; [|discriminate].
      destruct c as [c|]; [discriminate|]. destruct f; [discriminate|]. destruct done; [|discriminate]. injection Hp as <- <-.
      apply loop_drain_struct in E. destruct E as (ds & Hps & _). unfold ended. cbn [snd]. rewrite Hps. apply in_or_app. right. left. reflexivity.
  Qed.
End KeyWake.

Lemma nat_order : total_order Nat.compare.
Proof.
  split; [exact Nat.compare_eq_iff|]. split; [exact (fun a b => Nat.compare_antisym a b)|].
  intros a b c. rewrite !Nat.compare_lt_iff. apply Nat.lt_trans.
Qed.

(** No panic in the views, for any source whose diffs are those of a MutableBTreeMap subscriber. *)
Lemma keys_end {K V} (cmp : K -> K -> comparison) : single_source_ok (keys_poll (V := V) cmp) [].
Proof. intros script n s sr outs. apply emit_run_wake. Qed.
Lemma entries_end {K V} (cmp : K -> K -> comparison) : single_source_ok (entries_poll (V := V) cmp) [].
Proof. intros script n s sr outs. apply emit_run_wake. Qed.
Lemma map_value_end {K A B} (f : A -> B) : single_source_ok (map_value_poll (K := K) f) [].
Proof. intros script n s sr outs. apply emit_run_wake. Qed.
