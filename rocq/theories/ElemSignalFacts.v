(** Proofs for MapSignal and FilterSignalCloned. *)
From Verif Require Import Base Spec BaseFacts VecDiff VecSpec LoopFacts VecFacts Slot SlotFacts VecSlotFacts ChainFacts
  WakeFacts Flatten FlattenFacts ElemSignal.

(** ** Diffs whose values are related *)
Definition vd_rel {X Y} (R : X -> Y -> Prop) (d : vecdiff X) (e : vecdiff Y) : Prop :=
  match d, e with
  | Replace xs, Replace ys => Forall2 R xs ys
  | InsertAt i x, InsertAt j y => i = j /\ R x y
  | UpdateAt i x, UpdateAt j y => i = j /\ R x y
  | RemoveAt i, RemoveAt j => i = j
  | Move o n, Move p q => o = p /\ n = q
  | Push x, Push y => R x y
  | Pop, Pop => True
  | Clear, Clear => True
  | _, _ => False
  end.

Lemma Forall2_len {X Y} (R : X -> Y -> Prop) l m : Forall2 R l m -> length l = length m.
Proof. induction 1; simpl; congruence. Qed.

Lemma apply_rel {X Y} (R : X -> Y -> Prop) d e l l' m : vd_rel R d e -> Forall2 R l m ->
  apply_to_vec d l = Some l' -> exists m', apply_to_vec e m = Some m' /\ Forall2 R l' m'.
Proof.
  intros Hd HF Ha. apply apply_inv in Ha.
  destruct d as [vs|i x|i x|i|o n|x| |]; destruct e as [ws|j y|j y|j|p q|y| |]; try contradiction Hd; simpl in Hd.
  - subst l'. exists ws. auto.
  - destruct Hd as [<- Hxy]. destruct Ha as (l1 & l2 & -> & -> & Hi).
    apply Forall2_app_inv_l in HF. destruct HF as (m1 & m2 & H1 & H2 & ->).
    exists (m1 ++ y :: m2). split; [|apply Forall2_app; [exact H1|constructor; assumption]].
    apply apply_insert_app. rewrite <- (Forall2_len _ _ _ H1). exact Hi.
  - destruct Hd as [<- Hxy]. destruct Ha as (l1 & z & l2 & -> & -> & Hi).
    apply Forall2_app_inv_l in HF. destruct HF as (m1 & m2 & H1 & H2 & ->).
    inversion H2 as [|? w ? m3 Hw H3]; subst.
    exists (m1 ++ y :: m3). split; [|apply Forall2_app; [exact H1|constructor; assumption]].
    apply apply_update_app. rewrite <- (Forall2_len _ _ _ H1). reflexivity.
  - subst j. destruct Ha as (l1 & z & l2 & -> & -> & Hi).
    apply Forall2_app_inv_l in HF. destruct HF as (m1 & m2 & H1 & H2 & ->).
    inversion H2 as [|? w ? m3 Hw H3]; subst.
    exists (m1 ++ m3). split; [|apply Forall2_app; assumption].
    apply apply_remove_app. rewrite <- (Forall2_len _ _ _ H1). reflexivity.
  - destruct Hd as [<- <-]. destruct Ha as (l1 & z & l2 & n1 & n2 & -> & Ho & Hn & -> & Hn1).
    apply Forall2_app_inv_l in HF. destruct HF as (m1 & m2 & H1 & H2 & ->).
    inversion H2 as [|? w ? m3 Hw H3]; subst.
    assert (H4 : Forall2 R (n1 ++ n2) (m1 ++ m3)) by (rewrite <- Hn; apply Forall2_app; assumption).
    apply Forall2_app_inv_l in H4. destruct H4 as (k1 & k2 & H5 & H6 & Hk).
    exists (k1 ++ w :: k2). split; [|apply Forall2_app; [exact H5|constructor; assumption]].
    cbn [apply_to_vec]. rewrite vremove_app by (symmetry; apply (Forall2_len _ _ _ H1)).
    rewrite Hk. apply vinsert_app. symmetry. apply (Forall2_len _ _ _ H5).
  - subst l'. exists (m ++ [y]). split; [reflexivity|]. apply Forall2_app; [exact HF|]. constructor; [exact Hd|constructor].
  - destruct Ha as (x & ->). apply Forall2_app_inv_l in HF. destruct HF as (m1 & m2 & H1 & H2 & ->).
    inversion H2 as [|? w ? m3 Hw H3]; subst. inversion H3; subst. exists m1. split; [apply apply_pop_app|exact H1].
  - subst l'. exists []. split; [reflexivity|constructor].
Qed.

Lemma forall2_map_eq {X Y} (g : X -> Y) l m : Forall2 (fun y x => g x = y) l m -> l = map g m.
Proof. induction 1 as [|y x l m H _ IH]; [reflexivity|]. simpl. rewrite H, IH. reflexivity. Qed.

Lemma map_eq_forall2 {X Y} (g : X -> Y) m : Forall2 (fun y x => g x = y) (map g m) m.
Proof. induction m; constructor; [reflexivity|assumption]. Qed.

(** The first poll of a signal that honours the contract. *)
Lemma first_value_ok {B} (script : list (poll (option B))) : has_initial script ->
  exists b sl, first_value script = Some (b, sl) /\ slot_ok sl /\ plays script (snd sl) /\ latest (snd sl) = Some b.
Proof.
  intros (b & t & ->). exists b, (true, mkSrc [Ready (Some b)] t). split; [reflexivity|].
  split; [|split; [|reflexivity]].
  - split; simpl; [apply obeys_end_no_end; apply no_end_some|]. split; [discriminate|].
    intros H. exfalso. exact (no_end_some b H).
  - exists 0. simpl. rewrite app_nil_r. reflexivity.
Qed.

Lemma ended_listening {D} (a b : src (option D)) : ended b -> listening a b.
Proof. left. assumption. Qed.

Section MapSignal.
  Context {K B : Type} (inner_of : K -> list (poll (option B))).
  Hypothesis inner_good : forall k, has_initial (inner_of k).
  Notation applies := (@apply_all (vecdiff B) (list B) apply_to_vec).
  Notation msrc m := (snd (ms_signal m)).

  Definition mok (m : msig K B) (v : B) : Prop :=
    slot_ok (ms_signal m) /\ plays (inner_of (ms_origin m)) (msrc m) /\ latest (msrc m) = Some v.

  Lemma ms_new_ok k : exists m b, ms_new inner_of k = Some (m, b) /\ mok m b /\ ms_origin m = k.
  Proof.
    destruct (first_value_ok (inner_of k) (inner_good k)) as (b & sl & E & H1 & H2 & H3).
    exists (mkMsig k sl), b. unfold ms_new. rewrite E. split; [reflexivity|]. split; [|reflexivity].
    split; [exact H1|]. split; [exact H2|exact H3].
  Qed.

  Lemma ms_new_all_ok ks : exists ms bs, ms_new_all inner_of ks = Some (ms, bs) /\ Forall2 mok ms bs
    /\ Forall2 (fun k m => ms_origin m = k) ks ms.
  Proof.
    induction ks as [|k ks (ms & bs & E & HF & HO)].
    - exists [], []. split; [reflexivity|]. split; constructor.
    - destruct (ms_new_ok k) as (m & b & Em & Hm & Ho). cbn [ms_new_all]. rewrite Em, E.
      exists (m :: ms), (b :: bs). split; [reflexivity|]. split; constructor; assumption.
  Qed.

  Lemma map_signal_step_ok ms vs start pend d ks' : Forall2 mok ms vs -> applies start pend = Some vs ->
    apply_to_vec d (map ms_origin ms) = Some ks' ->
    exists ms' vs' e, map_signal_step inner_of (ms, pend) d = Some (ms', pend ++ [e])
      /\ Forall2 mok ms' vs' /\ applies start (pend ++ [e]) = Some vs' /\ map ms_origin ms' = ks'.
  Proof.
    intros HF Hap Hk.
    assert (Hgen : forall (dm : vecdiff (msig K B)) e, vd_rel (fun k m => ms_origin m = k) d dm -> vd_rel mok dm e ->
      exists ms' vs', apply_to_vec dm ms = Some ms' /\ Forall2 mok ms' vs' /\ applies start (pend ++ [e]) = Some vs'
        /\ map ms_origin ms' = ks').
    { intros dm e H1 H2.
      destruct (apply_rel _ d dm _ _ ms H1 (map_eq_forall2 ms_origin ms) Hk) as (ms' & E1 & HO).
      destruct (apply_rel _ dm e _ _ vs H2 HF E1) as (vs' & E2 & HF').
      exists ms', vs'. split; [exact E1|]. split; [exact HF'|].
      split; [rewrite (applies_app _ _ _ _ Hap); cbn [apply_all]; rewrite E2; reflexivity|].
      symmetry. exact (forall2_map_eq _ _ _ HO). }
    destruct d as [ks|i k|i k|i|o n|k| |]; cbn [map_signal_step].
    - destruct (ms_new_all_ok ks) as (ms1 & bs & E & HF1 & HO). rewrite E.
      destruct (Hgen (Replace ms1) (Replace bs) HO HF1) as (ms' & vs' & E1 & H1 & H2 & H3).
      injection E1 as ->. exists ms', vs', (Replace bs). auto.
    - destruct (ms_new_ok k) as (m & b & E & Hm & Ho). rewrite E.
      destruct (Hgen (InsertAt i m) (InsertAt i b) (conj eq_refl Ho) (conj eq_refl Hm)) as (ms' & vs' & E1 & H1 & H2 & H3).
      cbn [apply_to_vec] in E1. rewrite E1. exists ms', vs', (InsertAt i b). auto.
    - destruct (ms_new_ok k) as (m & b & E & Hm & Ho). rewrite E.
      destruct (Hgen (UpdateAt i m) (UpdateAt i b) (conj eq_refl Ho) (conj eq_refl Hm)) as (ms' & vs' & E1 & H1 & H2 & H3).
      cbn [apply_to_vec] in E1. rewrite E1. exists ms', vs', (UpdateAt i b). auto.
    - destruct (Hgen (RemoveAt i) (RemoveAt i) eq_refl eq_refl) as (ms' & vs' & E1 & H1 & H2 & H3).
      cbn [apply_to_vec] in E1. destruct (vremove i ms) as [[x y]|]; [|discriminate]. injection E1 as ->.
      exists ms', vs', (RemoveAt i). auto.
    - destruct (Hgen (Move o n) (Move o n) (conj eq_refl eq_refl) (conj eq_refl eq_refl)) as (ms' & vs' & E1 & H1 & H2 & H3).
      cbn [apply_to_vec] in E1. destruct (vremove o ms) as [[x y]|]; [|discriminate]. rewrite E1.
      exists ms', vs', (Move o n). auto.
    - destruct (ms_new_ok k) as (m & b & E & Hm & Ho). rewrite E.
      destruct (Hgen (Push m) (Push b) Ho Hm) as (ms' & vs' & E1 & H1 & H2 & H3).
      injection E1 as <-. exists (ms ++ [m]), vs', (Push b). auto.
    - destruct (Hgen Pop Pop I I) as (ms' & vs' & E1 & H1 & H2 & H3).
      cbn [apply_to_vec] in E1. destruct (vpop ms) as [[x y]|]; [|discriminate]. injection E1 as ->.
      exists ms', vs', Pop. auto.
    - destruct (Hgen Clear Clear I I) as (ms' & vs' & E1 & H1 & H2 & H3).
      injection E1 as <-. exists [], vs', Clear. auto.
  Qed.

  Lemma poll_signals_ok start ms : forall vs P pend,
    Forall2 mok ms vs -> applies start pend = Some (P ++ vs) ->
    exists ms' vs' more has, poll_signals (length P) pend ms = (ms', pend ++ more, has)
      /\ Forall2 mok ms' vs' /\ map ms_origin ms' = map ms_origin ms
      /\ applies start (pend ++ more) = Some (P ++ vs')
      /\ (has = false -> more = [] -> Forall (fun m => ended (msrc m)) ms')
      /\ (has = true -> ~ Forall (fun m => ended (msrc m)) ms')
      /\ (more = [] -> Forall2 (fun m m' => listening (msrc m) (msrc m')) ms ms').
  Proof.
    induction ms as [|m ms IH]; intros vs P pend HF Ha.
    - inversion HF; subst. exists [], [], [], false. rewrite app_nil_r. split; [reflexivity|]. split; [constructor|].
      split; [reflexivity|]. split; [exact Ha|]. split; [constructor|]. split; [discriminate|constructor].
    - inversion HF as [|? v ? vs0 Hm HF']; subst. cbn [poll_signals].
      assert (H1 : exists m' v' d1 h1, match poll_slot (ms_signal m) with
          | (Some (Ready (Some value)), sl) => (mkMsig (ms_origin m) sl, pend ++ [UpdateAt (length P) value], false)
          | (Some (Ready None), sl) => (mkMsig (ms_origin m) (drop_slot sl), pend, false)
          | (Some Pending, sl) => (mkMsig (ms_origin m) sl, pend, true)
          | (None, sl) => (mkMsig (ms_origin m) sl, pend, false)
          end = (m', pend ++ d1, h1) /\ mok m' v' /\ ms_origin m' = ms_origin m
          /\ applies start (pend ++ d1) = Some ((P ++ [v']) ++ vs0)
          /\ (h1 = false -> d1 = [] -> ended (msrc m')) /\ (h1 = true -> ~ ended (msrc m'))
          /\ (d1 = [] -> listening (msrc m) (msrc m'))).
      { clear IH. destruct Hm as (Hok & Hpl & Hla). assert (Hp := poll_slot_ok _ Hok).
        assert (Hpl' := poll_slot_plays _ _ Hpl).
        assert (Ha' : applies start pend = Some ((P ++ [v]) ++ vs0)) by (rewrite <- app_assoc; exact Ha).
        destruct (poll_slot (ms_signal m)) as [[[|[b|]]|] sl]; cbn [snd] in Hpl'.
        - destruct Hp as (_ & Hok' & _ & Hpast). exists (mkMsig (ms_origin m) sl), v, [], true. rewrite app_nil_r.
          split; [reflexivity|].
          split; [split; [exact Hok'|]; split; [exact Hpl'|]; unfold latest in *; cbn [ms_signal]; rewrite Hpast, latest_of_pending; exact Hla|].
          split; [reflexivity|]. split; [exact Ha'|]. split; [discriminate|].
          split; [|intros _; right; exists []; exact Hpast].
          intros _ He. cbn [ms_signal] in He. destruct Hok' as [Hoe _]. unfold ended in He. apply in_split in He.
          destruct He as (x & y & He). assert (Hy := Hoe x y He). subst y. rewrite Hpast in He.
          apply app_inj_tail in He. destruct He; discriminate.
        - destruct Hp as (_ & Hok' & Hpast). exists (mkMsig (ms_origin m) sl), b, [UpdateAt (length P) b], false.
          split; [reflexivity|].
          split; [split; [exact Hok'|]; split; [exact Hpl'|]; unfold latest in *; cbn [ms_signal]; rewrite Hpast; apply latest_of_app|].
          split; [reflexivity|].
          split; [rewrite (applies_app _ _ _ _ Ha), <- app_assoc; cbn [apply_all]; rewrite apply_update_app by reflexivity; reflexivity|].
          split; [discriminate|]. split; discriminate.
        - destruct Hp as (_ & Hok' & He & Hpast). exists (mkMsig (ms_origin m) (drop_slot sl)), v, [], false. rewrite app_nil_r.
          split; [reflexivity|].
          split; [split; [exact Hok'|]; split; [exact Hpl'|]; unfold latest in *; cbn [ms_signal drop_slot snd]; rewrite Hpast, latest_of_end; exact Hla|].
          split; [reflexivity|]. split; [exact Ha'|]. split; [intros _ _; exact He|]. split; [discriminate|].
          intros _. left. exact He.
        - destruct Hp as (-> & Hf). exists (mkMsig (ms_origin m) (ms_signal m)), v, [], false. rewrite app_nil_r.
          split; [reflexivity|]. split; [split; [exact Hok|]; split; assumption|].
          split; [reflexivity|]. split; [exact Ha'|].
          assert (He : ended (msrc m)) by (apply Hok; exact Hf).
          split; [intros _ _; exact He|]. split; [discriminate|]. intros _. left. exact He. }
      destruct H1 as (m' & v' & d1 & h1 & -> & Hm' & Ho & Ha1 & Hf1 & Ht1 & Hl1).
      destruct (IH vs0 (P ++ [v']) (pend ++ d1) HF' Ha1) as (ms' & vs' & d2 & h2 & E2 & HF2 & Ho2 & Ha2 & Hf2 & Ht2 & Hl2).
      rewrite app_length in E2. cbn [length] in E2. rewrite Nat.add_1_r in E2. rewrite E2.
      exists (m' :: ms'), (v' :: vs'), (d1 ++ d2), (h1 || h2). rewrite app_assoc. split; [reflexivity|].
      split; [constructor; assumption|]. split; [cbn [map]; rewrite Ho, Ho2; reflexivity|].
      split; [rewrite Ha2, <- app_assoc; reflexivity|].
      split; [|split].
      + intros Hh Hd. apply orb_false_iff in Hh. destruct Hh. apply app_eq_nil in Hd. destruct Hd. constructor; auto.
      + intros Hh Hall. inversion Hall; subst. apply orb_true_iff in Hh. destruct Hh as [-> | ->]; [exact (Ht1 eq_refl H1)|exact (Ht2 eq_refl H2)].
      + intros Hd. apply app_eq_nil in Hd. destruct Hd. constructor; auto.
  Qed.

  Definition minv (st : map_signal_state K B) (outs : list (poll (option (vecdiff B)))) : Prop :=
    exists vs shown,
      slot_ok (mas_signal st) /\ replay (deliverable (mas_signal st)) <> None
      /\ replay (delivered (mas_signal st)) = Some (map ms_origin (mas_signals st))
      /\ Forall2 mok (mas_signals st) vs
      /\ replay (yielded outs) = Some shown
      /\ applies shown (mas_pending st) = Some vs
      /\ (last_out outs Pending \/ last_out outs (Ready None) -> mas_pending st = [])
      /\ (last_out outs (Ready None) -> ended (snd (mas_signal st)) /\ Forall (fun m => ended (msrc m)) (mas_signals st))
      /\ (last_out outs Pending -> ~ (ended (snd (mas_signal st)) /\ Forall (fun m => ended (msrc m)) (mas_signals st))).

  Definition map_signal_arms (st st' : map_signal_state K B) (o : poll (option (vecdiff B))) : Prop :=
    o = Pending -> listening (snd (mas_signal st)) (snd (mas_signal st'))
      /\ Forall2 (fun m m' => listening (msrc m) (msrc m')) (mas_signals st) (mas_signals st').

  Lemma map_signal_poll_ok st outs : minv st outs -> ~ In (Ready None) outs ->
    exists st' o, map_signal_poll inner_of st = Some (st', o) /\ minv st' (outs ++ [o]) /\ map_signal_arms st st' o.
  Proof.
    intros (vs & shown & Hok & Hg & Hr & HF & Hsh & Hap & Hpe & Hen & Hpn) Hno.
    unfold map_signal_poll. destruct (mas_pending st) as [|d rest] eqn:Ep.
    2:{ cbn [apply_all] in Hap. destruct (apply_to_vec d shown) as [sh'|] eqn:Ed; [|discriminate].
      eexists _, _. split; [reflexivity|]. split; [|discriminate].
      exists vs, sh'. cbn [mas_signal mas_signals mas_pending].
      split; [exact Hok|]. split; [exact Hg|]. split; [exact Hr|]. split; [exact HF|].
      split; [rewrite yielded_app; cbn [yielded]; rewrite replay_snoc, Hsh; exact Ed|].
      split; [exact Hap|]. rewrite !last_out_snoc. split; [intros [H|H]; discriminate|]. split; discriminate. }
    cbn [apply_all] in Hap. injection Hap as ->.
    destruct (drain_slot_inv (map_signal_step inner_of) (fun ds => replay ds <> None) (@replay_prefix K)
      (fun s ds => exists vs1, replay ds = Some (map ms_origin (fst s)) /\ Forall2 mok (fst s) vs1
          /\ applies vs (snd s) = Some vs1 /\ (snd s = [] -> fst s = mas_signals st)))
      with (x := (mas_signals st, @nil (vecdiff B))) (sl := mas_signal st)
      as ([ms1 pend1] & sl' & done & E & (vs1 & Hr1 & HF1 & Ha1 & Hsame) & Hg').
    { intros [ms1 pend1] ds d (vs1 & Hr1 & HF1 & Ha1 & _) Hgd. cbn [fst snd] in *.
      assert (Hs := replay_snoc ds d). rewrite Hr1 in Hs. rewrite Hs in Hgd.
      destruct (apply_to_vec d (map ms_origin ms1)) as [ks'|] eqn:Ed; [|congruence].
      destruct (map_signal_step_ok ms1 vs1 vs pend1 d ks' HF1 Ha1 Ed) as (ms' & vs' & e & Es & H1 & H2 & H3).
      exists (ms', pend1 ++ [e]). split; [exact Es|]. exists vs'. cbn [fst snd]. rewrite Hs, H3.
      split; [reflexivity|]. split; [exact H1|]. split; [exact H2|].
      intros Hx. apply app_eq_nil in Hx. destruct Hx; discriminate. }
    { exists vs. cbn [fst snd]. auto. }
    { exact Hg. }
    rewrite E. cbn [fst snd] in *.
    destruct (drain_slot_ok _ _ _ _ _ _ Hok E) as (Hok' & Hf & _).
    assert (Hli := drain_listening _ _ _ _ _ _ Hok E).
    assert (Hends : ended (snd sl') <-> done = true).
    { destruct Hok' as [_ Hok']. rewrite <- Hok', Hf. destruct done; split; intros H; try reflexivity; discriminate. }
    destruct (poll_signals_ok vs ms1 vs1 [] pend1 HF1 Ha1) as (ms2 & vs2 & more & has & E2 & HF2 & Ho2 & Ha2 & Hf2 & Ht2 & Hl2).
    cbn [length app] in E2, Ha2. rewrite E2.
    destruct (pend1 ++ more) as [|first rest] eqn:Epm.
    - apply app_eq_nil in Epm. destruct Epm as [-> ->]. cbn [apply_all] in Ha2. injection Ha2 as <-.
      specialize (Hsame eq_refl). subst ms1.
      assert (Hgen : forall o, (o = Pending \/ o = Ready None) ->
        (o = Ready None <-> ended (snd sl') /\ Forall (fun m => ended (msrc m)) ms2) ->
        minv (mkMapSig sl' ms2 []) (outs ++ [o]) /\ map_signal_arms st (mkMapSig sl' ms2 []) o).
      { intros o Ho Hiff. split.
        - exists vs, vs. cbn [mas_signal mas_signals mas_pending].
          split; [exact Hok'|]. split; [exact Hg'|]. split; [rewrite Ho2; exact Hr1|]. split; [exact HF2|].
          split; [rewrite yielded_app; destruct Ho as [-> | ->]; cbn [yielded]; rewrite app_nil_r; exact Hsh|].
          split; [reflexivity|]. rewrite !last_out_snoc. split; [reflexivity|]. split; [apply Hiff|].
          intros -> Hc. apply Hiff in Hc. discriminate.
        - intros ->. cbn [mas_signal mas_signals]. split; [exact Hli|exact (Hl2 eq_refl)]. }
      destruct (done && negb has) eqn:Edn.
      + exists (mkMapSig sl' ms2 []), (Ready None). split; [reflexivity|]. apply Hgen; [auto|].
        apply andb_true_iff in Edn. destruct Edn as [-> Hh]. apply negb_true_iff in Hh.
        split; [|reflexivity]. intros _. split; [apply Hends; reflexivity|exact (Hf2 Hh eq_refl)].
      + exists (mkMapSig sl' ms2 []), Pending. split; [reflexivity|]. apply Hgen; [auto|].
        split; [discriminate|]. intros [H1 H2]. exfalso. apply Hends in H1. rewrite H1 in Edn. destruct has; [|discriminate].
        exact (Ht2 eq_refl H2).
    - eexists _, _. split; [reflexivity|]. split; [|discriminate].
      cbn [apply_all] in Ha2. destruct (apply_to_vec first vs) as [sh'|] eqn:Ed; [|discriminate].
      exists vs2, sh'. cbn [mas_signal mas_signals mas_pending].
      split; [exact Hok'|]. split; [exact Hg'|]. split; [rewrite Ho2; exact Hr1|]. split; [exact HF2|].
      split; [rewrite yielded_app; cbn [yielded]; rewrite replay_snoc, Hsh; exact Ed|].
      split; [exact Ha2|]. rewrite !last_out_snoc. split; [intros [H|H]; discriminate|]. split; discriminate.
  Qed.

  Lemma map_signal_run source : good_vec_script source -> forall n, exists st outs,
    run (map_signal_poll inner_of) n (map_signal_init source) = Some (st, outs) /\ minv st outs
    /\ (~ In (Ready None) outs -> forall st' o, map_signal_poll inner_of st = Some (st', o) -> map_signal_arms st st' o).
  Proof.
    intros Hg. apply (run_then (map_signal_poll inner_of) minv map_signal_arms (map_signal_init source)).
    - exists [], []. cbn. split; [apply slot_ok_fresh|]. split; [exact Hg|]. split; [reflexivity|]. split; [constructor|].
      split; [reflexivity|]. split; [reflexivity|]. split; [reflexivity|].
      split; intros H; exfalso; exact (last_out_nil _ H).
    - exact map_signal_poll_ok.
  Qed.
End MapSignal.

Section FilterSignal.
  Context {K : Type} (inner_of : K -> list (poll (option bool))).
  Hypothesis inner_good : forall k, has_initial (inner_of k).
  Notation applies := (@apply_all (vecdiff K) (list K) apply_to_vec).
  Notation fsrc f := (snd (fs_signal f)).

  Definition fok (f : fsig K) : Prop :=
    slot_ok (fs_signal f) /\ plays (inner_of (fs_value f)) (fsrc f) /\ latest (fsrc f) = Some (fs_exists f).

  (** What is visible. *)
  Definition vis (fs : list (fsig K)) : list K := map fs_value (filter fs_exists fs).

  Lemma vis_app a b : vis (a ++ b) = vis a ++ vis b.
  Proof. unfold vis. rewrite filter_app, map_app. reflexivity. Qed.

  Lemma vis_cons f b : vis (f :: b) = (if fs_exists f then [fs_value f] else []) ++ vis b.
  Proof. unfold vis. simpl. destruct (fs_exists f); reflexivity. Qed.

  Lemma fs_new_ok k : exists f, fs_new inner_of k = Some f /\ fok f /\ fs_value f = k /\ past (fsrc f) <> [].
  Proof.
    destruct (first_value_ok (inner_of k) (inner_good k)) as (b & sl & E & H1 & H2 & H3).
    exists (mkFsig sl k b). unfold fs_new. rewrite E. split; [reflexivity|].
    split; [split; [exact H1|]; split; [exact H2|exact H3]|]. split; [reflexivity|].
    simpl. intros Hx. unfold latest in H3. rewrite Hx in H3. discriminate.
  Qed.

  Lemma fs_new_all_ok ks : exists fs, fs_new_all inner_of ks = Some (fs, vis fs) /\ Forall fok fs /\ map fs_value fs = ks.
  Proof.
    induction ks as [|k ks (fs & E & HF & HO)].
    - exists []. split; [reflexivity|]. split; [constructor|reflexivity].
    - destruct (fs_new_ok k) as (f & Ef & Hf & Ho & _). cbn [fs_new_all]. rewrite Ef, E.
      exists (f :: fs). split; [rewrite vis_cons, Ho; destruct (fs_exists f); reflexivity|].
      split; [constructor; assumption|]. simpl. rewrite Ho, HO. reflexivity.
  Qed.

  Lemma fs_find_app (a b : list (fsig K)) i : length a = i -> fs_find_index (a ++ b) i = Some (length (vis a)).
  Proof.
    intros <-. unfold fs_find_index. rewrite app_length.
    destruct (Nat.leb_spec (length a) (length a + length b)); [|lia].
    rewrite firstn_app, Nat.sub_diag, firstn_all. cbn [firstn]. rewrite app_nil_r. unfold vis. rewrite map_length. reflexivity.
  Qed.

  Lemma fs_find_some (fs : list (fsig K)) i : i <= length fs -> exists j, fs_find_index fs i = Some j.
  Proof. intros H. unfold fs_find_index. rewrite (proj2 (Nat.leb_le _ _) H). eexists. reflexivity. Qed.

  (** A backward move shows the right thing. *)
  Definition move_ok (fs : list (fsig K)) (d : vecdiff K) : Prop :=
    forall o n x y, d = Move o n -> n < o -> nth_error fs o = Some x -> nth_error fs (o - 1) = Some y ->
      fs_exists x = true -> fs_exists y = true.

  Lemma filter_signal_step_ok fs pend d ks' : Forall fok fs ->
    apply_to_vec d (map fs_value fs) = Some ks' ->
    exists dm fs' more, filter_signal_step inner_of (fs, pend) d = Some (fs', pend ++ more)
      /\ vd_rel (fun k f => fs_value f = k /\ fok f) d dm /\ apply_to_vec dm fs = Some fs'
      /\ (move_ok fs d -> applies (vis fs) more = Some (vis fs')).
  Proof.
    intros HF Hk. assert (Hi := Hk). apply apply_inv in Hi.
    assert (Hone : forall e (a b : list K), apply_to_vec e a = Some b -> applies a [e] = Some b)
      by (intros e a b He; cbn [apply_all]; rewrite He; reflexivity).
    destruct d as [ks|i k|i k|i|o n|k| |]; cbn [filter_signal_step].
    - destruct (fs_new_all_ok ks) as (fs' & E & HF' & Ho). rewrite E. exists (Replace fs'), fs', [Replace (vis fs')].
      split; [reflexivity|]. split; [|split; reflexivity]. cbn [vd_rel]. rewrite <- Ho. clear - HF'.
      induction HF'; constructor; auto.
    - destruct (fs_new_ok k) as (f & E & Hf & Ho & _). rewrite E.
      destruct Hi as (l1 & l2 & Hl & -> & <-). apply map_eq_app in Hl. destruct Hl as (a & b & -> & <- & <-).
      rewrite map_length. rewrite vinsert_app by reflexivity.
      destruct (fs_exists f) eqn:Ef.
      + rewrite fs_find_app by reflexivity. eexists (InsertAt _ f), _, [_]. split; [reflexivity|]. split; [split; [reflexivity|auto]|]. split; [apply apply_insert_app; reflexivity|].
        intros _. rewrite !vis_app, vis_cons, Ef, Ho. apply Hone. apply apply_insert_app. reflexivity.
      + eexists (InsertAt _ f), _, []. rewrite app_nil_r. split; [reflexivity|]. split; [split; [reflexivity|auto]|]. split; [apply apply_insert_app; reflexivity|].
        intros _. rewrite !vis_app, vis_cons, Ef. reflexivity.
    - destruct (fs_new_ok k) as (f & E & Hf & Ho & _). rewrite E.
      destruct Hi as (l1 & y & l2 & Hl & -> & <-). apply map_mid in Hl. destruct Hl as (a & g & b & -> & <- & <- & <-).
      rewrite map_length. rewrite nth_error_app2, Nat.sub_diag by apply le_n. cbn [nth_error].
      rewrite vset_app by reflexivity.
      destruct (fs_exists f) eqn:Ef; destruct (fs_exists g) eqn:Eg; rewrite ?fs_find_app by reflexivity.
      + eexists (UpdateAt _ f), _, [_]. split; [reflexivity|]. split; [split; [reflexivity|auto]|]. split; [apply apply_update_app; reflexivity|].
        intros _. rewrite !vis_app, !vis_cons, Ef, Eg, Ho. apply Hone. apply apply_update_app. reflexivity.
      + eexists (UpdateAt _ f), _, [_]. split; [reflexivity|]. split; [split; [reflexivity|auto]|]. split; [apply apply_update_app; reflexivity|].
        intros _. rewrite !vis_app, !vis_cons, Ef, Eg, Ho. apply Hone. apply apply_insert_app. reflexivity.
      + eexists (UpdateAt _ f), _, [_]. split; [reflexivity|]. split; [split; [reflexivity|auto]|]. split; [apply apply_update_app; reflexivity|].
        intros _. rewrite !vis_app, !vis_cons, Ef, Eg. apply Hone. apply apply_remove_app. reflexivity.
      + eexists (UpdateAt _ f), _, []. rewrite app_nil_r. split; [reflexivity|]. split; [split; [reflexivity|auto]|]. split; [apply apply_update_app; reflexivity|].
        intros _. rewrite !vis_app, !vis_cons, Ef, Eg. reflexivity.
    - destruct Hi as (l1 & y & l2 & Hl & -> & <-). apply map_mid in Hl. destruct Hl as (a & g & b & -> & <- & <- & <-).
      rewrite map_length. rewrite vremove_app by reflexivity.
      destruct (fs_exists g) eqn:Eg; rewrite ?fs_find_app by reflexivity.
      + eexists (RemoveAt _), _, [_]. split; [reflexivity|]. split; [reflexivity|]. split; [apply apply_remove_app; reflexivity|].
        intros _. rewrite !vis_app, !vis_cons, Eg. apply Hone. apply apply_remove_app. reflexivity.
      + eexists (RemoveAt _), _, []. rewrite app_nil_r. split; [reflexivity|]. split; [reflexivity|]. split; [apply apply_remove_app; reflexivity|].
        intros _. rewrite !vis_app, !vis_cons, Eg. reflexivity.
    - destruct Hi as (l1 & y & l2 & m1 & m2 & Hl & Ho & Hm & -> & Hn).
      apply map_mid in Hl. destruct Hl as (a & g & b & -> & <- & <- & <-).
      rewrite <- map_app in Hm. apply map_eq_app in Hm. destruct Hm as (c & e & Hce & <- & <-).
      rewrite map_length in Ho, Hn. subst o n.
      rewrite vremove_app by reflexivity. rewrite Hce, vinsert_app by reflexivity.
      assert (Hmove : apply_to_vec (Move (length a) (length c)) (a ++ g :: b) = Some (c ++ g :: e)).
      { cbn [apply_to_vec]. rewrite vremove_app by reflexivity. rewrite Hce. apply vinsert_app. reflexivity. }
      destruct (fs_exists g) eqn:Eg.
      2:{ eexists (Move _ _), _, []. rewrite app_nil_r. split; [reflexivity|]. split; [split; reflexivity|]. split; [exact Hmove|].
          intros _. rewrite !vis_app, !vis_cons, Eg. simpl. rewrite <- !vis_app, Hce. reflexivity. }
      rewrite (fs_find_app c (g :: e) (length c)) by reflexivity.
      destruct (fs_find_some (c ++ g :: e) (length a)) as (j & Ej).
      { apply (f_equal (@length _)) in Hce. rewrite !app_length in *. simpl. lia. }
      rewrite Ej. eexists (Move _ _), _, [_]. split; [reflexivity|]. split; [split; reflexivity|]. split; [exact Hmove|].
      intros Hmo. apply Hone. rewrite !vis_app, !vis_cons, Eg.
      assert (Hj : j = length (vis a)).
      { destruct (Nat.lt_ge_cases (length c) (length a)) as [Hlt|Hge].
        - (* backward: a = c ++ u ++ [w], e = u ++ w :: b *)
          destruct (app_eq_cases _ _ _ _ Hce) as [(u & -> & Hu)|(u & -> & Hu)].
          { rewrite app_length in Hlt. lia. }
          destruct (exists_last (l := u)) as (u' & w & ->).
          { intros ->. rewrite app_nil_r in Hlt. lia. }
          assert (Hw : fs_exists w = true).
          { apply (Hmo (length (c ++ u' ++ [w])) (length c) g w eq_refl Hlt).
            - rewrite nth_error_app2, Nat.sub_diag by apply le_n. reflexivity.
            - rewrite !app_length. cbn [length].
              replace (length c + (length u' + 1) - 1) with (length (c ++ u')) by (rewrite app_length; lia).
              rewrite !app_assoc, <- (app_assoc _ [w]), nth_error_app2, Nat.sub_diag by apply le_n. reflexivity.
            - exact Eg. }
          subst e. rewrite <- !app_assoc in Ej. cbn [app] in Ej.
          replace (c ++ g :: u' ++ w :: b) with ((c ++ g :: u') ++ w :: b) in Ej by (rewrite <- app_assoc; reflexivity).
          rewrite fs_find_app in Ej by (rewrite !app_length; simpl; lia).
          injection Ej as <-. rewrite !vis_app, !vis_cons, Eg, Hw, !app_length. simpl. rewrite ?app_length. simpl. lia.
        - destruct (app_eq_cases _ _ _ _ Hce) as [(u & -> & Hu)|(u & -> & Hu)].
          + rewrite <- app_assoc in Ej. rewrite fs_find_app in Ej by reflexivity. congruence.
          + rewrite app_length in Hge. destruct u; [|simpl in Hge; lia]. rewrite app_nil_r in *.
            rewrite fs_find_app in Ej by reflexivity. congruence. }
      subst j. cbn [apply_to_vec app]. rewrite vremove_app by reflexivity.
      replace (vis a ++ vis b) with (vis c ++ vis e) by (rewrite <- !vis_app, Hce; reflexivity).
      apply vinsert_app. reflexivity.
    - destruct (fs_new_ok k) as (f & E & Hf & Ho & _). rewrite E. subst ks'.
      destruct (fs_exists f) eqn:Ef.
      + eexists (Push f), _, [_]. split; [reflexivity|]. split; [split; assumption|]. split; [reflexivity|].
        intros _. rewrite !vis_app, vis_cons, Ef, Ho. reflexivity.
      + eexists (Push f), _, []. rewrite app_nil_r. split; [reflexivity|]. split; [split; assumption|]. split; [reflexivity|].
        intros _. rewrite !vis_app, vis_cons, Ef. simpl. rewrite app_nil_r. reflexivity.
    - destruct Hi as (x & Hl). apply map_mid in Hl. destruct Hl as (a & g & b & -> & <- & <- & Hb).
      destruct b; [|discriminate]. rewrite vpop_app.
      destruct (fs_exists g) eqn:Eg.
      + eexists Pop, _, [_]. split; [reflexivity|]. split; [exact I|]. split; [apply apply_pop_app|].
        intros _. rewrite !vis_app, vis_cons, Eg. apply Hone. apply apply_pop_app.
      + eexists Pop, _, []. rewrite app_nil_r. split; [reflexivity|]. split; [exact I|]. split; [apply apply_pop_app|].
        intros _. rewrite !vis_app, vis_cons, Eg. simpl. rewrite app_nil_r. reflexivity.
    - subst ks'. exists Clear, [], [Clear]. split; [reflexivity|]. split; [exact I|]. split; reflexivity.
  Qed.

  (** A state after the loop over its signal. *)
  Lemma drain_bool f : fok f -> exists new sl done,
    drain_slot (fun _ exists_ => Some exists_) (fs_exists f) (fs_signal f) = Some (new, sl, done)
    /\ fok (mkFsig sl (fs_value f) new) /\ (done = true <-> ended (snd sl)) /\ listening (fsrc f) (snd sl).
  Proof.
    intros (Hok & Hpl & Hla).
    destruct (drain_slot_inv (fun _ exists_ => Some exists_) (fun _ : list bool => True) (fun _ _ _ => I)
      (fun e ds => hd_error (rev ds) = Some e)) with (x := fs_exists f) (sl := fs_signal f)
      as (new & sl & done & E & HJ & _).
    - intros x ds d _ _. exists d. split; [reflexivity|]. rewrite rev_app_distr. reflexivity.
    - unfold latest, latest_of in Hla. unfold delivered. destruct (rev (yielded (past (fsrc f)))); [discriminate|exact Hla].
    - exact I.
    - exists new, sl, done. split; [exact E|].
      destruct (drain_slot_ok _ _ _ _ _ _ Hok E) as (Hok' & Hf & _).
      split; [|split].
      + split; [exact Hok'|]. split; [exact (drain_slot_plays _ _ _ _ _ _ _ Hpl E)|].
        unfold latest, latest_of. unfold delivered in HJ. cbn [fs_signal fs_exists].
        destruct (rev (yielded (past (snd sl)))); [discriminate|exact HJ].
      + destruct Hok' as [_ Hok']. rewrite <- Hok', Hf. destruct done; split; intros H; try reflexivity; discriminate.
      + exact (drain_listening _ _ _ _ _ _ Hok E).
  Qed.

  Lemma poll_filters_ok fs : forall idx pend, Forall fok fs ->
    exists fs' more has, poll_filters idx pend fs = Some (fs', pend ++ more, has)
      /\ Forall fok fs' /\ map fs_value fs' = map fs_value fs
      /\ (forall P, length P = idx -> applies (P ++ vis fs) more = Some (P ++ vis fs'))
      /\ (has = false <-> Forall (fun f => ended (fsrc f)) fs')
      /\ Forall2 (fun f f' => listening (fsrc f) (fsrc f')) fs fs'.
  Proof.
    induction fs as [|f fs IH]; intros idx pend HF.
    - exists [], [], false. rewrite app_nil_r. split; [reflexivity|]. split; [constructor|]. split; [reflexivity|].
      split; [reflexivity|]. split; [|constructor]. split; [constructor|reflexivity].
    - inversion HF as [|? ? Hf HF']; subst. cbn [poll_filters].
      destruct (drain_bool f Hf) as (new & sl & done & E & Hf' & Hd & Hl). rewrite E.
      set (d1 := if Bool.eqb new (fs_exists f) then [] else if new then [InsertAt idx (fs_value f)] else [RemoveAt idx]).
      replace (if Bool.eqb new (fs_exists f) then pend else if new then pend ++ [InsertAt idx (fs_value f)] else pend ++ [RemoveAt idx])
        with (pend ++ d1) by (unfold d1; destruct (Bool.eqb new (fs_exists f)), new; rewrite ?app_nil_r; reflexivity).
      destruct (IH (if new then idx + 1 else idx) (pend ++ d1) HF') as (fs' & more & has & E2 & HF2 & Ho2 & Ha2 & Hh2 & Hl2).
      rewrite E2. exists (mkFsig sl (fs_value f) new :: fs'), (d1 ++ more), (negb done || has).
      split; [rewrite app_assoc; reflexivity|]. split; [constructor; assumption|].
      split; [simpl; rewrite Ho2; reflexivity|]. split; [|split].
      + intros P HP. rewrite !vis_cons. cbn [fs_exists fs_value].
        assert (H1 : applies (P ++ (if fs_exists f then [fs_value f] else []) ++ vis fs) d1
                     = Some ((P ++ if new then [fs_value f] else []) ++ vis fs)).
        { unfold d1. destruct new, (fs_exists f); cbn [Bool.eqb app apply_all]; rewrite ?app_nil_r, <- ?app_assoc; try reflexivity.
          - rewrite apply_insert_app by exact HP. reflexivity.
          - cbn [app]. rewrite apply_remove_app by exact HP. reflexivity. }
        rewrite (applies_app _ _ _ _ H1), Ha2; [rewrite <- app_assoc; reflexivity|].
        rewrite app_length, HP. destruct new; simpl; lia.
      + rewrite orb_false_iff, negb_false_iff, Hd, Hh2. split; [intros [A1 A2]; constructor; assumption|].
        intros A. inversion A; subst. auto.
      + constructor; assumption.
  Qed.

  (** The values that the signal of an element never changes from. *)
  Definition always (k : K) (b : bool) : Prop := forall c, In c (yielded (inner_of k)) -> c = b.
  Definition calm (ds : list (vecdiff K)) : Prop := backward_moves (fun x y => always y true \/ always x false) ds.

  Lemma calm_prefix a b : calm (a ++ b) -> calm a.
  Proof.
    intros H pre o n post l x y E. apply (H pre o n (post ++ b) l x y). rewrite E, <- app_assoc. reflexivity.
  Qed.

  Lemma fok_always f b : fok f -> always (fs_value f) b -> fs_exists f = b.
  Proof.
    intros (_ & Hpl & Hla) Ha. apply Ha. rewrite <- (plays_yields _ _ Hpl). apply in_or_app. left.
    unfold latest, latest_of in Hla. destruct (rev (yielded (past (fsrc f)))) as [|c r] eqn:E; [discriminate|].
    injection Hla as <-. apply in_rev. rewrite E. left. reflexivity.
  Qed.

  Lemma calm_move_ok ds d fs : Forall fok fs -> replay ds = Some (map fs_value fs) -> calm (ds ++ [d]) -> move_ok fs d.
  Proof.
    intros HF Hr Hc o n x y -> Hlt Hx Hy Hex.
    assert (Hfx : fok x) by (apply nth_error_In in Hx; exact (proj1 (Forall_forall _ _) HF x Hx)).
    assert (Hfy : fok y) by (apply nth_error_In in Hy; exact (proj1 (Forall_forall _ _) HF y Hy)).
    destruct (Hc ds o n [] _ (fs_value x) (fs_value y) eq_refl Hr Hlt) as [H|H].
    - apply map_nth_error. exact Hx.
    - apply map_nth_error. exact Hy.
    - exact (fok_always y true Hfy H).
    - rewrite (fok_always x false Hfx H) in Hex. discriminate.
  Qed.

  Definition fsinv (source : list (poll (option (vecdiff K)))) (st : filter_signal_state K) (outs : list (poll (option (vecdiff K)))) : Prop :=
    slot_ok (fis_signal st) /\ replay (deliverable (fis_signal st)) <> None
    /\ plays source (snd (fis_signal st))
    /\ replay (delivered (fis_signal st)) = Some (map fs_value (fis_signals st))
    /\ Forall fok (fis_signals st)
    /\ (calm (delivered (fis_signal st)) -> exists shown, replay (yielded outs) = Some shown
          /\ applies shown (fis_pending st) = Some (vis (fis_signals st)))
    /\ (last_out outs Pending \/ last_out outs (Ready None) -> fis_pending st = [])
    /\ (last_out outs (Ready None) -> ended (snd (fis_signal st)) /\ Forall (fun f => ended (fsrc f)) (fis_signals st))
    /\ (last_out outs Pending -> ~ (ended (snd (fis_signal st)) /\ Forall (fun f => ended (fsrc f)) (fis_signals st))).

  Definition filter_signal_arms (st st' : filter_signal_state K) (o : poll (option (vecdiff K))) : Prop :=
    o = Pending -> listening (snd (fis_signal st)) (snd (fis_signal st'))
      /\ exists new before, delivered (fis_signal st') = delivered (fis_signal st) ++ new
           /\ carried (fun k => fresh (inner_of k)) new (map (fun f => fsrc f) (fis_signals st)) = Some before
           /\ Forall2 listening before (map (fun f => fsrc f) (fis_signals st')).

  Lemma vd_rel_map {X Y Z} (R : Y -> Z -> Prop) (Q : X -> Z -> Prop) (g : X -> Y) d e :
    (forall x z, Q x z -> R (g x) z) -> vd_rel Q d e -> vd_rel R (fst (vd_map g d)) e.
  Proof.
    intros H. destruct d as [vs|i x|i x|i|o n|x| |]; destruct e as [ws|j y|j y|j|p q|y| |]; simpl; try tauto.
    - induction 1; constructor; auto.
    - intros [H1 H2]. auto.
    - intros [H1 H2]. auto.
    - apply H.
  Qed.

  Lemma vd_rel_forall {X Z} (Q : X -> Z -> Prop) (G : Z -> Prop) d e l l' :
    (forall x z, Q x z -> G z) -> vd_rel Q d e -> Forall G l -> apply_to_vec e l = Some l' -> Forall G l'.
  Proof.
    intros HQ Hd HF Ha.
    assert (Hu : vd_rel (fun z (_ : unit) => G z) e (fst (vd_map (fun _ => tt) e))).
    { destruct d as [vs|i x|i x|i|o n|x| |]; destruct e as [ws|j y|j y|j|p q|y| |]; simpl in *; try tauto; try (split; [reflexivity|]).
      - clear - Hd HQ. induction Hd; constructor; eauto.
      - destruct Hd. eauto.
      - destruct Hd. eauto.
      - eauto. }
    destruct (apply_rel (fun z (_ : unit) => G z) e _ l l' (map (fun _ => tt) l) Hu) as (m' & _ & Hm).
    - clear - HF. induction HF; constructor; assumption.
    - exact Ha.
    - clear - Hm. induction Hm; constructor; assumption.
  Qed.

  Lemma grew_listening (a b c : src (option bool)) : grew a b -> listening b c -> listening a c.
  Proof. intros H [He|Ha]; [left; exact He|right; exact (grew_armed _ _ _ H Ha)]. Qed.

  Lemma filter_signal_poll_ok source st outs : fsinv source st outs -> ~ In (Ready None) outs ->
    exists st' o, filter_signal_poll inner_of st = Some (st', o) /\ fsinv source st' (outs ++ [o]) /\ filter_signal_arms st st' o.
  Proof.
    intros (Hok & Hg & Hpl & Hr & HF & Hsh & Hpe & Hen & Hpn) Hno.
    unfold filter_signal_poll. destruct (fis_pending st) as [|d rest] eqn:Ep.
    2:{ eexists _, _. split; [reflexivity|]. split; [|discriminate].
      cbn [fis_signal fis_signals fis_pending].
      split; [exact Hok|]. split; [exact Hg|]. split; [exact Hpl|]. split; [exact Hr|]. split; [exact HF|].
      split; [|rewrite !last_out_snoc; split; [intros [H|H]; discriminate|]; split; discriminate].
      intros Hc. destruct (Hsh Hc) as (shown & Hs & Hap). cbn [apply_all] in Hap.
      cbn [fis_pending]. destruct (apply_to_vec d shown) as [sh'|] eqn:Ed; [|discriminate].
      exists sh'. split; [|exact Hap]. rewrite yielded_app; cbn [yielded]; rewrite replay_snoc, Hs; exact Ed. }
    destruct (drain_slot_inv (filter_signal_step inner_of) (fun ds => replay ds <> None) (@replay_prefix K)
      (fun s ds => replay ds = Some (map fs_value (fst s)) /\ Forall fok (fst s)
          /\ (calm ds -> applies (vis (fis_signals st)) (snd s) = Some (vis (fst s)))
          /\ (exists new mid, ds = delivered (fis_signal st) ++ new
                /\ carried (fun k => fresh (inner_of k)) new (map (fun f => fsrc f) (fis_signals st)) = Some mid
                /\ Forall2 (fun s f => grew s (fsrc f)) mid (fst s))))
      with (x := (fis_signals st, @nil (vecdiff K))) (sl := fis_signal st)
      as ([fs1 pend1] & sl' & done & E & (Hr1 & HF1 & Ha1 & new & mid & Hds & Hcar & Hgrew) & Hg').
    { intros [fs1 pend1] ds d (Hr1 & HF1 & Ha1 & new & mid & Hds & Hcar & Hgrew) Hgd. cbn [fst snd] in *.
      assert (Hs := replay_snoc ds d). rewrite Hr1 in Hs. rewrite Hs in Hgd.
      destruct (apply_to_vec d (map fs_value fs1)) as [ks'|] eqn:Ed; [|congruence].
      destruct (filter_signal_step_ok fs1 pend1 d ks' HF1 Ed) as (dm & fs' & more & Es & Hrel & Hdm & Hvis).
      exists (fs', pend1 ++ more). split; [exact Es|]. cbn [fst snd]. rewrite Hs.
      assert (Hk : ks' = map fs_value fs').
      { destruct (fun H => apply_rel (fun k f => fs_value f = k) d dm _ _ fs1 H (map_eq_forall2 fs_value fs1) Ed)
          as (m' & Em & HO).
        - clear - Hrel. destruct d as [vs|i x|i x|i|o n|x| |]; destruct dm as [ws|j y|j y|j|p q|y| |]; simpl in *; try tauto.
          induction Hrel as [|? ? ? ? []]; constructor; assumption.
        - rewrite Hdm in Em. injection Em as <-. exact (forall2_map_eq _ _ _ HO). }
      split; [rewrite Hk; reflexivity|].
      split; [exact (vd_rel_forall _ fok d dm fs1 fs' (fun _ _ H => proj2 H) Hrel HF1 Hdm)|].
      split.
      - intros Hc. rewrite (applies_app _ _ _ _ (Ha1 (calm_prefix _ _ Hc))). apply Hvis.
        exact (calm_move_ok ds d fs1 HF1 Hr1 Hc).
      - destruct (apply_rel (fun f s => grew s (fsrc f)) dm (fst (vd_map (fun k => fresh (inner_of k)) d)) fs1 fs' mid)
          as (mid' & Em & Hm).
        + clear - Hrel. destruct d as [vs|i x|i x|i|o n|x| |]; destruct dm as [ws|j y|j y|j|p q|y| |]; simpl in *; try tauto.
          * induction Hrel; constructor; [|assumption]. exists (past (fsrc y)). reflexivity.
          * destruct Hrel as [<- _]. split; [reflexivity|]. exists (past (fsrc y)). reflexivity.
          * destruct Hrel as [<- _]. split; [reflexivity|]. exists (past (fsrc y)). reflexivity.
          * congruence.
          * destruct Hrel as [<- <-]. auto.
          * exists (past (fsrc y)). reflexivity.
        + clear - Hgrew. induction Hgrew; constructor; assumption.
        + exact Hdm.
        + exists (new ++ [d]), mid'. split; [rewrite Hds, app_assoc; reflexivity|].
          split; [exact (carried_snoc _ _ _ _ _ _ Hcar Em)|]. clear - Hm. induction Hm; constructor; assumption. }
    { cbn [fst snd]. split; [exact Hr|]. split; [exact HF|]. split; [reflexivity|].
      exists [], (map (fun f => fsrc f) (fis_signals st)). split; [rewrite app_nil_r; reflexivity|]. split; [reflexivity|].
      clear. induction (fis_signals st); constructor; [apply grew_refl|assumption]. }
    { exact Hg. }
    rewrite E. cbn [fst snd] in *.
    destruct (drain_slot_ok _ _ _ _ _ _ Hok E) as (Hok' & Hf & _).
    assert (Hli := drain_listening _ _ _ _ _ _ Hok E).
    assert (Hpl' := drain_slot_plays _ _ _ _ _ _ _ Hpl E).
    assert (Hends : ended (snd sl') <-> done = true).
    { destruct Hok' as [_ Hok']. rewrite <- Hok', Hf. destruct done; split; intros H; try reflexivity; discriminate. }
    destruct (poll_filters_ok fs1 0 pend1 HF1) as (fs2 & more & has & E2 & HF2 & Ho2 & Ha2 & Hh2 & Hl2).
    rewrite E2.
    assert (Hcalm : calm (delivered sl') -> exists shown, replay (yielded outs) = Some shown
      /\ applies shown (pend1 ++ more) = Some (vis fs2)).
    { intros Hc. assert (Hc0 : calm (delivered (fis_signal st))) by (rewrite Hds in Hc; exact (calm_prefix _ _ Hc)).
      destruct (Hsh Hc0) as (shown & Hs & Hap). cbn [apply_all] in Hap. injection Hap as ->.
      exists (vis (fis_signals st)). split; [exact Hs|]. rewrite (applies_app _ _ _ _ (Ha1 Hc)). exact (Ha2 [] eq_refl). }
    destruct (pend1 ++ more) as [|first rest].
    - assert (Hgen : forall o, (o = Pending \/ o = Ready None) ->
        (o = Ready None <-> ended (snd sl') /\ Forall (fun f => ended (fsrc f)) fs2) ->
        fsinv source (mkFilSig sl' fs2 []) (outs ++ [o]) /\ filter_signal_arms st (mkFilSig sl' fs2 []) o).
      { intros o Ho Hiff. split.
        - unfold fsinv. cbn [fis_signal fis_signals fis_pending].
          split; [exact Hok'|]. split; [exact Hg'|]. split; [exact Hpl'|]. split; [rewrite Ho2; exact Hr1|]. split; [exact HF2|].
          split; [rewrite yielded_app; destruct Ho as [-> | ->]; cbn [yielded]; rewrite app_nil_r; exact Hcalm|].
          rewrite !last_out_snoc. split; [reflexivity|]. split; [apply Hiff|].
          intros -> Hc. apply Hiff in Hc. discriminate.
        - intros ->. cbn [fis_signal fis_signals]. split; [exact Hli|]. exists new, mid.
          split; [exact Hds|]. split; [exact Hcar|]. clear - Hgrew Hl2. revert fs2 Hl2.
          induction Hgrew as [|s f mid fs Hs _ IH]; intros fs2 Hl2; inversion Hl2; subst; constructor.
          + exact (grew_listening _ _ _ Hs H1).
          + apply IH. assumption. }
      destruct (done && negb has) eqn:Edn.
      + exists (mkFilSig sl' fs2 []), (Ready None). split; [reflexivity|]. apply Hgen; [auto|].
        apply andb_true_iff in Edn. destruct Edn as [-> Hh]. apply negb_true_iff in Hh.
        split; [|reflexivity]. intros _. split; [apply Hends; reflexivity|apply Hh2; exact Hh].
      + exists (mkFilSig sl' fs2 []), Pending. split; [reflexivity|]. apply Hgen; [auto|].
        split; [discriminate|]. intros [H1 H2]. exfalso. apply Hends in H1. apply Hh2 in H2. rewrite H1, H2 in Edn. discriminate.
    - eexists _, _. split; [reflexivity|]. split; [|discriminate].
      unfold fsinv. cbn [fis_signal fis_signals fis_pending].
      split; [exact Hok'|]. split; [exact Hg'|]. split; [exact Hpl'|]. split; [rewrite Ho2; exact Hr1|]. split; [exact HF2|].
      split; [|rewrite !last_out_snoc; split; [intros [H|H]; discriminate|]; split; discriminate].
      intros Hc. destruct (Hcalm Hc) as (shown & Hs & Hap). cbn [apply_all] in Hap.
      destruct (apply_to_vec first shown) as [sh'|] eqn:Ed; [|discriminate].
      exists sh'. split; [|exact Hap]. rewrite yielded_app; cbn [yielded]; rewrite replay_snoc, Hs; exact Ed.
  Qed.

  Lemma filter_signal_run source : good_vec_script source -> forall n, exists st outs,
    run (filter_signal_poll inner_of) n (filter_signal_init source) = Some (st, outs) /\ fsinv source st outs
    /\ (~ In (Ready None) outs -> forall st' o, filter_signal_poll inner_of st = Some (st', o) -> filter_signal_arms st st' o).
  Proof.
    intros Hg. apply (run_then (filter_signal_poll inner_of) (fsinv source) filter_signal_arms (filter_signal_init source)).
    - cbn. split; [apply slot_ok_fresh|]. split; [exact Hg|]. split; [apply plays_fresh|]. split; [reflexivity|]. split; [constructor|].
      split; [intros _; exists []; split; reflexivity|]. split; [reflexivity|].
      split; intros H; exfalso; exact (last_out_nil _ H).
    - exact (filter_signal_poll_ok source).
  Qed.
End FilterSignal.

(** ** As stated in PropsElemSignal.v *)
Lemma map_signal_mirror {K B} (inner_of : K -> list (poll (option B))) source :
  (forall k, has_initial (inner_of k)) -> good_vec_script source -> forall n, exists st outs vs shown,
    run (map_signal_poll inner_of) n (map_signal_init source) = Some (st, outs)
    /\ conveyed (snd (mas_signal st)) = Some (map ms_origin (mas_signals st))
    /\ Forall2 (fun m v => plays (inner_of (ms_origin m)) (snd (ms_signal m)) /\ latest (snd (ms_signal m)) = Some v)
               (mas_signals st) vs
    /\ replay (yielded outs) = Some shown
    /\ (last_out outs Pending \/ last_out outs (Ready None) -> shown = vs)
    /\ apply_all apply_to_vec shown (mas_pending st) = Some vs.
Proof.
  intros Hi Hg n. destruct (map_signal_run inner_of Hi source Hg n)
    as (st & outs & Hr & (vs & shown & Hok & Hgd & Hk & HF & Hsh & Hap & Hpe & _) & _).
  exists st, outs, vs, shown. split; [exact Hr|]. split; [exact Hk|].
  split; [exact (forall2_flat _ _ _ _ (fun m v H => proj2 H) HF)|]. split; [exact Hsh|]. split; [|exact Hap].
  intros Hl. rewrite (Hpe Hl) in Hap. injection Hap as ->. reflexivity.
Qed.

Lemma map_signal_ends {K B} (inner_of : K -> list (poll (option B))) source :
  (forall k, has_initial (inner_of k)) -> good_vec_script source -> forall n st outs,
    run (map_signal_poll inner_of) n (map_signal_init source) = Some (st, outs) ->
    obeys_end (past (snd (mas_signal st)))
    /\ Forall (fun m => obeys_end (past (snd (ms_signal m)))) (mas_signals st)
    /\ (last_out outs (Ready None) ->
          ended (snd (mas_signal st)) /\ Forall (fun m => ended (snd (ms_signal m))) (mas_signals st))
    /\ (last_out outs Pending ->
          ~ (ended (snd (mas_signal st)) /\ Forall (fun m => ended (snd (ms_signal m))) (mas_signals st))).
Proof.
  intros Hi Hg n st outs H. destruct (map_signal_run inner_of Hi source Hg n)
    as (st1 & outs1 & Hr & (vs & shown & Hok & Hgd & Hk & HF & Hsh & Hap & Hpe & Hen & Hpn) & _).
  rewrite H in Hr. injection Hr as <- <-. split; [apply Hok|]. split; [|split; [exact Hen|exact Hpn]].
  clear - HF. induction HF as [|m v ms vs Hm _ IH]; constructor; [|exact IH]. apply Hm.
Qed.

Lemma map_signal_wakes {K B} (inner_of : K -> list (poll (option B))) source :
  (forall k, has_initial (inner_of k)) -> good_vec_script source -> forall n st outs st',
    run (map_signal_poll inner_of) n (map_signal_init source) = Some (st, outs) -> ~ In (Ready None) outs ->
    map_signal_poll inner_of st = Some (st', Pending) ->
    listening (snd (mas_signal st)) (snd (mas_signal st'))
    /\ Forall2 (fun m m' => listening (snd (ms_signal m)) (snd (ms_signal m'))) (mas_signals st) (mas_signals st').
Proof.
  intros Hi Hg n st outs st' H Hno Hp. destruct (map_signal_run inner_of Hi source Hg n) as (st1 & outs1 & Hr & _ & HT).
  rewrite H in Hr. injection Hr as <- <-. exact (HT Hno st' Pending Hp eq_refl).
Qed.

Lemma filter_ext_forall {X} (f g : X -> bool) l : Forall (fun x => f x = g x) l -> filter f l = filter g l.
Proof. induction 1 as [|x l H _ IH]; [reflexivity|]. simpl. rewrite H, IH. reflexivity. Qed.

Lemma filter_signal_mirror {K} (inner_of : K -> list (poll (option bool))) source :
  (forall k, has_initial (inner_of k)) -> good_vec_script source ->
  backward_moves (fun x y => (forall b, In b (yielded (inner_of y)) -> b = true)
                             \/ (forall b, In b (yielded (inner_of x)) -> b = false)) (yielded source) ->
  forall n, exists st outs shown,
    run (filter_signal_poll inner_of) n (filter_signal_init source) = Some (st, outs)
    /\ conveyed (snd (fis_signal st)) = Some (map fs_value (fis_signals st))
    /\ Forall (fun f => plays (inner_of (fs_value f)) (snd (fs_signal f)) /\ latest (snd (fs_signal f)) <> None) (fis_signals st)
    /\ replay (yielded outs) = Some shown
    /\ let current := map fs_value (filter (fun f => match latest (snd (fs_signal f)) with Some b => b | None => false end)
                                           (fis_signals st)) in
       (last_out outs Pending \/ last_out outs (Ready None) -> shown = current)
       /\ apply_all apply_to_vec shown (fis_pending st) = Some current.
Proof.
  intros Hi Hg Hm n. destruct (filter_signal_run inner_of Hi source Hg n)
    as (st & outs & Hr & (Hok & Hgd & Hpl & Hk & HF & Hsh & Hpe & _) & _).
  destruct Hsh as (shown & Hs & Hap).
  { apply plays_yields in Hpl. apply (calm_prefix inner_of _ (yielded (todo (snd (fis_signal st))))).
    unfold delivered. rewrite Hpl. exact Hm. }
  exists st, outs, shown. split; [exact Hr|]. split; [exact Hk|]. split; [|split; [exact Hs|]].
  - clear - HF. induction HF as [|f fs (_ & H1 & H2) _ IH]; constructor; [|exact IH]. split; [exact H1|congruence].
  - cbv zeta. replace (filter _ (fis_signals st)) with (filter fs_exists (fis_signals st)).
    + split; [|exact Hap]. intros Hl. rewrite (Hpe Hl) in Hap. injection Hap as ->. reflexivity.
    + apply filter_ext_forall. clear - HF. induction HF as [|f fs (_ & _ & H) _ IH]; constructor; [|exact IH].
      rewrite H. reflexivity.
Qed.

Lemma filter_signal_ends {K} (inner_of : K -> list (poll (option bool))) source :
  (forall k, has_initial (inner_of k)) -> good_vec_script source -> forall n, exists st outs,
    run (filter_signal_poll inner_of) n (filter_signal_init source) = Some (st, outs)
    /\ conveyed (snd (fis_signal st)) = Some (map fs_value (fis_signals st))
    /\ obeys_end (past (snd (fis_signal st)))
    /\ Forall (fun f => obeys_end (past (snd (fs_signal f)))) (fis_signals st)
    /\ (last_out outs (Ready None) ->
          ended (snd (fis_signal st)) /\ Forall (fun f => ended (snd (fs_signal f))) (fis_signals st))
    /\ (last_out outs Pending ->
          ~ (ended (snd (fis_signal st)) /\ Forall (fun f => ended (snd (fs_signal f))) (fis_signals st))).
Proof.
  intros Hi Hg n. destruct (filter_signal_run inner_of Hi source Hg n)
    as (st & outs & Hr & (Hok & Hgd & Hpl & Hk & HF & Hsh & Hpe & Hen & Hpn) & _).
  exists st, outs. split; [exact Hr|]. split; [exact Hk|]. split; [apply Hok|]. split; [|split; [exact Hen|exact Hpn]].
  clear - HF. induction HF as [|f fs Hf _ IH]; constructor; [|exact IH]. apply Hf.
Qed.

Lemma filter_signal_wakes {K} (inner_of : K -> list (poll (option bool))) source :
  (forall k, has_initial (inner_of k)) -> good_vec_script source -> forall n st outs st',
    run (filter_signal_poll inner_of) n (filter_signal_init source) = Some (st, outs) -> ~ In (Ready None) outs ->
    filter_signal_poll inner_of st = Some (st', Pending) ->
    listening (snd (fis_signal st)) (snd (fis_signal st'))
    /\ exists new before, yielded (past (snd (fis_signal st'))) = yielded (past (snd (fis_signal st))) ++ new
         /\ carried (fun k => fresh (inner_of k)) new (map (fun f => snd (fs_signal f)) (fis_signals st)) = Some before
         /\ Forall2 listening before (map (fun f => snd (fs_signal f)) (fis_signals st')).
Proof.
  intros Hi Hg n st outs st' H Hno Hp. destruct (filter_signal_run inner_of Hi source Hg n) as (st1 & outs1 & Hr & _ & HT).
  rewrite H in Hr. injection Hr as <- <-. exact (HT Hno st' Pending Hp eq_refl).
Qed.
