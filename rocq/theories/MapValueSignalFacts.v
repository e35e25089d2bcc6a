(** Proofs for MapValueSignal. *)
From Verif Require Import Base Spec BaseFacts VecDiff LoopFacts Slot SlotFacts VecSlotFacts
  WakeFacts Flatten FlattenFacts ElemSignal ElemSignalFacts MapDiff MapSpec MapFacts MapComb MapCombFacts.

Section MapValueSignal.
  Context {K V B : Type} (cmp : K -> K -> comparison) (TO : total_order cmp).
  Context (inner_of : V -> list (poll (option B))).
  Hypothesis inner_good : forall v, has_initial (inner_of v).
  Notation applies := (@apply_all (mapdiff K B) (list (K * B)) (apply_to_map cmp)).
  Notation msrc m := (snd (ms_signal m)).
  Notation kok := (mrel (K := K) (mok inner_of)).
  Notation origin_is := (fun v (m : msig V B) => ms_origin m = v).
  Notation alive e := (ended (msrc (snd e))).

  Definition origins (l : list (K * msig V B)) : list (K * V) := map (fun '(k, m) => (k, ms_origin m)) l.

  Lemma origins_rel l : Forall2 (mrel origin_is) (origins l) l.
  Proof. induction l as [|[k m] l IH]; constructor; [split; reflexivity|exact IH]. Qed.
  Lemma rel_origins l o : Forall2 (mrel origin_is) o l -> o = origins l.
  Proof. induction 1 as [|[k1 v] [k2 m] o l [E H] _ IH]; [reflexivity|]. cbn [fst snd] in *. subst. reflexivity. Qed.

  Lemma mvs_replace_ok es : forall acc, exists news polls,
    mvs_replace cmp inner_of acc es = Some (fold_left (fun m '(k, v) => bt_insert cmp k v m) news acc, polls)
    /\ Forall2 (mrel origin_is) es news /\ Forall2 kok news polls.
  Proof.
    induction es as [|[k v] es IH]; intros acc.
    - exists [], []. split; [reflexivity|]. split; constructor.
    - destruct (ms_new_ok inner_of inner_good v) as (m & b & Em & Hm & Ho). cbn [mvs_replace]. rewrite Em.
      destruct (IH (bt_insert cmp k m acc)) as (news & polls & E & H1 & H2). rewrite E.
      exists ((k, m) :: news), ((k, b) :: polls). split; [reflexivity|].
      split; constructor; try assumption; split; auto.
  Qed.

  Lemma mvs_step_ok ms vs start pend d ks' : Forall2 kok ms vs -> applies start pend = Some vs ->
    apply_to_map cmp d (origins ms) = Some ks' ->
    exists ms' vs' e, mvs_step cmp inner_of (ms, pend) d = Some (ms', pend ++ [e])
      /\ Forall2 kok ms' vs' /\ applies start (pend ++ [e]) = Some vs' /\ origins ms' = ks'.
  Proof.
    intros HF Hap Hk.
    assert (Hgen : forall (dm : mapdiff K (msig V B)) e, md_rel origin_is d dm -> md_rel (mok inner_of) dm e ->
      exists ms' vs', apply_to_map cmp dm ms = Some ms' /\ Forall2 kok ms' vs' /\ applies start (pend ++ [e]) = Some vs'
        /\ origins ms' = ks').
    { intros dm e H1 H2.
      destruct (mapply_rel cmp _ d dm _ _ ms H1 (origins_rel ms) Hk) as (ms' & E1 & HO).
      destruct (mapply_rel cmp _ dm e _ _ vs H2 HF E1) as (vs' & E2 & HF').
      exists ms', vs'. split; [exact E1|]. split; [exact HF'|].
      split; [rewrite apply_all_app, Hap; cbn [apply_all]; rewrite E2; reflexivity|].
      symmetry. exact (rel_origins _ _ HO). }
    destruct d as [es|k v|k v|k|]; cbn [mvs_step].
    - destruct (mvs_replace_ok es []) as (news & polls & E & H1 & H2). rewrite E.
      destruct (Hgen (MReplace news) (MReplace polls) H1 H2) as (ms' & vs' & E1 & G1 & G2 & G3).
      injection E1 as <-. eexists _, vs', (MReplace polls). split; [reflexivity|]. auto.
    - destruct (ms_new_ok inner_of inner_good v) as (m & b & E & Hm & Ho). rewrite E.
      destruct (Hgen (MInsert k m) (MInsert k b) (conj eq_refl Ho) (conj eq_refl Hm)) as (ms' & vs' & E1 & G1 & G2 & G3).
      cbn [apply_to_map] in E1. destruct (bt_get cmp k ms); [discriminate|]. injection E1 as ->.
      exists ms', vs', (MInsert k b). auto.
    - destruct (ms_new_ok inner_of inner_good v) as (m & b & E & Hm & Ho). rewrite E.
      destruct (Hgen (MUpdate k m) (MUpdate k b) (conj eq_refl Ho) (conj eq_refl Hm)) as (ms' & vs' & E1 & G1 & G2 & G3).
      cbn [apply_to_map] in E1. destruct (bt_get cmp k ms); [|discriminate]. injection E1 as ->.
      exists ms', vs', (MUpdate k b). auto.
    - destruct (Hgen (MRemove k) (MRemove k) eq_refl eq_refl) as (ms' & vs' & E1 & G1 & G2 & G3).
      cbn [apply_to_map] in E1. destruct (bt_get cmp k ms); [|discriminate]. injection E1 as ->.
      exists ms', vs', (MRemove k). auto.
    - destruct (Hgen MClear MClear I I) as (ms' & vs' & E1 & G1 & G2 & G3).
      injection E1 as <-. exists [], vs', MClear. auto.
  Qed.

  Lemma mvs_poll_signals_ok start ms : forall vs P pend,
    Forall2 kok ms vs -> is_map cmp (P ++ vs) -> applies start pend = Some (P ++ vs) ->
    exists ms' vs' more has, mvs_poll_signals pend ms = (ms', pend ++ more, has)
      /\ Forall2 kok ms' vs' /\ origins ms' = origins ms
      /\ applies start (pend ++ more) = Some (P ++ vs')
      /\ (has = false -> more = [] -> Forall (fun e => alive e) ms')
      /\ (has = true -> ~ Forall (fun e => alive e) ms')
      /\ (more = [] -> Forall2 (fun e e' => listening (msrc (snd e)) (msrc (snd e'))) ms ms').
  Proof.
    induction ms as [|[k m] ms IH]; intros vs P pend HF Hmap Ha.
    - inversion HF; subst. exists [], [], [], false. rewrite app_nil_r. split; [reflexivity|]. split; [constructor|].
      split; [reflexivity|]. split; [exact Ha|]. split; [constructor|]. split; [discriminate|constructor].
    - inversion HF as [|? [k2 v] ? vs0 [Ek Hm] HF']; subst. cbn [fst snd] in Ek, Hm. subst k2. cbn [mvs_poll_signals].
      assert (H1 : exists m' v' d1 h1, match poll_slot (ms_signal m) with
          | (Some (Ready (Some value)), sl) => (mkMsig (ms_origin m) sl, pend ++ [MUpdate k value], false)
          | (Some (Ready None), sl) => (mkMsig (ms_origin m) (drop_slot sl), pend, false)
          | (Some Pending, sl) => (mkMsig (ms_origin m) sl, pend, true)
          | (None, sl) => (mkMsig (ms_origin m) sl, pend, false)
          end = (m', pend ++ d1, h1) /\ mok inner_of m' v' /\ ms_origin m' = ms_origin m
          /\ applies start (pend ++ d1) = Some ((P ++ [(k, v')]) ++ vs0)
          /\ (h1 = false -> d1 = [] -> ended (msrc m')) /\ (h1 = true -> ~ ended (msrc m'))
          /\ (d1 = [] -> listening (msrc m) (msrc m'))).
      { clear IH. destruct Hm as (Hok & Hpl & Hla). assert (Hp := poll_slot_ok _ Hok).
        assert (Hpl' := poll_slot_plays _ _ Hpl).
        assert (Ha' : applies start pend = Some ((P ++ [(k, v)]) ++ vs0)) by (rewrite <- app_assoc; exact Ha).
        destruct (poll_slot (ms_signal m)) as [[[|[b|]]|] sl]; cbn [snd] in Hpl'.
        - destruct Hp as (_ & Hok' & _ & Hpast). exists (mkMsig (ms_origin m) sl), v, [], true. rewrite app_nil_r.
          split; [reflexivity|].
          split; [split; [exact Hok'|]; split; [exact Hpl'|]; unfold latest in *; cbn [ms_signal]; rewrite Hpast, latest_of_pending; exact Hla|].
          split; [reflexivity|]. split; [exact Ha'|]. split; [discriminate|].
          split; [|intros _; right; exists []; exact Hpast].
          intros _ He. cbn [ms_signal] in He. destruct Hok' as [Hoe _]. unfold ended in He. apply in_split in He.
          destruct He as (x & y & He). assert (Hy := Hoe x y He). subst y. rewrite Hpast in He.
          apply app_inj_tail in He. destruct He; discriminate.
        - destruct Hp as (_ & Hok' & Hpast). exists (mkMsig (ms_origin m) sl), b, [MUpdate k b], false.
          split; [reflexivity|].
          split; [split; [exact Hok'|]; split; [exact Hpl'|]; unfold latest in *; cbn [ms_signal]; rewrite Hpast; apply latest_of_app|].
          split; [reflexivity|].
          split.
          { rewrite apply_all_app, Ha. cbn [apply_all apply_to_map].
            destruct (mid_map cmp k v P vs0 Hmap) as (Hlt & _).
            destruct (bt_present cmp TO k v P vs0 Hlt) as (E & E1 & _). rewrite E, E1, <- app_assoc. reflexivity. }
          split; [discriminate|]. split; discriminate.
        - destruct Hp as (_ & Hok' & He & Hpast). exists (mkMsig (ms_origin m) (drop_slot sl)), v, [], false. rewrite app_nil_r.
          split; [reflexivity|].
          split; [split; [exact Hok'|]; split; [exact Hpl'|]; unfold latest in *; cbn [ms_signal drop_slot snd]; rewrite Hpast, latest_of_end; exact Hla|].
          split; [reflexivity|]. split; [exact Ha'|]. split; [intros _ _; exact He|]. split; [discriminate|].
          intros _. left. exact He.
        - destruct Hp as (-> & Hf). exists (mkMsig (ms_origin m) (ms_signal m)), v, [], false. rewrite app_nil_r.
          split; [reflexivity|]. split; [split; [exact Hok|]; split; assumption|].
          split; [reflexivity|]. split; [exact Ha'|].
          assert (He : ended (msrc m)) by (apply Hok; exact Hf).
          split; [intros _ _; exact He|]. split; [discriminate|]. intros _. left. exact He. }
      destruct H1 as (m' & v' & d1 & h1 & -> & Hm' & Ho & Ha1 & Hf1 & Ht1 & Hl1).
      assert (Hmap1 : is_map cmp ((P ++ [(k, v')]) ++ vs0)).
      { unfold is_map in *. rewrite <- app_assoc. rewrite map_app in *. exact Hmap. }
      destruct (IH vs0 (P ++ [(k, v')]) (pend ++ d1) HF' Hmap1 Ha1) as (ms' & vs' & d2 & h2 & E2 & HF2 & Ho2 & Ha2 & Hf2 & Ht2 & Hl2).
      rewrite E2.
      exists ((k, m') :: ms'), ((k, v') :: vs'), (d1 ++ d2), (h1 || h2). rewrite app_assoc. split; [reflexivity|].
      split; [constructor; [split; [reflexivity|exact Hm']|exact HF2]|]. split; [unfold origins in *; cbn [map]; rewrite Ho, Ho2; reflexivity|].
      split; [rewrite Ha2, <- app_assoc; reflexivity|].
      split; [|split].
      + intros Hh Hd. apply orb_false_iff in Hh. destruct Hh. apply app_eq_nil in Hd. destruct Hd. constructor; auto.
      + intros Hh Hall. inversion Hall; subst. apply orb_true_iff in Hh. destruct Hh as [-> | ->]; [exact (Ht1 eq_refl H1)|exact (Ht2 eq_refl H2)].
      + intros Hd. apply app_eq_nil in Hd. destruct Hd. constructor; auto.
  Qed.

  Definition mvinv (st : mvs_state K V B) (outs : list (poll (option (mapdiff K B)))) : Prop :=
    exists vs shown,
      slot_ok (mvs_signal st) /\ mreplay cmp (deliverable (mvs_signal st)) <> None
      /\ mreplay cmp (delivered (mvs_signal st)) = Some (origins (mvs_signals st))
      /\ Forall2 kok (mvs_signals st) vs
      /\ mreplay cmp (yielded outs) = Some shown
      /\ applies shown (mvs_pending st) = Some vs
      /\ (last_out outs Pending \/ last_out outs (Ready None) -> mvs_pending st = [])
      /\ (last_out outs (Ready None) -> ended (snd (mvs_signal st)) /\ Forall (fun e => alive e) (mvs_signals st))
      /\ (last_out outs Pending -> ~ (ended (snd (mvs_signal st)) /\ Forall (fun e => alive e) (mvs_signals st))).

  Definition mvs_arms (st st' : mvs_state K V B) (o : poll (option (mapdiff K B))) : Prop :=
    o = Pending -> listening (snd (mvs_signal st)) (snd (mvs_signal st'))
      /\ Forall2 (fun e e' => listening (msrc (snd e)) (msrc (snd e'))) (mvs_signals st) (mvs_signals st').

  Lemma mvs_poll_ok st outs : mvinv st outs -> ~ In (Ready None) outs ->
    exists st' o, mvs_poll cmp inner_of st = Some (st', o) /\ mvinv st' (outs ++ [o]) /\ mvs_arms st st' o.
  Proof.
    intros (vs & shown & Hok & Hg & Hr & HF & Hsh & Hap & Hpe & Hen & Hpn) Hno.
    unfold mvs_poll. destruct (mvs_pending st) as [|d rest] eqn:Ep.
    2:{ cbn [apply_all] in Hap. destruct (apply_to_map cmp d shown) as [sh'|] eqn:Ed; [|discriminate].
      eexists _, _. split; [reflexivity|]. split; [|discriminate].
      exists vs, sh'. cbn [mvs_signal mvs_signals mvs_pending].
      split; [exact Hok|]. split; [exact Hg|]. split; [exact Hr|]. split; [exact HF|].
      split; [rewrite yielded_app; cbn [yielded]; rewrite mreplay_snoc, Hsh; exact Ed|].
      split; [exact Hap|]. rewrite !last_out_snoc. split; [intros [H|H]; discriminate|]. split; discriminate. }
    cbn [apply_all] in Hap. injection Hap as ->.
    destruct (drain_slot_inv (mvs_step cmp inner_of) (fun ds => mreplay cmp ds <> None) (@mreplay_prefix K V cmp)
      (fun s ds => exists vs1, mreplay cmp ds = Some (origins (fst s)) /\ Forall2 kok (fst s) vs1
          /\ applies vs (snd s) = Some vs1 /\ (snd s = [] -> fst s = mvs_signals st)))
      with (x := (mvs_signals st, @nil (mapdiff K B))) (sl := mvs_signal st)
      as ([ms1 pend1] & sl' & done & E & (vs1 & Hr1 & HF1 & Ha1 & Hsame) & Hg').
    { intros [ms1 pend1] ds d (vs1 & Hr1 & HF1 & Ha1 & _) Hgd. cbn [fst snd] in *.
      assert (Hs := mreplay_snoc cmp ds d). rewrite Hr1 in Hs. rewrite Hs in Hgd.
      destruct (apply_to_map cmp d (origins ms1)) as [ks'|] eqn:Ed; [|congruence].
      destruct (mvs_step_ok ms1 vs1 vs pend1 d ks' HF1 Ha1 Ed) as (ms' & vs' & e & Es & H1 & H2 & H3).
      exists (ms', pend1 ++ [e]). split; [exact Es|]. exists vs'. cbn [fst snd]. rewrite Hs, H3.
      split; [reflexivity|]. split; [exact H1|]. split; [exact H2|].
      intros Hx. apply app_eq_nil in Hx. destruct Hx; discriminate. }
    { exists vs. cbn [fst snd]. auto. }
    { exact Hg. }
    rewrite E. cbn [fst snd] in *.
    destruct (drain_slot_ok _ _ _ _ _ _ Hok E) as (Hok' & Hf & _).
    assert (Hli := drain_listening _ _ _ _ _ _ Hok E).
    assert (Hends : ended (snd sl') <-> done = true).
    { destruct Hok' as [_ Hok']. rewrite <- Hok', Hf. destruct done; split; intros H; try reflexivity; discriminate. }
    assert (Hmap1 : is_map cmp vs1).
    { apply (apply_all_is_map cmp TO pend1 vs vs1); [|exact Ha1]. exact (mreplay_is_map cmp TO _ _ Hsh). }
    destruct (mvs_poll_signals_ok vs ms1 vs1 [] pend1 HF1 Hmap1 Ha1) as (ms2 & vs2 & more & has & E2 & HF2 & Ho2 & Ha2 & Hf2 & Ht2 & Hl2).
    cbn [app] in Ha2. rewrite E2.
    destruct (pend1 ++ more) as [|first rest] eqn:Epm.
    - apply app_eq_nil in Epm. destruct Epm as [-> ->]. cbn [apply_all] in Ha2. injection Ha2 as <-.
      specialize (Hsame eq_refl). subst ms1.
      assert (Hgen : forall o, (o = Pending \/ o = Ready None) ->
        (o = Ready None <-> ended (snd sl') /\ Forall (fun e => alive e) ms2) ->
        mvinv (mkMvs sl' ms2 []) (outs ++ [o]) /\ mvs_arms st (mkMvs sl' ms2 []) o).
      { intros o Ho Hiff. split.
        - exists vs, vs. cbn [mvs_signal mvs_signals mvs_pending].
          split; [exact Hok'|]. split; [exact Hg'|]. split; [rewrite Ho2; exact Hr1|]. split; [exact HF2|].
          split; [rewrite yielded_app; destruct Ho as [-> | ->]; cbn [yielded]; rewrite app_nil_r; exact Hsh|].
          split; [reflexivity|]. rewrite !last_out_snoc. split; [reflexivity|]. split; [apply Hiff|].
          intros -> Hc. apply Hiff in Hc. discriminate.
        - intros ->. cbn [mvs_signal mvs_signals]. split; [exact Hli|exact (Hl2 eq_refl)]. }
      destruct (done && negb has) eqn:Edn.
      + exists (mkMvs sl' ms2 []), (Ready None). split; [reflexivity|]. apply Hgen; [auto|].
        apply andb_true_iff in Edn. destruct Edn as [-> Hh]. apply negb_true_iff in Hh.
        split; [|reflexivity]. intros _. split; [apply Hends; reflexivity|exact (Hf2 Hh eq_refl)].
      + exists (mkMvs sl' ms2 []), Pending. split; [reflexivity|]. apply Hgen; [auto|].
        split; [discriminate|]. intros [H1 H2]. exfalso. apply Hends in H1. rewrite H1 in Edn. destruct has; [|discriminate].
        exact (Ht2 eq_refl H2).
    - eexists _, _. split; [reflexivity|]. split; [|discriminate].
      cbn [apply_all] in Ha2. destruct (apply_to_map cmp first vs) as [sh'|] eqn:Ed; [|discriminate].
      exists vs2, sh'. cbn [mvs_signal mvs_signals mvs_pending].
      split; [exact Hok'|]. split; [exact Hg'|]. split; [rewrite Ho2; exact Hr1|]. split; [exact HF2|].
      split; [rewrite yielded_app; cbn [yielded]; rewrite mreplay_snoc, Hsh; exact Ed|].
      split; [exact Ha2|]. rewrite !last_out_snoc. split; [intros [H|H]; discriminate|]. split; discriminate.
  Qed.

  Lemma mvs_run source : good_map_script cmp source -> forall n, exists st outs,
    run (mvs_poll cmp inner_of) n (mvs_init source) = Some (st, outs) /\ mvinv st outs
    /\ (~ In (Ready None) outs -> forall st' o, mvs_poll cmp inner_of st = Some (st', o) -> mvs_arms st st' o).
  Proof.
    intros Hg. apply (run_then (mvs_poll cmp inner_of) mvinv mvs_arms (mvs_init source)).
    - exists [], []. cbn. split; [apply slot_ok_fresh|]. split; [exact Hg|]. split; [reflexivity|]. split; [constructor|].
      split; [reflexivity|]. split; [reflexivity|]. split; [reflexivity|].
      split; intros H; exfalso; exact (last_out_nil _ H).
    - exact mvs_poll_ok.
  Qed.

  Lemma map_value_signal_mirror source : good_map_script cmp source -> forall n, exists st outs vs shown,
    run (mvs_poll cmp inner_of) n (mvs_init source) = Some (st, outs)
    /\ mconveyed cmp (snd (mvs_signal st)) = Some (map (fun '(k, m) => (k, ms_origin m)) (mvs_signals st))
    /\ Forall2 (fun e v => fst e = fst v /\ plays (inner_of (ms_origin (snd e))) (snd (ms_signal (snd e)))
                           /\ latest (snd (ms_signal (snd e))) = Some (snd v))
               (mvs_signals st) vs
    /\ mreplay cmp (yielded outs) = Some shown
    /\ (last_out outs Pending \/ last_out outs (Ready None) -> shown = vs)
    /\ apply_all (apply_to_map cmp) shown (mvs_pending st) = Some vs.
  Proof.
    intros Hg n. destruct (mvs_run source Hg n)
      as (st & outs & Hr & (vs & shown & Hok & Hgd & Hk & HF & Hsh & Hap & Hpe & _) & _).
    exists st, outs, vs, shown. split; [exact Hr|]. split; [exact Hk|].
    split; [clear - HF; induction HF as [|e v ms vs (E & _ & H1 & H2) _ IH]; constructor; auto|].
    split; [exact Hsh|]. split; [|exact Hap].
    intros Hl. rewrite (Hpe Hl) in Hap. injection Hap as ->. reflexivity.
  Qed.

  Lemma map_value_signal_ends source : good_map_script cmp source -> forall n st outs,
    run (mvs_poll cmp inner_of) n (mvs_init source) = Some (st, outs) ->
    obeys_end (past (snd (mvs_signal st)))
    /\ Forall (fun e => obeys_end (past (snd (ms_signal (snd e))))) (mvs_signals st)
    /\ (last_out outs (Ready None) ->
          ended (snd (mvs_signal st)) /\ Forall (fun e => ended (snd (ms_signal (snd e)))) (mvs_signals st))
    /\ (last_out outs Pending ->
          ~ (ended (snd (mvs_signal st)) /\ Forall (fun e => ended (snd (ms_signal (snd e)))) (mvs_signals st))).
  Proof.
    intros Hg n st outs H. destruct (mvs_run source Hg n)
      as (st1 & outs1 & Hr & (vs & shown & Hok & Hgd & Hk & HF & Hsh & Hap & Hpe & Hen & Hpn) & _).
    rewrite H in Hr. injection Hr as <- <-. split; [apply Hok|]. split; [|split; [exact Hen|exact Hpn]].
    clear - HF. induction HF as [|m v ms vs [_ Hm] _ IH]; constructor; [|exact IH]. apply Hm.
  Qed.

  Lemma map_value_signal_wakes source : good_map_script cmp source -> forall n st outs st',
    run (mvs_poll cmp inner_of) n (mvs_init source) = Some (st, outs) -> ~ In (Ready None) outs ->
    mvs_poll cmp inner_of st = Some (st', Pending) ->
    listening (snd (mvs_signal st)) (snd (mvs_signal st'))
    /\ Forall2 (fun e e' => listening (snd (ms_signal (snd e))) (snd (ms_signal (snd e')))) (mvs_signals st) (mvs_signals st').
  Proof.
    intros Hg n st outs st' H Hno Hp. destruct (mvs_run source Hg n) as (st1 & outs1 & Hr & _ & HT).
    rewrite H in Hr. injection Hr as <- <-. exact (HT Hno st' Pending Hp eq_refl).
  Qed.
End MapValueSignal.
