(** Proofs about switch / flatten, map_ref! / map_mut! and for_each. *)
From Verif Require Import Base Spec BaseFacts LoopFacts Slot SlotFacts Sig SigFacts SigSlots SigSlotsFacts SigFutFacts.

(** ** switch and flatten *)
Definition inners_ok {K B} (fs : futs K (option B)) : Prop :=
  Forall (fun kf => obeys_end (past (snd kf))) (made fs)
  /\ (held fs = true -> exists older kf, made fs = older ++ [kf] /\ ~ ended (snd kf))
  /\ (held fs = false -> forall older kf, made fs = older ++ [kf] -> ended (snd kf)).

Definition inner_values {K B} (fs : futs K (option B)) : list B :=
  flat_map (fun kf => yielded (past (snd kf))) (made fs).

Lemma inners_ok_none {K B} : @inners_ok K B no_futs.
Proof. split; [constructor|]. split; [discriminate|]. intros _ older kf H. destruct older; discriminate. Qed.

Lemma inners_ok_set {K B} (fs : futs K (option B)) k script : inners_ok fs -> inners_ok (set_fut fs k script).
Proof.
  intros (H1 & _ & _). unfold set_fut. split; [|split].
  - simpl. apply Forall_app. split; [exact H1|]. constructor; [apply obeys_end_nil|constructor].
  - intros _. exists (made fs), (k, fresh script). split; [reflexivity|]. simpl. intros [].
  - discriminate.
Qed.

Lemma poll_inner_ok {K B} (fs : futs K (option B)) : inners_ok fs ->
  match poll_fut fs with
  | (None, fs') => fs' = fs /\ held fs = false
  | (Some r, fs') => exists older k sr sr', made fs = older ++ [(k, sr)] /\ made fs' = older ++ [(k, sr')]
      /\ poll_src sr = (r, sr') /\ past sr' = past sr ++ [r] /\ held fs' = true
      /\ inners_ok (match r with Ready None => unset_fut fs' | _ => fs' end)
      /\ inner_values fs' = inner_values fs ++ yielded [r]
      /\ map fst (made fs') = map fst (made fs)
  end.
Proof.
  intros (Hall & Hheld & Hun). destruct (held fs) eqn:Hh.
  - destruct (Hheld eq_refl) as (older & [k sr] & Hm & Hopen). simpl in Hopen.
    rewrite (poll_fut_held fs older k sr Hh Hm).
    destruct (poll_src_cases sr) as (r & sr' & Ep & Hp & _ & _). rewrite Ep. simpl.
    rewrite Hm in Hall. apply Forall_app in Hall. destruct Hall as [Hall _].
    assert (Hoc : obeys_end (past sr')) by (rewrite Hp; apply obeys_end_snoc; exact Hopen).
    exists older, k, sr, sr'. split; [exact Hm|]. split; [reflexivity|]. split; [exact Ep|]. split; [exact Hp|].
    split; [reflexivity|]. split; [|split].
    + assert (Hall' : Forall (fun kf => obeys_end (past (snd kf))) (older ++ [(k, sr')])).
      { apply Forall_app. split; [exact Hall|]. constructor; [exact Hoc|constructor]. }
      destruct r as [|[b|]].
      * split; [exact Hall'|split; [|discriminate]]. intros _. exists older, (k, sr'). split; [reflexivity|].
        simpl. unfold ended. rewrite Hp. apply no_end_app; [exact Hopen|apply no_end_pending].
      * split; [exact Hall'|split; [|discriminate]]. intros _. exists older, (k, sr'). split; [reflexivity|].
        simpl. unfold ended. rewrite Hp. apply no_end_app; [exact Hopen|apply no_end_some].
      * split; [exact Hall'|split; [discriminate|]]. intros _ o kf E. simpl in E. apply snoc_inj in E.
        destruct E as [_ <-]. simpl. unfold ended. rewrite Hp. apply in_or_app. right. left. reflexivity.
    + unfold inner_values. simpl made. rewrite Hm, !flat_map_app. cbn [flat_map snd].
      rewrite !app_nil_r, Hp, yielded_app, app_assoc. reflexivity.
    + simpl. rewrite Hm, !map_app. reflexivity.
  - rewrite (poll_fut_unheld fs Hh). auto.
Qed.

Definition sw_inv {A B} (st : fl_state A B) (outs : list (poll (option B))) : Prop :=
  let fs := fl_inner st in
  slot_ok (fl_signal st)
  /\ inners_ok fs
  /\ map fst (made fs) = delivered (fl_signal st)
  /\ yielded outs = inner_values fs
  /\ Forall (fun kf => yielded (past (snd kf)) <> []) (made fs)
  /\ (last_out outs Pending ->
        (awaits (snd (fl_signal st)) \/ ended (snd (fl_signal st)))
        /\ (held fs = true -> exists older k f, made fs = older ++ [(k, f)] /\ awaits f)
        /\ (held fs = false -> awaits (snd (fl_signal st))))
  /\ (last_out outs (Ready None) -> ended (snd (fl_signal st)) /\ held fs = false).

Lemma sw_inv_step {A B} (inner_of : nat -> A -> list (poll (option B))) (st : fl_state A B) outs :
  (forall k a, has_initial (inner_of k a)) ->
  sw_inv st outs ->
  exists st' o, switch_poll inner_of st = Some (st', o) /\ sw_inv st' (outs ++ [o]).
Proof.
  intros Hini. destruct st as [sl fs]. intros (Hok & Hfs & Hk & Hy & Hne & _ & _).
  cbn [fl_signal fl_inner] in *. unfold switch_poll. cbn [fl_signal fl_inner].
  (* the inner signal is polled after the outer one *)
  assert (Hcont : forall sl' done, slot_ok sl' -> map fst (made fs) = delivered sl' ->
    (done = false -> awaits (snd sl')) -> (done = true -> ended (snd sl')) ->
    exists st' o,
      (match poll_fut fs with
       | (Some (Ready None), inner2) =>
           if done then Some (mkFl sl' (unset_fut inner2), Ready None) else Some (mkFl sl' (unset_fut inner2), Pending)
       | (Some (Ready (Some v)), inner2) => Some (mkFl sl' inner2, Ready (Some v))
       | (Some Pending, inner2) => Some (mkFl sl' inner2, Pending)
       | (None, inner2) => if done then Some (mkFl sl' inner2, Ready None) else Some (mkFl sl' inner2, Pending)
       end) = Some (st', o) /\ sw_inv st' (outs ++ [o])).
  { intros sl' done Hok' Hk' Haw Hen.
    assert (Hor : awaits (snd sl') \/ ended (snd sl')) by (destruct done; auto).
    pose proof (poll_inner_ok fs Hfs) as Hpf. destruct (poll_fut fs) as [[r|] fs2].
    - destruct Hpf as (older & k & sr & sr' & Hm & Hm' & Ep & Hp & Hh & Hfs2 & Hv & Hk2).
      assert (Hne2 : Forall (fun kf => yielded (past (snd kf)) <> []) (made fs2)).
      { rewrite Hm in Hne. rewrite Hm'. apply Forall_app in Hne. destruct Hne as [Hn1 Hn2].
        apply Forall_app. split; [exact Hn1|]. constructor; [|constructor]. inversion Hn2 as [|? ? Hn3 _]. simpl in *.
        rewrite Hp, yielded_app. intros Hz. apply app_eq_nil in Hz. destruct Hz. congruence. }
      destruct r as [|[v|]].
      + do 2 eexists. split; [reflexivity|]. unfold sw_inv. cbn [fl_signal fl_inner].
        rewrite !last_out_snoc, yielded_app, app_nil_r, Hv, app_nil_r, Hk2.
        split; [exact Hok'|]. split; [exact Hfs2|]. split; [exact Hk'|]. split; [exact Hy|]. split; [exact Hne2|].
        split; [|discriminate]. intros _. split; [exact Hor|]. split.
        * intros _. exists older, k, sr'. split; [exact Hm'|]. eexists. exact Hp.
        * rewrite Hh. discriminate.
      + do 2 eexists. split; [reflexivity|]. unfold sw_inv. cbn [fl_signal fl_inner].
        rewrite !last_out_snoc, yielded_app, Hv, Hk2, Hy.
        split; [exact Hok'|]. split; [exact Hfs2|]. split; [exact Hk'|]. split; [reflexivity|]. split; [exact Hne2|].
        split; discriminate.
      + assert (HI : forall o, yielded [o] = [] ->
          (o = Pending -> awaits (snd sl')) -> (o = Ready None -> ended (snd sl')) ->
          sw_inv (mkFl sl' (unset_fut fs2)) (outs ++ [o])).
        { intros o Ho Ho1 Ho2. unfold sw_inv. cbn [fl_signal fl_inner].
          rewrite !last_out_snoc, yielded_app, Ho, app_nil_r, Hy.
          unfold inner_values in *. simpl made. rewrite Hv, app_nil_r, Hk2.
          split; [exact Hok'|]. split; [exact Hfs2|]. split; [exact Hk'|]. split; [reflexivity|].
          split; [exact Hne2|]. split.
          - intros Hz. split; [left; exact (Ho1 Hz)|]. split; [discriminate|]. intros _. exact (Ho1 Hz).
          - intros Hz. split; [exact (Ho2 Hz)|reflexivity]. }
        destruct done; do 2 eexists; (split; [reflexivity|]); apply HI; auto; discriminate.
    - destruct Hpf as [-> Hh].
      assert (HI : forall o, yielded [o] = [] ->
        (o = Pending -> awaits (snd sl')) -> (o = Ready None -> ended (snd sl')) ->
        sw_inv (mkFl sl' fs) (outs ++ [o])).
      { intros o Ho Ho1 Ho2. unfold sw_inv. cbn [fl_signal fl_inner].
        rewrite !last_out_snoc, yielded_app, Ho, app_nil_r.
        split; [exact Hok'|]. split; [exact Hfs|]. split; [exact Hk'|]. split; [exact Hy|].
        split; [exact Hne|]. split.
        - intros Hz. split; [left; exact (Ho1 Hz)|]. split; [rewrite Hh; discriminate|]. intros _. exact (Ho1 Hz).
        - intros Hz. split; [exact (Ho2 Hz)|exact Hh]. }
      destruct done; do 2 eexists; (split; [reflexivity|]); apply HI; auto; discriminate. }
  pose proof (poll_slot_ok sl Hok) as Hps. unfold delivered in *.
  destruct (poll_slot sl) as [[[|[a|]]|] sl'].
  - destruct Hps as (_ & Hok' & Haw & Hp).
    refine (Hcont sl' false Hok' _ (fun _ => Haw) _); [|discriminate].
    rewrite Hp, yielded_app, app_nil_r. exact Hk.
  - destruct Hps as (_ & Hok' & Hp).
    destruct (Hini (length (made fs)) a) as (b & t & Hb). rewrite Hb.
    rewrite (poll_fut_held (set_fut fs a (Ready (Some b) :: t)) (made fs) a (fresh (Ready (Some b) :: t)) eq_refl eq_refl). simpl.
    do 2 eexists. split; [reflexivity|]. unfold sw_inv. cbn [fl_signal fl_inner].
    rewrite !last_out_snoc, yielded_app, Hy. unfold inner_values. simpl made. rewrite flat_map_app, map_app.
    simpl. destruct Hfs as (H1 & _ & _).
    split; [exact Hok'|]. split; [|split; [|split; [reflexivity|split; [|split; discriminate]]]].
    + split; [|split; [|discriminate]]; simpl.
      * apply Forall_app. split; [exact H1|]. constructor; [|constructor]. simpl.
        apply obeys_end_no_end. simpl. intros [Hx|[]]. discriminate.
      * intros _. eexists (made fs), _. split; [reflexivity|]. unfold ended. simpl. intros [Hx|[]]. discriminate.
    + unfold delivered. rewrite Hk, Hp, yielded_app. reflexivity.
    + apply Forall_app. split; [exact Hne|]. constructor; [simpl; discriminate|constructor].
  - destruct Hps as (_ & Hok' & Hen & Hp).
    refine (Hcont (drop_slot sl') true Hok' _ _ (fun _ => Hen)); [|discriminate].
    simpl. rewrite Hp, yielded_app, app_nil_r. exact Hk.
  - destruct Hps as [-> Hl].
    refine (Hcont sl true Hok Hk _ _); [discriminate|]. intros _. apply Hok. exact Hl.
Qed.

Lemma switch_run {A B} (inner_of : nat -> A -> list (poll (option B))) script n :
  (forall k a, has_initial (inner_of k a)) -> exists st outs,
  run (switch_poll inner_of) n (switch_init script) = Some (st, outs)
  /\ (let outer := snd (fl_signal st) in let inners := made (fl_inner st) in
      map fst inners = yielded (past outer)
      /\ yielded outs = flat_map (fun kf => yielded (past (snd kf))) inners
      /\ (forall older a f, inners = older ++ [(a, f)] ->
            latest outer = Some a /\ latest f <> None /\ latest_of outs = latest f)
      /\ (last_out outs Pending ->
            (awaits outer \/ ended outer)
            /\ (forall older a f, inners = older ++ [(a, f)] -> awaits f \/ ended f)
            /\ (awaits outer \/ exists older a f, inners = older ++ [(a, f)] /\ awaits f))
      /\ (last_out outs (Ready None) ->
            ended outer /\ (forall older a f, inners = older ++ [(a, f)] -> ended f))
      /\ obeys_end (past outer)
      /\ Forall (fun kf => obeys_end (past (snd kf))) inners).
Proof.
  intros Hini.
  destruct (run_inv0 (switch_poll inner_of) sw_inv (switch_init script)) with (n := n)
    as (st & outs & Hr & Hok & Hfs & Hk & Hy & Hne & Hp & He).
  - unfold sw_inv. cbn [switch_init fl_signal fl_inner].
    split; [apply slot_ok_fresh|]. split; [apply inners_ok_none|]. split; [reflexivity|]. split; [reflexivity|].
    split; [constructor|]. split; intros H; exfalso; exact (last_out_nil _ H).
  - intros st outs HI _. apply sw_inv_step; [exact Hini|exact HI].
  - exists st, outs. split; [exact Hr|]. cbv zeta. destruct Hfs as (Hoc & Hheld & Hun).
    split; [exact Hk|]. split; [exact Hy|]. split; [|split; [|split; [|split; [apply Hok|exact Hoc]]]].
    + intros older a f Hm. split; [|split].
      * unfold latest. rewrite latest_last. unfold delivered in Hk. rewrite <- Hk, Hm, map_app. apply last_of_snoc.
      * unfold latest. rewrite latest_last. rewrite Hm in Hne. apply Forall_app in Hne. destruct Hne as [_ Hne].
        inversion Hne as [|? ? Hn _]. simpl in Hn.
        destruct (snoc_cases (yielded (past f))) as [Hz|(p & z & Hz)]; [congruence|].
        rewrite Hz, last_of_snoc. discriminate.
      * unfold latest. rewrite !latest_last, Hy. unfold inner_values. rewrite Hm, flat_map_app. simpl.
        rewrite app_nil_r.
        rewrite Hm in Hne. apply Forall_app in Hne. destruct Hne as [_ Hne].
        inversion Hne as [|? ? Hn _]. simpl in Hn.
        destruct (snoc_cases (yielded (past f))) as [Hz|(p & z & Hz)]; [congruence|].
        rewrite Hz, app_assoc, !last_of_snoc. reflexivity.
    + intros Hl. destruct (Hp Hl) as (H1 & H2 & H3). split; [exact H1|].
      destruct (held (fl_inner st)) eqn:Hh.
      * destruct (H2 eq_refl) as (o' & k' & f' & Hm' & Ha). split.
        -- intros older a f Hm. rewrite Hm' in Hm. apply snoc_inj in Hm. destruct Hm as [_ [= _ <-]]. left. exact Ha.
        -- right. exists o', k', f'. auto.
      * split; [|left; exact (H3 eq_refl)]. intros older a f Hm. right. exact (Hun eq_refl older (a, f) Hm).
    + intros Hl. destruct (He Hl) as [H1 H2]. split; [exact H1|]. intros older a f Hm. exact (Hun H2 older (a, f) Hm).
Qed.

Lemma switch_initial {A B} (inner_of : nat -> A -> list (poll (option B))) script n st outs :
  (forall k a, has_initial (inner_of k a)) -> has_initial script ->
  run (switch_poll inner_of) n (switch_init script) = Some (st, outs) -> outs <> [] -> has_initial outs.
Proof.
  intros Hini (a & t & ->) Hr Hne. destruct n as [|n].
  { injection Hr as <- <-. congruence. }
  cbn [run] in Hr. destruct (Hini 0 a) as (b & t' & Hb).
  assert (E : exists s1, switch_poll inner_of (switch_init (Ready (Some a) :: t)) = Some (s1, Ready (Some b))).
  { unfold switch_poll, switch_init. simpl. rewrite Hb. eexists; reflexivity. }
  destruct E as (s1 & E). rewrite E in Hr. simpl in Hr.
  destruct (run (switch_poll inner_of) n s1) as [[s2 os]|]; [|discriminate].
  injection Hr as <- <-. do 2 eexists. reflexivity.
Qed.

(** ** for_each *)
Definition fe_inv {A} (sr : src (option A)) (fs : futs A unit) : Prop :=
  ~ ended sr /\ futs_ok fs /\ map fst (made fs) = yielded (past sr)
  /\ (forall older f newer, made fs = older ++ f :: newer -> newer <> [] -> done_fut f).

Definition fe_done {A} (sr : src (option A)) (fs : futs A unit) : Prop :=
  ended sr /\ obeys_end (past sr) /\ futs_ok fs /\ held fs = false /\ map fst (made fs) = yielded (past sr)
  /\ (forall older f newer, made fs = older ++ f :: newer -> newer <> [] -> done_fut f).

Definition fe_pend {A} (sr : src (option A)) (fs : futs A unit) : Prop :=
  fe_inv sr fs
  /\ ((held fs = true /\ exists older k f, made fs = older ++ [(k, f)] /\ awaits f)
      \/ (held fs = false /\ awaits sr)).

Lemma fe_loop_ok {A} (f : nat -> A -> list (poll unit)) td : forall fs pst,
  fe_inv (mkSrc pst td) fs -> held fs = false ->
  match fe_loop f fs pst td with
  | ((sr, fs'), Pending) => fe_pend sr fs'
  | ((sr, fs'), Ready _) => fe_done sr fs'
  end.
Proof.
  induction td as [|r td IH]; intros fs pst (Hne & Hfs & Hk & Hd) Hh.
  - simpl. split.
    + split; [|split; [exact Hfs|split; [|exact Hd]]].
      * unfold ended. simpl. apply no_end_app; [exact Hne|apply no_end_pending].
      * simpl in *. rewrite yielded_app, app_nil_r. exact Hk.
    + right. split; [exact Hh|]. eexists. reflexivity.
  - destruct r as [|[a|]].
    + simpl. split.
      * split; [|split; [exact Hfs|split; [|exact Hd]]].
        -- unfold ended. simpl. apply no_end_app; [exact Hne|apply no_end_pending].
        -- simpl in *. rewrite yielded_app, app_nil_r. exact Hk.
      * right. split; [exact Hh|]. eexists. reflexivity.
    + cbn [fe_loop].
      pose (fs2 := set_fut fs a (f (length (made fs)) a)). fold fs2.
      assert (Hfs2 : futs_ok fs2) by (apply futs_ok_set; exact Hfs).
      assert (Hd2 : forall older g newer, made fs2 = older ++ g :: newer -> newer <> [] -> done_fut g).
      { unfold fs2, set_fut. simpl. apply all_but_last_snoc; [exact Hd|].
        intros p z Hz. destruct Hfs as (_ & _ & Hun). exact (Hun Hh p z Hz). }
      assert (Hk2 : map fst (made fs2) = yielded (pst ++ [Ready (Some a)])).
      { unfold fs2, set_fut. simpl. rewrite map_app, yielded_app, Hk. reflexivity. }
      assert (Hne2 : ~ In (Ready None) (pst ++ [Ready (Some a)])).
      { apply no_end_app; [exact Hne|apply no_end_some]. }
      pose proof (poll_fut_ok fs2 Hfs2) as Hpf.
      destruct (poll_fut fs2) as [[[|u]|] fs3].
      * destruct Hpf as (older & k & sr & sr' & Hm & Hm' & Hp' & Hres & Hfs3 & Hheld & Hawf & _ & Hk3).
        split.
        -- split; [exact Hne2|]. split; [exact Hfs3|]. split; [simpl; rewrite Hk3; exact Hk2|].
           rewrite Hm in Hd2. rewrite Hm'. exact (all_but_last_replace _ _ _ _ Hd2).
        -- left. split; [exact Hheld|]. exists older, k, sr'. auto.
      * destruct Hpf as (older & k & sr & sr' & Hm & Hm' & Hp' & Hres & Hfs3 & _ & Hk3).
        apply IH; [|reflexivity].
        split; [exact Hne2|]. split; [exact Hfs3|]. split; [simpl; rewrite Hk3; exact Hk2|].
        simpl. rewrite Hm in Hd2. rewrite Hm'. exact (all_but_last_replace _ _ _ _ Hd2).
      * destruct Hpf as [_ Hx]. discriminate.
    + simpl. split; [|split; [|split; [exact Hfs|split; [exact Hh|split; [|exact Hd]]]]].
      * unfold ended. simpl. apply in_or_app. right. left. reflexivity.
      * simpl. apply obeys_end_snoc. exact Hne.
      * simpl in *. rewrite yielded_app, app_nil_r. exact Hk.
Qed.

Lemma for_each_step {A} (f : nat -> A -> list (poll unit)) (st : fe_state A) :
  fe_inv (fst st) (snd st) ->
  exists st' r, for_each_poll f st = Some (st', r)
    /\ match r with
       | Pending => fe_pend (fst st') (snd st')
       | Ready _ => fe_done (fst st') (snd st')
       end.
Proof.
  destruct st as [sr fs]. intros (Hne & Hfs & Hk & Hd). simpl in *.
  assert (Hcont : forall fs', fe_inv sr fs' -> held fs' = false ->
    exists st' r, Some (fe_loop f fs' (past sr) (todo sr)) = Some (st', r)
    /\ match r with
       | Pending => fe_pend (fst st') (snd st')
       | Ready _ => fe_done (fst st') (snd st')
       end).
  { intros fs' HI Hh.
    assert (HI' : fe_inv (mkSrc (past sr) (todo sr)) fs') by (destruct sr; exact HI).
    pose proof (fe_loop_ok f (todo sr) fs' (past sr) HI' Hh) as HL.
    destruct (fe_loop f fs' (past sr) (todo sr)) as [[sr2 fs2] r]. exists (sr2, fs2), r. split; [reflexivity|].
    destruct r; exact HL. }
  pose proof (poll_fut_ok fs Hfs) as Hpf. destruct (poll_fut fs) as [[[|u]|] fs1].
  - destruct Hpf as (older & k & s1 & s1' & Hm & Hm' & Hp' & Hres & Hfs3 & Hheld & Hawf & _ & Hk3).
    exists (sr, fs1), Pending. split; [reflexivity|]. simpl. split.
    + split; [exact Hne|]. split; [exact Hfs3|]. split; [rewrite Hk3; exact Hk|].
      rewrite Hm in Hd. rewrite Hm'. exact (all_but_last_replace _ _ _ _ Hd).
    + left. split; [exact Hheld|]. exists older, k, s1'. auto.
  - destruct Hpf as (older & k & s1 & s1' & Hm & Hm' & Hp' & Hres & Hfs3 & _ & Hk3).
    apply Hcont; [|reflexivity].
    split; [exact Hne|]. split; [exact Hfs3|]. split; [simpl; rewrite Hk3; exact Hk|].
    simpl. rewrite Hm in Hd. rewrite Hm'. exact (all_but_last_replace _ _ _ _ Hd).
  - destruct Hpf as [-> Hh]. apply Hcont; [|exact Hh]. split; [exact Hne|]. split; [exact Hfs|]. split; [exact Hk|exact Hd].
Qed.

Lemma for_each_run {A} (f : nat -> A -> list (poll unit)) script n : exists sr fs r,
  run_future (for_each_poll f) n (for_each_init script) = Some ((sr, fs), r)
  /\ (let futures := made fs in
      map fst futures = yielded (past sr)
      /\ (forall older kf newer, futures = older ++ kf :: newer -> newer <> [] -> results (past (snd kf)) <> [])
      /\ (r <> None -> ended sr /\ forall kf, In kf futures -> results (past (snd kf)) <> [])
      /\ (r = None -> n <> 0 ->
            (exists older k g, futures = older ++ [(k, g)] /\ awaits g /\ results (past g) = [])
            \/ ((forall kf, In kf futures -> results (past (snd kf)) <> []) /\ awaits sr))
      /\ obeys_end (past sr)
      /\ Forall (fun kf => obeys_completion (past (snd kf))) futures).
Proof.
  assert (Hin : forall fs : futs A unit, futs_ok fs -> held fs = false ->
    (forall older g newer, made fs = older ++ g :: newer -> newer <> [] -> done_fut g) ->
    forall kf, In kf (made fs) -> results (past (snd kf)) <> []).
  { intros fs (_ & _ & Hun) Hh Hd kf Hin. apply in_split in Hin. destruct Hin as (l1 & l2 & E).
    destruct l2 as [|z l2]; [exact (Hun Hh l1 kf E)|]. apply (Hd l1 kf (z :: l2) E). discriminate. }
  destruct n as [|n].
  { exists (fresh script), no_futs, None. split; [reflexivity|]. cbv zeta. simpl.
    split; [reflexivity|]. split; [intros o g nw H; destruct o; discriminate|].
    split; [congruence|]. split; [congruence|]. split; [apply obeys_end_nil|constructor]. }
  assert (H0 : fe_inv (fst (for_each_init script)) (snd (for_each_init script))).
  { simpl. split; [intros []|]. split; [apply futs_ok_none|]. split; [reflexivity|].
    intros o g nw H; destruct o; discriminate. }
  assert (HR : exists st r, run_future (for_each_poll f) (S n) (for_each_init script) = Some (st, r)
    /\ match r with None => fe_pend (fst st) (snd st) | Some _ => fe_done (fst st) (snd st) end).
  { cbn [run_future]. destruct (for_each_step f _ H0) as (st & r & E & HP). rewrite E. destruct r as [|u].
    - apply (run_future_inv (for_each_poll f) (fun st => fe_pend (fst st) (snd st))
        (fun st _ => fe_done (fst st) (snd st))); [|exact HP].
      intros st' [HI _]. exact (for_each_step f st' HI).
    - exists st, (Some u). auto. }
  destruct HR as ([sr fs] & r & E & HP). simpl in HP. exists sr, fs, r. split; [exact E|]. cbv zeta.
  destruct r as [u|].
  - destruct HP as (He & Hoe & Hfs & Hh & Hk & Hd).
    split; [exact Hk|]. split; [exact Hd|]. split; [intros _; split; [exact He|exact (Hin fs Hfs Hh Hd)]|].
    split; [discriminate|]. split; [exact Hoe|apply Hfs].
  - destruct HP as ((Hne & Hfs & Hk & Hd) & Hp).
    split; [exact Hk|]. split; [exact Hd|]. split; [congruence|].
    split; [|split; [apply obeys_end_no_end; exact Hne|apply Hfs]].
    intros _ _. destruct Hp as [(Hh & older & k & g & Hm & Ha)|(Hh & Ha)].
    + left. exists older, k, g. split; [exact Hm|]. split; [exact Ha|].
      destruct Hfs as (_ & Hheld & _). destruct (Hheld Hh) as (o' & kf & Hm' & Ho). rewrite Hm in Hm'.
      apply snoc_inj in Hm'. destruct Hm' as [_ <-]. exact Ho.
    + right. split; [exact (Hin fs Hfs Hh Hd)|exact Ha].
Qed.

(** ** map_ref! and map_mut! *)
Definition mr_src {A} (i : mr_input A) : src (option A) := snd (mr_signal i).

(** After [k] polls of the combinator. *)
Definition mr_ok {A} (k : nat) (i : mr_input A) : Prop :=
  slot_ok (mr_signal i)
  /\ mr_value i = latest (mr_src i)
  /\ length (past (mr_src i)) <= k
  /\ (~ ended (mr_src i) -> length (past (mr_src i)) = k)
  /\ (if k then has_initial (todo (mr_src i)) /\ fst (mr_signal i) = true else mr_value i <> None).

(** The input's answer to the [k]-th poll of the combinator was a value. *)
Definition mr_changed {A} (k : nat) (i : mr_input A) : Prop :=
  length (past (mr_src i)) = k /\ exists a, last_out (past (mr_src i)) (Ready (Some a)).

Lemma mr_poll_ok {A} k (i i' : mr_input A) d c : mr_ok k i -> mr_poll i = (i', (d, c)) ->
  mr_ok (S k) i'
  /\ (d = true <-> ended (mr_src i'))
  /\ (c = true <-> mr_changed (S k) i')
  /\ (c = false -> mr_value i' = mr_value i)
  /\ (c = false -> d = false -> awaits (mr_src i'))
  /\ (k = 0 -> c = true).
Proof.
  intros (Hok & Hv & Hlen & Hlen2 & Hk) E. unfold mr_poll in E.
  assert (Hk0 : k = 0 -> exists a sl', poll_slot (mr_signal i) = (Some (Ready (Some a)), sl')).
  { intros ->. destruct Hk as [(a & t & Ht) Hl]. unfold mr_src in Ht. destruct (mr_signal i) as [b [p td]].
    simpl in *. subst b td. do 2 eexists. reflexivity. }
  assert (HkS : k <> 0 -> mr_value i <> None) by (destruct k; [congruence|intros _; exact Hk]).
  pose proof (poll_slot_ok (mr_signal i) Hok) as Hps. unfold mr_src in *.
  destruct (poll_slot (mr_signal i)) as [[[|[a|]]|] sl'].
  - destruct Hps as (Hl & Hok' & Haw & Hp). injection E as <- <- <-.
    assert (Hne : ~ ended (snd (mr_signal i))) by (intros Hz; apply Hok in Hz; congruence).
    assert (Hk' : k <> 0) by (intros Hz; destruct (Hk0 Hz) as (? & ? & ?); discriminate).
    specialize (Hlen2 Hne). unfold mr_ok, mr_changed, mr_src. cbn [mr_signal mr_value].
    rewrite Hp, app_length, Nat.add_1_r, Hlen2. split; [|split; [|split; [|split; [auto|split; [auto|]]]]].
    + split; [exact Hok'|]. unfold latest in *. rewrite Hp, latest_of_pending. split; [exact Hv|].
      split; [lia|]. split; [auto|]. exact (HkS Hk').
    + split; [discriminate|]. unfold ended. rewrite Hp. intros Hz. exfalso. revert Hz.
      apply no_end_app; [exact Hne|apply no_end_pending].
    + split; [discriminate|]. intros [_ (b & Hb)]. rewrite last_out_snoc in Hb. discriminate.
    + congruence.
  - destruct Hps as (Hl & Hok' & Hp). injection E as <- <- <-.
    assert (Hne : ~ ended (snd (mr_signal i))) by (intros Hz; apply Hok in Hz; congruence).
    specialize (Hlen2 Hne). unfold mr_ok, mr_changed, mr_src. cbn [mr_signal mr_value].
    rewrite Hp, app_length, Nat.add_1_r, Hlen2. split; [|split; [|split; [|split; [discriminate|split; [discriminate|auto]]]]].
    + split; [exact Hok'|]. unfold latest in *. rewrite Hp, latest_of_app. split; [reflexivity|].
      split; [lia|]. split; [auto|]. discriminate.
    + split; [discriminate|]. unfold ended. rewrite Hp. intros Hz. exfalso. revert Hz.
      apply no_end_app; [exact Hne|apply no_end_some].
    + split; [|reflexivity]. intros _. split; [reflexivity|]. exists a. eexists. reflexivity.
  - destruct Hps as (Hl & Hok' & Hen & Hp). injection E as <- <- <-.
    assert (Hne : ~ ended (snd (mr_signal i))) by (intros Hz; apply Hok in Hz; congruence).
    assert (Hk' : k <> 0) by (intros Hz; destruct (Hk0 Hz) as (? & ? & ?); discriminate).
    specialize (Hlen2 Hne). unfold mr_ok, mr_changed, mr_src. cbn [mr_signal mr_value drop_slot fst snd].
    change (snd (drop_slot sl')) with (snd sl').
    rewrite Hp, app_length, Nat.add_1_r, Hlen2. split; [|split; [|split; [|split; [auto|split; [discriminate|]]]]].
    + split; [exact Hok'|]. unfold latest in *. rewrite Hp, latest_of_end. split; [exact Hv|].
      split; [lia|]. split; [auto|]. exact (HkS Hk').
    + split; [intros _; exact Hen|reflexivity].
    + split; [discriminate|]. intros [_ (b & Hb)]. rewrite last_out_snoc in Hb. discriminate.
    + congruence.
  - destruct Hps as [-> Hl]. injection E as <- <- <-.
    assert (Hen : ended (snd (mr_signal i))) by (apply Hok; exact Hl).
    assert (Hk' : k <> 0) by (intros Hz; destruct (Hk0 Hz) as (? & ? & ?); discriminate).
    unfold mr_ok, mr_changed, mr_src. cbn [mr_signal mr_value].
    split; [|split; [|split; [|split; [auto|split; [discriminate|]]]]].
    + split; [exact Hok|]. split; [exact Hv|]. split; [lia|]. split; [contradiction|]. exact (HkS Hk').
    + split; [intros _; exact Hen|reflexivity].
    + split; [discriminate|]. intros [Hz _]. lia.
    + congruence.
Qed.

Lemma mr_poll_all_ok {A} k (is is' : list (mr_input A)) d c :
  Forall (mr_ok k) is -> mr_poll_all is = (is', (d, c)) ->
  Forall (mr_ok (S k)) is'
  /\ length is' = length is
  /\ (d = true <-> Forall (fun i => ended (mr_src i)) is')
  /\ (c = true <-> Exists (mr_changed (S k)) is')
  /\ (c = false -> map mr_value is' = map mr_value is)
  /\ (c = false -> Forall (fun i => awaits (mr_src i) \/ ended (mr_src i)) is')
  /\ (c = false -> d = false -> Exists (fun i => awaits (mr_src i)) is')
  /\ (k = 0 -> is <> [] -> c = true).
Proof.
  revert is' d c. induction is as [|i is IH]; intros is' d c Hall E.
  - injection E as <- <- <-. split; [constructor|]. split; [reflexivity|].
    split; [split; [constructor|reflexivity]|]. split; [split; [discriminate|intros Hx; inversion Hx]|].
    split; [reflexivity|]. split; [constructor|]. split; [discriminate|congruence].
  - simpl in E. destruct (mr_poll i) as [i1 [d1 c1]] eqn:E1.
    destruct (mr_poll_all is) as [is1 [d2 c2]] eqn:E2. injection E as <- <- <-.
    inversion Hall as [|? ? Hi His]; subst.
    destruct (mr_poll_ok k i i1 d1 c1 Hi E1) as (P1 & P2 & P3 & P4 & P5 & P6).
    destruct (IH is1 d2 c2 His eq_refl) as (Q1 & Q2 & Q3 & Q4 & Q5 & Q6 & Q7 & Q8).
    split; [constructor; assumption|]. split; [simpl; rewrite Q2; reflexivity|].
    split; [|split; [|split; [|split; [|split]]]].
    + rewrite andb_true_iff, Forall_cons_iff, P2, Q3. reflexivity.
    + rewrite orb_true_iff, Exists_cons, P3, Q4. reflexivity.
    + intros Hc. apply orb_false_iff in Hc. destruct Hc as [Hc1 Hc2]. simpl. rewrite (P4 Hc1), (Q5 Hc2). reflexivity.
    + intros Hc. apply orb_false_iff in Hc. destruct Hc as [Hc1 Hc2]. constructor; [|exact (Q6 Hc2)].
      destruct d1; [right; apply P2; reflexivity|left; exact (P5 Hc1 eq_refl)].
    + intros Hc Hd. apply orb_false_iff in Hc. destruct Hc as [Hc1 Hc2]. apply Exists_cons.
      destruct d1; [right; exact (Q7 Hc2 Hd)|left; exact (P5 Hc1 eq_refl)].
    + intros Hk _. rewrite (P6 Hk). reflexivity.
Qed.

Lemma mr_values_some {A} (is : list (mr_input A)) : Forall (fun i => mr_value i <> None) is ->
  exists vs, mr_values is = Some vs /\ map mr_value is = map Some vs.
Proof.
  induction is as [|i is IH]; intros H.
  - exists []. auto.
  - inversion H as [|? ? Hi His]; subst. destruct (IH His) as (vs & E1 & E2).
    destruct (mr_value i) as [v|] eqn:Ev; [|congruence]. exists (v :: vs). simpl. rewrite Ev, E1, E2. auto.
Qed.

Lemma mr_store_same {A} (is : list (mr_input A)) vs : map mr_value is = map Some vs -> mr_store is vs = is.
Proof.
  revert vs. induction is as [|i is IH]; intros [|v vs] H; simpl in *; try reflexivity; try discriminate.
  injection H as H1 H2. rewrite (IH vs H2). destruct i as [sl v']. simpl in *. rewrite H1. reflexivity.
Qed.

Definition map_ref_inv {A B} (f : list A -> B) (k0 : nat) (is : list (mr_input A)) (outs : list (poll (option B))) : Prop :=
  Forall (mr_ok (length outs)) is
  /\ length is = k0
  /\ (outs <> [] -> has_initial outs)
  /\ (outs <> [] -> exists vs, map mr_value is = map Some vs /\ latest_of outs = Some (f vs))
  /\ ((exists b, last_out outs (Ready (Some b))) <-> outs <> [] /\ Exists (mr_changed (length outs)) is)
  /\ (last_out outs Pending ->
        Forall (fun i => awaits (mr_src i) \/ ended (mr_src i)) is /\ Exists (fun i => awaits (mr_src i)) is)
  /\ (last_out outs (Ready None) -> Forall (fun i => ended (mr_src i)) is).

Lemma map_mut_step {A B} (f : list A -> list A * B) k0 (is : list (mr_input A)) outs :
  k0 <> 0 -> (forall vs, fst (f vs) = vs) -> map_ref_inv (fun vs => snd (f vs)) k0 is outs ->
  exists is' o, map_mut_poll f is = Some (is', o) /\ map_ref_inv (fun vs => snd (f vs)) k0 is' (outs ++ [o]).
Proof.
  intros Hk0 Hf (Hall & Hn & Hi & Hl & _ & _ & _). unfold map_mut_poll.
  destruct (mr_poll_all is) as [is1 [d c]] eqn:E.
  destruct (mr_poll_all_ok (length outs) is is1 d c Hall E) as (Q1 & Q2 & Q3 & Q4 & Q5 & Q6 & Q7 & Q8).
  assert (Hlen : forall o : poll (option B), length (outs ++ [o]) = S (length outs)) by (intros o; rewrite app_length, Nat.add_1_r; reflexivity).
  assert (Hnil : forall (o : poll (option B)), outs ++ [o] <> []) by (intros o; apply app_one_nil).
  assert (Hval : Forall (fun i => mr_value i <> None) is1).
  { eapply Forall_impl; [|exact Q1]. intros i (_ & _ & _ & _ & Hx). exact Hx. }
  destruct (mr_values_some is1 Hval) as (vs & Ev & Em).
  destruct c.
  - rewrite Ev. destruct (f vs) as [vs' b] eqn:Ef.
    assert (vs' = vs) as -> by (rewrite <- (Hf vs), Ef; reflexivity).
    rewrite (mr_store_same _ _ Em). do 2 eexists. split; [reflexivity|]. unfold map_ref_inv.
    rewrite Hlen, !last_out_snoc, latest_of_app. split; [exact Q1|]. split; [congruence|].
    split; [|split; [|split; [|split; discriminate]]].
    + intros _. destruct outs as [|o outs]; [do 2 eexists; reflexivity|].
      destruct Hi as (a & t & Ht); [discriminate|]. rewrite Ht. do 2 eexists. reflexivity.
    + intros _. exists vs. split; [exact Em|]. rewrite Ef. reflexivity.
    + split; [intros _; split; [apply Hnil|apply Q4; reflexivity]|]. intros _. exists b. apply last_out_snoc. reflexivity.
  - assert (Hne : outs <> []).
    { intros ->. assert (Hx : false = true); [|discriminate]. apply Q8; [reflexivity|]. intros ->. simpl in Hn. congruence. }
    assert (HI : forall o, yielded [o] = [] -> (o = Pending -> d = false) -> (o = Ready None -> d = true) ->
      map_ref_inv (fun vs => snd (f vs)) k0 is1 (outs ++ [o])).
    { intros o Ho Ho1 Ho2. unfold map_ref_inv. rewrite Hlen, !last_out_snoc. split; [exact Q1|]. split; [congruence|].
      split; [|split; [|split; [|split]]].
      - intros _. destruct (Hi Hne) as (a & t & Ht). rewrite Ht. do 2 eexists. reflexivity.
      - intros _. destruct (Hl Hne) as (ws & H1 & H2). exists ws. rewrite (Q5 eq_refl). split; [exact H1|].
        rewrite <- H2, !latest_last, yielded_app, Ho, app_nil_r. reflexivity.
      - split.
        + intros (b & Hb). apply last_out_snoc in Hb. subst o. discriminate.
        + intros [_ Hx]. apply Q4 in Hx. discriminate.
      - intros Hz. split; [exact (Q6 eq_refl)|exact (Q7 eq_refl (Ho1 Hz))].
      - intros Hz. apply Q3. exact (Ho2 Hz). }
    destruct d; do 2 eexists; (split; [reflexivity|]); apply HI; auto; discriminate.
Qed.

Lemma mr_values_latest {A} k (is : list (mr_input A)) : Forall (mr_ok k) is ->
  map mr_value is = map (fun i => latest (mr_src i)) is.
Proof.
  induction is as [|i is IH]; intros H; [reflexivity|]. inversion H as [|? ? Hi His]; subst. simpl.
  rewrite (IH His). destruct Hi as (_ & -> & _). reflexivity.
Qed.

Lemma map_mut_run {A B} (f : list A -> list A * B) (scripts : list (list (poll (option A)))) n :
  scripts <> [] -> Forall has_initial scripts -> (forall vs, fst (f vs) = vs) ->
  exists is outs, run (map_mut_poll f) n (map_mut_init scripts) = Some (is, outs)
  /\ (let inputs := map (fun i => snd (mr_signal i)) is in
      length inputs = length scripts
      /\ (outs <> [] -> has_initial outs)
      /\ (outs <> [] -> exists vs, map latest inputs = map Some vs /\ latest_of outs = Some (snd (f vs)))
      /\ ((exists b, last_out outs (Ready (Some b))) <->
            outs <> [] /\ Exists (fun i => length (past i) = length outs /\ exists a, last_out (past i) (Ready (Some a))) inputs)
      /\ (last_out outs Pending -> Forall (fun i => awaits i \/ ended i) inputs /\ Exists awaits inputs)
      /\ (last_out outs (Ready None) -> Forall ended inputs)
      /\ Forall (fun i => obeys_end (past i) /\ length (past i) <= length outs
                         /\ (~ ended i -> length (past i) = length outs)) inputs).
Proof.
  intros Hne Hini Hf.
  destruct (run_inv0 (map_mut_poll f) (map_ref_inv (fun vs => snd (f vs)) (length scripts)) (map_mut_init scripts))
    with (n := n) as (is & outs & Hr & Hall & Hn & Hi & Hl & Hc & Hp & He).
  - unfold map_ref_inv, map_mut_init. split; [|split; [apply map_length|]].
    + apply Forall_map. eapply Forall_impl; [|exact Hini]. intros s Hs. unfold mr_ok, mr_src. simpl.
      split; [apply slot_ok_fresh|]. split; [reflexivity|]. split; [lia|]. split; [reflexivity|]. auto.
    + split; [congruence|]. split; [congruence|]. split; [|split; intros H; exfalso; exact (last_out_nil _ H)].
      split; [intros (b & H); exfalso; exact (last_out_nil _ H)|intros [H _]; congruence].
  - intros is outs HI _. apply map_mut_step; [|exact Hf|exact HI]. destruct scripts; [congruence|discriminate].
  - exists is, outs. split; [exact Hr|]. cbv zeta.
    split; [rewrite map_length; exact Hn|]. split; [exact Hi|]. split; [|split; [|split; [|split]]].
    + intros Hx. destruct (Hl Hx) as (vs & H1 & H2). exists vs. split; [|exact H2].
      rewrite map_map, <- H1, (mr_values_latest _ _ Hall). reflexivity.
    + rewrite Hc, Exists_map. reflexivity.
    + intros Hx. rewrite Forall_map, Exists_map. exact (Hp Hx).
    + intros Hx. rewrite Forall_map. exact (He Hx).
    + rewrite Forall_map. eapply Forall_impl; [|exact Hall]. intros i (H1 & _ & H3 & H4 & _).
      split; [apply H1|]. split; [exact H3|exact H4].
Qed.

Lemma map_ref_run {A B} (f : list A -> B) (scripts : list (list (poll (option A)))) n :
  scripts <> [] -> Forall has_initial scripts ->
  exists is outs, run (map_ref_poll f) n (map_mut_init scripts) = Some (is, outs)
  /\ (let inputs := map (fun i => snd (mr_signal i)) is in
      length inputs = length scripts
      /\ (outs <> [] -> has_initial outs)
      /\ (outs <> [] -> exists vs, map latest inputs = map Some vs /\ latest_of outs = Some (f vs))
      /\ ((exists b, last_out outs (Ready (Some b))) <->
            outs <> [] /\ Exists (fun i => length (past i) = length outs /\ exists a, last_out (past i) (Ready (Some a))) inputs)
      /\ (last_out outs Pending -> Forall (fun i => awaits i \/ ended i) inputs /\ Exists awaits inputs)
      /\ (last_out outs (Ready None) -> Forall ended inputs)
      /\ Forall (fun i => obeys_end (past i) /\ length (past i) <= length outs
                         /\ (~ ended i -> length (past i) = length outs)) inputs).
Proof. intros H1 H2. exact (map_mut_run (fun vs => (vs, f vs)) scripts n H1 H2 (fun _ => eq_refl)). Qed.

Lemma two_values {A B} (f : list A -> B) s1 s2 n : has_initial s1 -> has_initial s2 ->
  exists i1 i2 outs, run (map_ref_poll f) n (map_mut_init [s1; s2]) = Some ([i1; i2], outs)
  /\ (outs <> [] -> exists a b, latest (snd (mr_signal i1)) = Some a /\ latest (snd (mr_signal i2)) = Some b
                               /\ latest_of outs = Some (f [a; b])).
Proof.
  intros H1 H2. destruct (map_ref_run f [s1; s2] n) as (is & outs & Hr & Hn & _ & Hl & _); [discriminate|auto|].
  rewrite map_length in Hn. destruct is as [|i1 [|i2 [|]]]; try discriminate.
  exists i1, i2, outs. split; [exact Hr|]. intros Hne. destruct (Hl Hne) as (vs & E & Hv).
  destruct vs as [|a [|b [|]]]; try discriminate. simpl in E. injection E as E1 E2. exists a, b. auto.
Qed.
