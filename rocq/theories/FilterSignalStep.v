(** What one poll of filter_signal_cloned does, in terms of the current values of the signals. *)
From Verif Require Import Base Spec BaseFacts VecDiff VecSpec LoopFacts VecFacts Slot SlotFacts VecSlotFacts ChainFacts
  VecSimpleFacts WakeFacts ElemSignal ElemSignalFacts FlattenFacts VecExecFacts FilterSignalSpec FlattenStep.

Section Step.
  Context {K : Type} (inner_of : K -> list (poll (option bool))).
  Hypothesis inner_good : forall k, has_initial (inner_of k).
  Notation applies := (@apply_all (vecdiff K) (list K) apply_to_vec).
  Notation fok := (fok inner_of).
  Definition mark (f : fsig K) : K * option bool := (fs_value f, latest (snd (fs_signal f))).

  Lemma fs_new_mark k f : fs_new inner_of k = Some f -> mark f = arrived inner_of k.
  Proof.
    unfold fs_new. destruct (inner_good k) as (b & rest & E). unfold first_value, arrived. rewrite E. cbn. intros H. injection H as <-. reflexivity.
  Qed.

  Lemma fs_new_all_mark ks : forall fs kept, fs_new_all inner_of ks = Some (fs, kept) -> map mark fs = map (arrived inner_of) ks.
  Proof.
    induction ks as [|k ks IH]; intros fs kept H; cbn [fs_new_all] in H; [injection H as <- _; reflexivity|].
    destruct (fs_new inner_of k) as [f|] eqn:E; [|discriminate]. destruct (fs_new_all inner_of ks) as [[fs1 kept1]|]; [|discriminate].
    injection H as <- _. cbn. rewrite (fs_new_mark _ _ E), (IH _ _ eq_refl). reflexivity.
  Qed.

  Lemma step_marks fs pend d fs' pend' : filter_signal_step inner_of (fs, pend) d = Some (fs', pend') ->
    apply_to_vec (fst (vd_map (arrived inner_of) d)) (map mark fs) = Some (map mark fs').
  Proof.
    intros H.
    assert (X : exists dm, apply_to_vec dm fs = Some fs' /\ fst (vd_map mark dm) = fst (vd_map (arrived inner_of) d)).
    { destruct d as [ks|i k|i k|i|o n|k| |]; cbn [filter_signal_step] in H.
      - destruct (fs_new_all inner_of ks) as [[fs1 kept]|] eqn:E; [|discriminate]. injection H as <- _. exists (Replace fs1). split; [reflexivity|].
        cbn. rewrite (fs_new_all_mark _ _ _ E). reflexivity.
      - destruct (fs_new inner_of k) as [f|] eqn:E; [|discriminate]. destruct (vinsert i f fs) as [fs1|] eqn:Ev; [|discriminate].
        exists (InsertAt i f). cbn. rewrite Ev, (fs_new_mark _ _ E). destruct (fs_exists f); [destruct (fs_find_index fs1 i); [|discriminate]|]; injection H as <- _; auto.
      - destruct (fs_new inner_of k) as [f|] eqn:E; [|discriminate]. destruct (nth_error fs i) as [old|]; [|discriminate]. destruct (vset i f fs) as [fs1|] eqn:Ev; [|discriminate].
        exists (UpdateAt i f). cbn. rewrite Ev, (fs_new_mark _ _ E). destruct (fs_find_index fs1 i), (fs_exists f), (fs_exists old); try discriminate; injection H as <- _; auto.
      - destruct (vremove i fs) as [[g fs1]|] eqn:Ev; [|discriminate]. exists (RemoveAt i). cbn. rewrite Ev.
        destruct (fs_exists g); [destruct (fs_find_index fs1 i); [|discriminate]|]; injection H as <- _; auto.
      - destruct (vremove o fs) as [[g fs1]|] eqn:Ev; [|discriminate]. destruct (vinsert n g fs1) as [fs2|] eqn:Ei; [|discriminate]. exists (Move o n). cbn. rewrite Ev, Ei.
        destruct (fs_exists g); [destruct (fs_find_index fs2 o); [|discriminate]; destruct (fs_find_index fs2 n); [|discriminate]|]; injection H as <- _; auto.
      - destruct (fs_new inner_of k) as [f|] eqn:E; [|discriminate]. exists (Push f). cbn. rewrite (fs_new_mark _ _ E). destruct (fs_exists f); injection H as <- _; auto.
      - destruct (vpop fs) as [[g fs1]|] eqn:Ev; [|discriminate]. exists Pop. cbn. rewrite Ev. destruct (fs_exists g); injection H as <- _; auto.
      - injection H as <- _. exists Clear. auto. }
    destruct X as (dm & H1 & H2). rewrite <- H2. apply apply_map. exact H1.
  Qed.

  Lemma moves_prefix ms a b : moves_well inner_of ms (a ++ b) -> moves_well inner_of ms a.
  Proof. intros H pre o n post ms1 x y E. apply (H pre o n (post ++ b) ms1 x y). rewrite E, <- app_assoc. reflexivity. Qed.

  Lemma moves_move_ok ms new d fs : Forall fok fs -> carried (arrived inner_of) new ms = Some (map mark fs) -> moves_well inner_of ms (new ++ [d]) -> move_ok fs d.
  Proof.
    intros HF Hc Hm o n x y -> Hlt Hx Hy Hex.
    assert (Hfx : fok x) by (apply nth_error_In in Hx; exact (proj1 (Forall_forall _ _) HF x Hx)).
    assert (Hfy : fok y) by (apply nth_error_In in Hy; exact (proj1 (Forall_forall _ _) HF y Hy)).
    pose proof (Hm new o n [] _ (mark x) (mark y) eq_refl Hlt Hc (map_nth_error _ _ _ Hx) (map_nth_error _ _ _ Hy)) as X. cbn [mark snd] in X.
    destruct Hfx as (_ & _ & Ex), Hfy as (_ & _ & Ey). rewrite Ex, Ey, Hex in X. specialize (X eq_refl). congruence.
  Qed.

  Lemma vis_accepted fs : Forall fok fs -> vis fs = accepted (map mark fs).
  Proof.
    intros H. induction H as [|f fs (_ & _ & Hf) _ IH]; [reflexivity|]. rewrite vis_cons, IH. unfold accepted, mark. cbn. rewrite Hf. destruct (fs_exists f); reflexivity.
  Qed.

  Variable source : list (poll (option (vecdiff K))).
  Hypothesis source_good : good_vec_script source.
  Notation after n := (run (filter_signal_poll inner_of) n (filter_signal_init source)).

  Lemma fs_poll_exact n st outs : after n = Some (st, outs) -> fis_pending st = [] ->
    forall st' o, filter_signal_poll inner_of st = Some (st', o) -> exists new, fs_polls inner_of st st' o new
      /\ (moves_well inner_of (marks st) new -> applies (accepted (marks st)) (yielded [o] ++ fis_pending st') = Some (accepted (marks st'))).
  Proof.
    intros Hr Hp st' o E. destruct (filter_signal_run inner_of inner_good source source_good n) as (st1 & outs1 & Hr1 & (Hok & Hg & Hpl & Hrep & HF & _) & _).
    rewrite Hr in Hr1. injection Hr1 as <- <-. pose proof E as E0. unfold filter_signal_poll in E. rewrite Hp in E.
    destruct (drain_slot_inv (filter_signal_step inner_of) (fun ds => replay ds <> None) (@replay_prefix K)
      (fun s ds => replay ds = Some (map fs_value (fst s)) /\ Forall fok (fst s)
          /\ exists new, ds = delivered (fis_signal st) ++ new /\ carried (arrived inner_of) new (marks st) = Some (map mark (fst s))
             /\ (moves_well inner_of (marks st) new -> applies (vis (fis_signals st)) (snd s) = Some (vis (fst s)))))
      with (x := (fis_signals st, @nil (vecdiff K))) (sl := fis_signal st)
      as ([fs1 pend1] & sl' & done & Ed & (Hr1 & HF1 & new & Hds & Hcar & Ha1) & Hg').
    { intros [fs1 pend1] ds d (Hr1 & HF1 & new & Hds & Hcar & Ha1) Hgd. cbn [fst snd] in *.
      assert (Hs := replay_snoc ds d). rewrite Hr1 in Hs. rewrite Hs in Hgd.
      destruct (apply_to_vec d (map fs_value fs1)) as [ks'|] eqn:Ek; [|congruence].
      destruct (filter_signal_step_ok inner_of inner_good fs1 pend1 d ks' HF1 Ek) as (dm & fs' & more & Es & Hrel & Hdm & Hvis).
      exists (fs', pend1 ++ more). split; [exact Es|]. cbn [fst snd]. rewrite Hs.
      assert (Hk : ks' = map fs_value fs').
      { destruct (fun H => apply_rel (fun k f => fs_value f = k) d dm _ _ fs1 H (map_eq_forall2 fs_value fs1) Ek)
          as (m' & Em & HO).
        - clear - Hrel. destruct d as [vs|i x|i x|i|o n|x| |]; destruct dm as [ws|j y|j y|j|p q|y| |]; simpl in *; try tauto.
          induction Hrel as [|? ? ? ? []]; constructor; assumption.
        - rewrite Hdm in Em. injection Em as <-. exact (forall2_map_eq _ _ _ HO). }
      split; [rewrite Hk; reflexivity|].
      split; [exact (vd_rel_forall _ fok d dm fs1 fs' (fun _ _ H => proj2 H) Hrel HF1 Hdm)|].
      exists (new ++ [d]). split; [rewrite Hds, app_assoc; reflexivity|]. split; [exact (carried_snoc _ _ _ _ _ _ Hcar (step_marks _ _ _ _ _ Es))|].
      intros Hm. rewrite (applies_app _ _ _ _ (Ha1 (moves_prefix _ _ _ Hm))). apply Hvis. exact (moves_move_ok _ _ _ _ HF1 Hcar Hm). }
    { cbn [fst snd]. split; [exact Hrep|]. split; [exact HF|]. exists []. split; [rewrite app_nil_r; reflexivity|]. split; [reflexivity|]. reflexivity. }
    { exact Hg. }
    rewrite Ed in E. cbn [fst snd] in *.
    destruct (poll_filters_ok inner_of fs1 0 pend1 HF1) as (fs2 & more & has & E2 & HF2 & Ho2 & Ha2 & _). rewrite E2 in E.
    exists new.
    assert (Hfin : moves_well inner_of (marks st) new -> applies (accepted (marks st)) (pend1 ++ more) = Some (accepted (map mark fs2))).
    { intros Hm. change (marks st) with (map mark (fis_signals st)) at 1. rewrite <- !vis_accepted by assumption. rewrite (applies_app _ _ _ _ (Ha1 Hm)). exact (Ha2 [] eq_refl). }
    destruct (pend1 ++ more) as [|first rest].
    - destruct (done && negb has); injection E as <- <-; (split; [split; [exact E0|exact Hds]|exact Hfin]).
    - injection E as <- <-. split; [split; [exact E0|exact Hds]|exact Hfin].
  Qed.

  Definition moves_ok_at (n : nat) : Prop := forall st outs st' o new, after n = Some (st, outs) -> fs_polls inner_of st st' o new -> moves_well inner_of (marks st) new.

  Lemma fs_mirror n : (forall m, m < n -> moves_ok_at m) -> exists st outs shown, after n = Some (st, outs)
    /\ conveyed (snd (fis_signal st)) = Some (map fst (marks st))
    /\ replay (yielded outs) = Some shown
    /\ (last_out outs Pending \/ last_out outs (Ready None) -> shown = accepted (marks st))
    /\ applies shown (fis_pending st) = Some (accepted (marks st)).
  Proof.
    induction n as [|n IH]; intros Hm.
    - exists (filter_signal_init source), [], []. cbn. repeat split; auto.
    - destruct IH as (st & outs & shown & Hr & _ & Hs & _ & Ha); [intros m Hlt; apply Hm; lia|].
      destruct (filter_signal_run inner_of inner_good source source_good (S n)) as (st' & outs' & Hr' & (_ & _ & _ & Hk & _ & _ & Hpe & _) & _).
      assert (Hgen : exists shown', replay (yielded outs') = Some shown' /\ applies shown' (fis_pending st') = Some (accepted (marks st'))).
      { destruct (In_dec_end outs) as [Hi|Hno].
        { rewrite (run_stop _ _ _ _ _ Hr Hi) in Hr'. injection Hr' as <- <-. eauto. }
        pose proof (run_snoc _ _ _ _ _ Hr Hno) as Hx. destruct (filter_signal_poll inner_of st) as [[st1 o]|] eqn:E; [|congruence].
        rewrite Hx in Hr'. injection Hr' as -> <-. rewrite yielded_app. destruct (fis_pending st) as [|d rest] eqn:Hp.
        - injection Ha as ->. destruct (fs_poll_exact n st outs Hr Hp st' o E) as (new & Hpo & Hap).
          specialize (Hap (Hm n (Nat.lt_succ_diag_r n) _ _ _ _ _ Hr Hpo)). rewrite apply_all_app in Hap. destruct (applies (accepted (marks st)) (yielded [o])) as [sh|] eqn:Eo; [|discriminate].
          exists sh. split; [|exact Hap]. unfold replay in *. rewrite apply_all_app, Hs. exact Eo.
        - unfold filter_signal_poll in E. rewrite Hp in E. injection E as <- <-. cbn [apply_all] in Ha. destruct (apply_to_vec d shown) as [sh|] eqn:Ed; [|discriminate].
          exists sh. split; [|exact Ha]. unfold replay in *. rewrite apply_all_app, Hs. cbn. rewrite Ed. reflexivity. }
      destruct Hgen as (sh & H1 & H2). exists st', outs', sh. split; [exact Hr'|]. split; [unfold marks; rewrite map_map; exact Hk|]. split; [exact H1|]. split; [|exact H2].
      intros Hl. rewrite (Hpe Hl) in H2. injection H2 as ->. reflexivity.
  Qed.
End Step.

(** For the examples: the condition on the moves of a poll, computed. *)
Fixpoint moves_fine {K} (inner_of : K -> list (poll (option bool))) (ms : list (K * option bool)) (new : list (vecdiff K)) : Prop :=
  match new with
  | [] => True
  | d :: new' =>
      match d with
      | Move o n =>
          n < o -> match nth_error ms o, nth_error ms (o - 1) with Some (_, Some true), Some (_, Some true) => True | Some (_, Some true), Some _ => False | _, _ => True end
      | _ => True
      end
      /\ match apply_to_vec (fst (vd_map (arrived inner_of) d)) ms with
         | Some ms' => moves_fine inner_of ms' new'
         | None => True
         end
  end.
Lemma moves_fine_well {K} (inner_of : K -> list (poll (option bool))) new : forall ms, moves_fine inner_of ms new -> moves_well inner_of ms new.
Proof.
  induction new as [|d new IH]; intros ms H pre o n post ms1 x y E Hlt Hc Hx Hy Hxt; [destruct pre; discriminate|].
  destruct H as [H1 H2]. destruct pre as [|d0 pre].
  - injection E as -> ->. injection Hc as <-. specialize (H1 Hlt). rewrite Hx, Hy in H1. destruct x as [x bx], y as [y by_]. cbn in *. subst bx.
    destruct by_ as [[|]|]; [reflexivity|destruct H1|destruct H1].
  - injection E as <- ->. unfold carried in Hc. cbn [map apply_all] in Hc. destruct (apply_to_vec _ ms) as [ms'|]; [|discriminate].
    exact (IH ms' H2 pre o n post ms1 x y eq_refl Hlt Hc Hx Hy Hxt).
Qed.
Lemma moves_check {K} (inner_of : K -> list (poll (option bool))) source m :
  match run (filter_signal_poll inner_of) m (filter_signal_init source) with
  | Some (st, _) =>
      match filter_signal_poll inner_of st with
      | Some (st', _) => moves_fine inner_of (marks st) (skipn (length (yielded (past (snd (fis_signal st))))) (yielded (past (snd (fis_signal st')))))
      | None => True
      end
  | None => True
  end -> forall st outs st' o new, run (filter_signal_poll inner_of) m (filter_signal_init source) = Some (st, outs) ->
    fs_polls inner_of st st' o new -> moves_well inner_of (marks st) new.
Proof.
  intros H st outs st' o new Hr [Hp Hn]. rewrite Hr, Hp, Hn, skipn_app, skipn_all, Nat.sub_diag in H. cbn [skipn app] in H. exact (moves_fine_well _ _ _ H).
Qed.

Lemma filter_fine_mirror {K} (inner_of : K -> list (poll (option bool))) source :
  (forall k, has_initial (inner_of k)) -> good_vec_script source -> forall n, filter_fine inner_of source n -> exists st outs shown,
    run (filter_signal_poll inner_of) n (filter_signal_init source) = Some (st, outs)
    /\ conveyed (snd (fis_signal st)) = Some (map fs_value (fis_signals st))
    /\ replay (yielded outs) = Some shown
    /\ (last_out outs Pending \/ last_out outs (Ready None) ->
        shown = map fs_value (filter (fun f => match latest (snd (fs_signal f)) with Some b => b | None => false end) (fis_signals st))).
Proof.
  intros Hi Hg n [Hb|Hm].
  - destruct (filter_signal_mirror inner_of source Hi Hg Hb n) as (st & outs & shown & X1 & X2 & _ & X4 & X5 & _). exists st, outs, shown. auto.
  - destruct (fs_mirror inner_of Hi source Hg n Hm) as (st & outs & shown & X1 & X2 & X3 & X4 & _). exists st, outs, shown. split; [exact X1|].
    unfold marks in X2. rewrite map_map in X2. split; [exact X2|]. split; [exact X3|]. intros Hl. rewrite (X4 Hl). unfold accepted, marks.
    clear. induction (fis_signals st) as [|f fs IH]; [reflexivity|]. cbn [map filter snd fst]. destruct (latest (snd (fs_signal f))) as [[|]|]; cbn [map fst]; rewrite IH; reflexivity.
Qed.
