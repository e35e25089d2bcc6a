(** A backward Move that filter_signal_cloned gets wrong (C15). *)
From Verif Require Import Base Spec BaseFacts VecDiff VecSpec LoopFacts VecFacts Slot SlotFacts VecSlotFacts ChainFacts
  VecSimpleFacts WakeFacts ElemSignal ElemSignalFacts FlattenFacts VecExecFacts FilterSignalSpec FilterSignalStep.

Section Bad.
  Context {K : Type} (inner_of : K -> list (poll (option bool))).
  Hypothesis inner_good : forall k, has_initial (inner_of k).
  Notation applies := (@apply_all (vecdiff K) (list K) apply_to_vec).
  Notation fok := (fok inner_of).

  Lemma bad_step (fs : list (fsig K)) pend o n fs' x y : NoDup (vis fs) -> n < o -> nth_error fs o = Some x -> nth_error fs (o - 1) = Some y ->
    fs_exists x = true -> fs_exists y = false -> apply_to_vec (Move o n) fs = Some fs' ->
    exists e, filter_signal_step inner_of (fs, pend) (Move o n) = Some (fs', pend ++ [e]) /\ apply_to_vec e (vis fs) <> Some (vis fs').
  Proof.
    intros Hnd Hlt Hx Hy Ex Ey Ha. apply apply_inv in Ha. destruct Ha as (a & g & b & c & e & -> & Ho & Hce & -> & Hn).
    assert (g = x) by (rewrite nth_error_app2 in Hx by lia; rewrite Ho, Nat.sub_diag in Hx; cbn in Hx; congruence). subst g o n.
    destruct (@exists_last _ a) as (a' & w & ->); [intros ->; cbn in Hlt; lia|].
    assert (w = y).
    { rewrite app_length in Hy. cbn [length] in Hy. rewrite Nat.add_sub, <- app_assoc, nth_error_app2, Nat.sub_diag in Hy by apply le_n. cbn in Hy. congruence. } subst w.
    assert (Hu : exists u, a' = c ++ u /\ e = u ++ y :: b).
    { destruct (app_eq_cases _ _ _ _ Hce) as [(u & Eu & _)|(u & Eu & Hu)].
      - exfalso. apply (f_equal (@length _)) in Eu. rewrite app_length in Eu. lia.
      - destruct (@exists_last _ u) as (u' & w & ->).
        + intros ->. rewrite app_nil_r in Eu. subst c. lia.
        + rewrite app_assoc in Eu. apply app_inj_tail in Eu. destruct Eu as [-> ->]. exists u'. split; [reflexivity|]. rewrite Hu, <- app_assoc. reflexivity. }
    destruct Hu as (u & -> & ->). cbn [filter_signal_step]. rewrite vremove_app by reflexivity. rewrite Hce, vinsert_app by reflexivity. rewrite Ex.
    assert (F1 : fs_find_index (c ++ x :: u ++ y :: b) (length ((c ++ u) ++ [y])) = Some (length (vis (c ++ x :: u)))).
    { replace (c ++ x :: u ++ y :: b) with ((c ++ x :: u) ++ y :: b) by (rewrite <- app_assoc; reflexivity). apply fs_find_app. rewrite !app_length. cbn [length]. lia. }
    rewrite F1, fs_find_app by reflexivity.
    eexists. split; [reflexivity|]. rewrite !vis_app, !vis_cons, vis_app, vis_cons, Ex, Ey in *. cbn [app] in *. change (vis (@nil (fsig K))) with (@nil K) in *. rewrite !app_nil_r in *.
    intros Hc. apply apply_inv in Hc. destruct Hc as (l1 & h & l2 & m1 & m2 & E1 & L1 & E2 & E3 & L2).
    assert (h = fs_value x).
    { pose proof (f_equal (fun l => nth_error l (length m1)) E3) as Z. cbn beta in Z. rewrite (nth_error_app2 m1), Nat.sub_diag in Z by apply le_n. rewrite L2 in Z at 1.
      rewrite nth_error_app2, Nat.sub_diag in Z by apply le_n. cbn in Z. congruence. } subst h.
    assert (Hat : nth_error ((vis c ++ vis u) ++ fs_value x :: vis b) (length (vis c ++ vis u)) = Some (fs_value x))
      by (rewrite nth_error_app2, Nat.sub_diag by apply le_n; reflexivity).
    assert (Hat' : nth_error ((vis c ++ vis u) ++ fs_value x :: vis b) (length l1) = Some (fs_value x))
      by (rewrite E1, nth_error_app2, Nat.sub_diag by apply le_n; reflexivity).
    assert (Heq : length (vis c ++ vis u) = length l1).
    { apply (proj1 (NoDup_nth_error _) Hnd); [apply nth_error_Some; congruence|congruence]. }
    rewrite L1 in Heq. rewrite !app_length in Heq. cbn [length] in Heq. lia.
  Qed.

  Lemma poll_filters_same (fs : list (fsig K)) : forall idx pend fs' pend' has, poll_filters idx pend fs = Some (fs', pend', has) ->
    map fs_exists fs' = map fs_exists fs -> pend' = pend.
  Proof.
    induction fs as [|f fs IH]; intros idx pend fs' pend' has H He; cbn [poll_filters] in H; [injection H as _ <- _; reflexivity|].
    destruct (drain_slot (fun _ exists_ => Some exists_) (fs_exists f) (fs_signal f)) as [[[new sl] en]|]; [|discriminate].
    destruct (poll_filters _ _ fs) as [[[fs1 pend1] has1]|] eqn:E; [|discriminate]. injection H as <- <- _. cbn in He. injection He as -> He.
    rewrite Bool.eqb_reflx in E. exact (IH _ _ _ _ _ E He).
  Qed.

  Variable source : list (poll (option (vecdiff K))).
  Hypothesis source_good : good_vec_script source.

  Lemma fs_bad_move n st outs : run (filter_signal_poll inner_of) n (filter_signal_init source) = Some (st, outs) -> fis_pending st = [] ->
    forall pre o i st' r ms x y, fs_polls inner_of st st' r (pre ++ [Move o i]) -> moves_well inner_of (marks st) pre ->
      carried (arrived inner_of) pre (marks st) = Some ms -> NoDup (accepted ms) ->
      i < o -> nth_error ms o = Some x -> nth_error ms (o - 1) = Some y -> snd x = Some true -> snd y = Some false ->
      carried (arrived inner_of) (pre ++ [Move o i]) (marks st) = Some (marks st') ->
      applies (accepted (marks st)) (yielded [r] ++ fis_pending st') <> Some (accepted (marks st')).
  Proof.
    intros Hr Hp pre o i st' r ms x y [E Hy0] Hwell Hms Hnd Hlt Hx Hy Ex Ey Hend.
    destruct (filter_signal_run inner_of inner_good source source_good n) as (st1 & outs1 & Hr1 & (Hok & Hg & Hpl & Hrep & HF & _) & _).
    rewrite Hr in Hr1. injection Hr1 as <- <-. unfold filter_signal_poll in E. rewrite Hp in E.
    destruct (drain_slot_inv (filter_signal_step inner_of) (fun ds => replay ds <> None) (@replay_prefix K)
      (fun s ds => replay ds = Some (map fs_value (fst s)) /\ Forall fok (fst s)
          /\ exists new, ds = delivered (fis_signal st) ++ new /\ carried (arrived inner_of) new (marks st) = Some (map mark (fst s))
             /\ (forall rest, pre = new ++ rest -> applies (vis (fis_signals st)) (snd s) = Some (vis (fst s)))
             /\ (new = pre ++ [Move o i] -> applies (vis (fis_signals st)) (snd s) <> Some (vis (fst s)))))
      with (x := (fis_signals st, @nil (vecdiff K))) (sl := fis_signal st)
      as ([fs1 pend1] & sl' & done & Ed & (Hr1 & HF1 & new & Hds & Hcar & _ & Hbad) & Hg').
    { intros [fs1 pend1] ds d (Hr1 & HF1 & new & Hds & Hcar & Hgood & Hbad) Hgd. cbn [fst snd] in *.
      assert (Hs := replay_snoc ds d). rewrite Hr1 in Hs. rewrite Hs in Hgd.
      destruct (apply_to_vec d (map fs_value fs1)) as [ks'|] eqn:Ek; [|congruence].
      destruct (filter_signal_step_ok inner_of inner_good fs1 pend1 d ks' HF1 Ek) as (dm & fs' & more & Es & Hrel & Hdm & Hvis).
      exists (fs', pend1 ++ more). split; [exact Es|]. cbn [fst snd]. rewrite Hs.
      assert (Hk : ks' = map fs_value fs').
      { destruct (fun H => apply_rel (fun k f => fs_value f = k) d dm _ _ fs1 H (map_eq_forall2 fs_value fs1) Ek)
          as (m' & Em & HO).
        - clear - Hrel. destruct d as [vs|j z|j z|j|o n|z| |]; destruct dm as [ws|j' z'|j' z'|j'|p q|z'| |]; simpl in *; try tauto.
          induction Hrel as [|? ? ? ? []]; constructor; assumption.
        - rewrite Hdm in Em. injection Em as <-. exact (forall2_map_eq _ _ _ HO). }
      split; [rewrite Hk; reflexivity|].
      split; [exact (vd_rel_forall _ fok d dm fs1 fs' (fun _ _ H => proj2 H) Hrel HF1 Hdm)|].
      exists (new ++ [d]). split; [rewrite Hds, app_assoc; reflexivity|]. split; [exact (carried_snoc _ _ _ _ _ _ Hcar (step_marks inner_of inner_good _ _ _ _ _ Es))|].
      split.
      - intros rest Hpre. rewrite (applies_app _ _ _ _ (Hgood (d :: rest) ltac:(rewrite Hpre, <- app_assoc; reflexivity))). apply Hvis.
        apply (moves_move_ok inner_of _ _ _ _ HF1 Hcar). rewrite Hpre in Hwell. exact (moves_prefix inner_of _ _ _ Hwell).
      - intros Heq. apply app_inj_tail in Heq. destruct Heq as [-> ->]. rewrite (applies_app _ _ _ _ (Hgood [] ltac:(rewrite app_nil_r; reflexivity))).
        rewrite Hms in Hcar. injection Hcar as ->.
        assert (Hdm2 : dm = Move o i) by (clear - Hrel; destruct dm; cbn in Hrel; try tauto; destruct Hrel; congruence). subst dm.
        destruct (nth_error fs1 o) as [fx|] eqn:Nx; [|rewrite nth_error_map, Nx in Hx; discriminate].
        destruct (nth_error fs1 (o - 1)) as [fy|] eqn:Ny; [|rewrite nth_error_map, Ny in Hy; discriminate].
        rewrite nth_error_map, Nx in Hx. rewrite nth_error_map, Ny in Hy. injection Hx as <-. injection Hy as <-. cbn [mark snd] in Ex, Ey.
        assert (Hfx : fok fx) by (apply nth_error_In in Nx; exact (proj1 (Forall_forall _ _) HF1 fx Nx)).
        assert (Hfy : fok fy) by (apply nth_error_In in Ny; exact (proj1 (Forall_forall _ _) HF1 fy Ny)).
        destruct (bad_step fs1 pend1 o i fs' fx fy) as (e & Es2 & Hne); try assumption.
        + rewrite (vis_accepted inner_of) by exact HF1. exact Hnd.
        + destruct Hfx as (_ & _ & Hfx). congruence.
        + destruct Hfy as (_ & _ & Hfy). congruence.
        + rewrite Es in Es2. injection Es2 as Es2. apply app_inv_head in Es2. subst more. cbn [apply_all]. intros Hc. destruct (apply_to_vec e (vis fs1)) as [l|]; [|discriminate].
          injection Hc as ->. exact (Hne eq_refl). }
    { cbn [fst snd]. split; [exact Hrep|]. split; [exact HF|]. exists []. split; [rewrite app_nil_r; reflexivity|]. split; [reflexivity|]. split; [reflexivity|].
      intros Hc. destruct pre; discriminate Hc. }
    { exact Hg. }
    rewrite Ed in E. cbn [fst snd] in *.
    destruct (poll_filters_ok inner_of fs1 0 pend1 HF1) as (fs2 & more & has & E2 & HF2 & _). pose proof E2 as E3. rewrite E2 in E.
    assert (Hst : fis_signal st' = sl' /\ fis_signals st' = fs2 /\ yielded [r] ++ fis_pending st' = pend1 ++ more).
    { destruct (pend1 ++ more) as [|first rest]; [destruct (done && negb has)|]; injection E as <- <-; auto. }
    destruct Hst as (X1 & X2 & X3). rewrite X1 in Hy0. unfold delivered in Hds. rewrite Hds in Hy0. apply app_inv_head in Hy0. subst new.
    rewrite Hend in Hcar. unfold marks in Hcar at 1. rewrite X2 in Hcar. injection Hcar as Hcar.
    assert (He : map fs_exists fs2 = map fs_exists fs1).
    { assert (Y : forall fs, Forall fok fs -> map snd (map mark fs) = map (fun b => Some b) (map fs_exists fs)).
      { intros fs H. induction H as [|f fs (_ & _ & Hf) _ IH]; [reflexivity|]. cbn. rewrite IH. unfold latest in *. rewrite Hf. reflexivity. }
      pose proof (f_equal (map snd) Hcar) as Z. change (map (fun f => (fs_value f, latest (snd (fs_signal f)))) fs2) with (map mark fs2) in Z. rewrite !Y in Z by assumption.
      clear - Z. revert Z. generalize (map fs_exists fs1). induction (map fs_exists fs2) as [|b l IH]; intros [|b' l'] Z; try discriminate; [reflexivity|]. cbn in Z. injection Z as -> Z. rewrite (IH _ Z). reflexivity. }
    rewrite (poll_filters_same _ _ _ _ _ _ E3 He) in X3. rewrite X3. specialize (Hbad eq_refl). intros Hc. apply Hbad.
    rewrite (vis_accepted inner_of _ HF), (vis_accepted inner_of _ HF1), <- Hcar. unfold marks in Hc. rewrite X2 in Hc. exact Hc.
  Qed.
End Bad.
