(** Proofs for SwitchSignalVec. *)
From Verif Require Import Base Spec BaseFacts VecDiff VecSpec LoopFacts VecFacts Slot SlotFacts VecSlotFacts ChainFacts
  SigSlots SigSlotsFacts SigFutFacts SigFlatFacts WakeFacts Flatten FlattenFacts SwitchVec.

Lemma calculate_len_ok {B} d (l l' : list B) : apply_to_vec d l = Some l' -> calculate_len (length l) d = Some (length l').
Proof. exact (update_len_ok d l l'). Qed.

(** The last value of a list. *)
Definition final {A} (l : list A) : option A := match rev l with [] => None | a :: _ => Some a end.

Lemma final_snoc {A} (l : list A) a : final (l ++ [a]) = Some a.
Proof. unfold final. rewrite rev_app_distr. reflexivity. Qed.

Lemma drain_final {A} (sl : slot (option A)) : slot_ok sl ->
  exists v sl' done, drain_slot (fun (_ : option A) value => Some (Some value)) None sl = Some (v, sl', done)
    /\ slot_ok sl' /\ (done = true <-> ended (snd sl')) /\ listening (snd sl) (snd sl')
    /\ match v with
       | None => delivered sl' = delivered sl
       | Some a => latest (snd sl') = Some a
       end.
Proof.
  intros Hok.
  destruct (drain_slot_inv (fun (_ : option A) value => Some (Some value)) (fun _ => True) (fun _ _ H => H)
    (fun v ds => match v with None => ds = delivered sl | Some a => final ds = Some a end))
    with (x := @None A) (sl := sl) as (v & sl' & done & E & HJ & _).
  - intros x ds d _ _. exists (Some d). split; [reflexivity|apply final_snoc].
  - reflexivity.
  - exact I.
  - exists v, sl', done. split; [exact E|]. destruct (drain_slot_ok _ _ _ _ _ _ Hok E) as (Hok' & Hf & _).
    split; [exact Hok'|]. split; [|split; [exact (drain_listening _ _ _ _ _ _ Hok E)|destruct v; exact HJ]].
    destruct Hok' as [_ Hok']. rewrite <- Hok', Hf. destruct done; split; intros H; try reflexivity; discriminate.
Qed.

Section SwitchVec.
  Context {A B : Type} (inner_of : nat -> A -> list (poll (option (vecdiff B)))).
  Hypothesis inner_good : forall k a, good_vec_script (inner_of k a).

  (** The current inner SignalVec has conveyed [l]. *)
  Definition holds (fs : futs A (option (vecdiff B))) (l : list B) : Prop :=
    match rev (made fs) with
    | [] => l = []
    | (a, f) :: _ => conveyed f = Some l
    end.

  (** The inner SignalVecs come from the closure; the newest one from the latest value. *)
  Definition sourced (sl : slot (option A)) (fs : futs A (option (vecdiff B))) : Prop :=
    (made fs = [] -> delivered sl = [])
    /\ forall older a f, made fs = older ++ [(a, f)] -> latest (snd sl) = Some a /\ plays (inner_of (length older) a) f.

  Lemma holds_last fs older a f l : made fs = older ++ [(a, f)] -> holds fs l -> conveyed f = Some l.
  Proof. intros Hm. unfold holds. rewrite Hm, rev_app_distr. auto. Qed.
  Lemma holds_intro fs older a f l : made fs = older ++ [(a, f)] -> conveyed f = Some l -> holds fs l.
  Proof. intros Hm. unfold holds. rewrite Hm, rev_app_distr. auto. Qed.

  Lemma poll_inner_vec sl fs l : inners_ok fs -> sourced sl fs -> holds fs l ->
    match poll_fut fs with
    | (None, fs') => fs' = fs /\ held fs = false
    | (Some r, fs') => exists older a f f', made fs = older ++ [(a, f)] /\ made fs' = older ++ [(a, f')]
        /\ past f' = past f ++ [r] /\ held fs' = true
        /\ inners_ok (match r with Ready None => unset_fut fs' | _ => fs' end)
        /\ plays (inner_of (length older) a) f'
        /\ match r with
           | Ready (Some d) => exists l', apply_to_vec d l = Some l' /\ conveyed f' = Some l'
           | _ => conveyed f' = Some l
           end
    end.
  Proof.
    intros Hok Hs Hl. assert (Hp := SigFlatFacts.poll_inner_ok fs Hok). destruct (poll_fut fs) as [[r|] fs']; [|exact Hp].
    destruct Hp as (older & a & f & f' & Hm & Hm' & E & Hpast & Hh & Hok' & _ & _).
    exists older, a, f, f'. split; [exact Hm|]. split; [exact Hm'|]. split; [exact Hpast|]. split; [exact Hh|].
    split; [exact Hok'|]. destruct (proj2 Hs older a f Hm) as [_ Hpl].
    assert (Hpl' := poll_slot_plays (inner_of (length older) a) (true, f) Hpl).
    unfold poll_slot in Hpl'. rewrite E in Hpl'. cbn [snd] in Hpl'. split; [exact Hpl'|].
    assert (Hc := holds_last _ _ _ _ _ Hm Hl). unfold conveyed in *.
    destruct r as [|[d|]]; try (rewrite Hpast, yielded_app, app_nil_r; exact Hc).
    rewrite Hpast, yielded_app. cbn [yielded]. rewrite replay_snoc, Hc.
    assert (Hg := plays_yields _ _ Hpl'). rewrite Hpast, yielded_app in Hg. cbn [yielded] in Hg.
    assert (Hn := inner_good (length older) a). unfold good_vec_script in Hn. rewrite <- Hg in Hn.
    apply replay_prefix in Hn. rewrite replay_snoc, Hc in Hn.
    destruct (apply_to_vec d l) as [l'|]; [|congruence]. exists l'. auto.
  Qed.

  Definition swv_inv (st : switch_vec_state A B) (outs : list (poll (option (vecdiff B)))) : Prop :=
    exists shown,
      slot_ok (swv_signal st) /\ inners_ok (swv_inner st) /\ sourced (swv_signal st) (swv_inner st)
      /\ replay (yielded outs) = Some shown
      /\ (~ In (Ready None) outs -> swv_len st = length shown)
      /\ (made (swv_inner st) = [] -> shown = [])
      /\ ((last_out outs (Ready None) -> forall older a f, made (swv_inner st) = older ++ [(a, f)] -> past f <> [Ready None]) ->
          holds (swv_inner st) shown)
      /\ (last_out outs (Ready None) -> ended (snd (swv_signal st)) /\ held (swv_inner st) = false)
      /\ (last_out outs Pending -> ~ (ended (snd (swv_signal st)) /\ held (swv_inner st) = false)).

  Definition swv_arms (st st' : switch_vec_state A B) (o : poll (option (vecdiff B))) : Prop :=
    o = Pending -> listening (snd (swv_signal st)) (snd (swv_signal st'))
      /\ forall older a f, made (swv_inner st') = older ++ [(a, f)] ->
           listening (source_no (made (swv_inner st)) (length older)) f.

  Lemma swv_poll_ok st outs : swv_inv st outs -> ~ In (Ready None) outs ->
    exists st' o, switch_vec_poll inner_of st = Some (st', o) /\ swv_inv st' (outs ++ [o]) /\ swv_arms st st' o.
  Proof.
    intros (shown & Hok & Hfs & Hsrc & Hsh & Hlen & Hmade & Hhold & _ & _) Hno.
    specialize (Hlen Hno). assert (Hnl : ~ last_out outs (Ready None)).
    { intros [p Hp]. apply Hno. rewrite Hp. apply in_or_app. right. left. reflexivity. }
    specialize (Hhold (fun H => False_ind _ (Hnl H))).
    unfold switch_vec_poll.
    destruct (drain_final (swv_signal st) Hok) as (v & sl' & done & E & Hok' & Hd & Hli & Hv). rewrite E.
    (* what a step leaves behind *)
    assert (Hgen : forall fs' (o : poll (option (vecdiff B))) shown', inners_ok fs' -> sourced sl' fs' ->
      replay (yielded (outs ++ [o])) = Some shown' -> (made fs' = [] -> shown' = []) ->
      ((o = Ready None -> forall older a f, made fs' = older ++ [(a, f)] -> past f <> [Ready None]) -> holds fs' shown') ->
      (o = Ready None -> done = true /\ held fs' = false) -> (o = Pending -> done = true -> held fs' = true) ->
      (o = Pending -> forall older a f, made fs' = older ++ [(a, f)] -> listening (source_no (made (swv_inner st)) (length older)) f) ->
      forall len', (o <> Ready None -> len' = length shown') ->
      swv_inv (mkSwv sl' fs' len') (outs ++ [o]) /\ swv_arms st (mkSwv sl' fs' len') o).
    { intros fs' o shown' G1 G2 G3 G4 G5 G6 G7 G8 len' G9. split.
      - exists shown'. cbn [swv_signal swv_inner swv_len]. rewrite !last_out_snoc.
        split; [exact Hok'|]. split; [exact G1|]. split; [exact G2|]. split; [exact G3|].
        split; [intros Hn; apply G9; intros ->; apply Hn; apply in_or_app; right; left; reflexivity|].
        split; [exact G4|]. split; [exact G5|].
        split; [intros Ho; destruct (G6 Ho) as [Hdn Hh]; split; [apply Hd; exact Hdn|exact Hh]|].
        intros Ho [He Hh]. apply Hd in He. rewrite (G7 Ho He) in Hh. discriminate.
      - intros Ho. cbn [swv_signal swv_inner]. split; [exact Hli|exact (G8 Ho)]. }
    assert (Hsame : forall o, yielded [o] = [] -> replay (yielded (outs ++ [o])) = Some shown).
    { intros o Ho. rewrite yielded_app, Ho, app_nil_r. exact Hsh. }
    assert (Hout : forall d l, apply_to_vec d shown = Some l -> replay (yielded (outs ++ [Ready (Some d)])) = Some l).
    { intros d l H. rewrite yielded_app. cbn [yielded]. rewrite replay_snoc, Hsh. exact H. }
    destruct v as [value|].
    - set (k := length (made (swv_inner st))). set (fs1 := set_fut (swv_inner st) value (inner_of k value)).
      assert (Hok1 : inners_ok fs1) by (apply inners_ok_set; exact Hfs).
      assert (Hm1 : made fs1 = made (swv_inner st) ++ [(value, fresh (inner_of k value))]) by reflexivity.
      assert (Hsrc1 : sourced sl' fs1).
      { split; [rewrite Hm1; intros Hx; apply app_eq_nil in Hx; destruct Hx; discriminate|].
        rewrite Hm1. intros older a f Hx. apply app_inj_tail in Hx. destruct Hx as [<- Hx]. injection Hx as <- <-.
        split; [exact Hv|apply plays_fresh]. }
      assert (Hh1 : holds fs1 []) by (eapply holds_intro; [exact Hm1|reflexivity]).
      assert (Hp := poll_inner_vec sl' fs1 [] Hok1 Hsrc1 Hh1).
      assert (Harm : forall fs', poll_fut fs1 = (Some Pending, fs') -> forall older a f, made fs' = older ++ [(a, f)] ->
        listening (source_no (made (swv_inner st)) (length older)) f).
      { intros fs' Ep older a f Hm. right.
        refine (proj2 (poll_fut_armed (made (swv_inner st)) fs1 fs' _ Ep) older a f Hm).
        unfold fs1. apply same_pasts_set. intros i. reflexivity. }
      destruct (poll_fut fs1) as [[r|] fs'] eqn:Ep.
      2:{ destruct Hp as [_ Hp]. discriminate. }
      destruct Hp as (older & a & f & f' & Hm & Hm' & Hpast & Hh & Hok2 & Hpl & Hr).
      assert (Ef : older = made (swv_inner st) /\ a = value /\ past f = []).
      { rewrite Hm1 in Hm. apply app_inj_tail in Hm. destruct Hm as [-> Hm]. injection Hm as <- <-. auto. }
      destruct Ef as (-> & -> & Hpf). rewrite Hpf in Hpast. cbn [app] in Hpast.
      assert (Hsrc2 : forall h, sourced sl' (mkFuts (made fs') h)).
      { intros h. split; cbn [made]; rewrite Hm'; [intros Hx; apply app_eq_nil in Hx; destruct Hx; discriminate|].
        intros o a0 f0 Hx. apply app_inj_tail in Hx. destruct Hx as [<- Hx]. injection Hx as <- <-.
        split; [exact Hv|exact Hpl]. }
      assert (Hne : made fs' <> []) by (rewrite Hm'; intros Hx; apply app_eq_nil in Hx; destruct Hx; discriminate).
      (* new_signal_vec *)
      assert (Hnew : forall fs2, made fs2 = made fs' -> inners_ok fs2 -> (done = true -> held fs2 = true) ->
        (forall older a f, made fs2 = older ++ [(a, f)] -> listening (source_no (made (swv_inner st)) (length older)) f) ->
        holds fs2 [] ->
        exists st' o, (let '(len', o) := new_signal_vec (swv_len st) in Some (mkSwv sl' fs2 len', o)) = Some (st', o)
          /\ swv_inv st' (outs ++ [o]) /\ swv_arms st st' o).
      { intros fs2 Hmm N1 N2 N3 N4. unfold new_signal_vec.
        assert (Hs2 : sourced sl' fs2) by (unfold sourced; rewrite Hmm; apply (Hsrc2 true)).
        destruct (Nat.eqb_spec (swv_len st) 0) as [E0|E0].
        - eexists _, _. split; [reflexivity|]. rewrite Hlen in E0. apply length_zero_iff_nil in E0.
          apply (Hgen fs2 Pending shown); try assumption; try discriminate.
          + apply Hsame. reflexivity.
          + intros Hx. rewrite Hmm in Hx. contradiction.
          + intros _. rewrite E0. exact N4.
          + intros _. exact N2.
          + intros _. exact N3.
          + intros _. exact Hlen.
        - eexists _, _. split; [reflexivity|]. apply (Hgen fs2 (Ready (Some (Replace []))) []); try assumption; try discriminate.
          + apply Hout. reflexivity.
          + reflexivity.
          + intros _. exact N4.
          + reflexivity. }
      destruct r as [|[d|]].
      + apply Hnew; auto.
        * exact (Harm fs' eq_refl).
        * eapply holds_intro; [exact Hm'|exact Hr].
      + destruct Hr as (l' & Hd' & Hc). assert (Hh2 : holds fs' l') by (eapply holds_intro; [exact Hm'|exact Hc]).
        assert (Hs2 : sourced sl' fs') by (destruct fs'; apply Hsrc2).
        destruct (Nat.eqb_spec (swv_len st) 0) as [E0|E0].
        * rewrite Hlen in E0. apply length_zero_iff_nil in E0. subst shown. rewrite Hlen, (calculate_len_ok _ _ _ Hd').
          eexists _, _. split; [reflexivity|].
          apply (Hgen fs' _ l'); try assumption; try discriminate; auto.
          intros Hx. contradiction.
        * rewrite Hd'. eexists _, _. split; [reflexivity|].
          apply (Hgen fs' _ l'); try assumption; try discriminate; auto.
          intros Hx. contradiction.
      + assert (He : ended f') by (unfold ended; rewrite Hpast; left; reflexivity).
        destruct done.
        * eexists _, _. split; [reflexivity|].
          apply (Hgen (unset_fut fs') (Ready None) shown); try assumption; try discriminate; auto.
          -- apply (Hsrc2 false).
          -- intros Hx. contradiction.
          -- intros Hx. exfalso. exact (Hx eq_refl _ _ _ Hm' Hpast).
        * apply Hnew; auto; try discriminate.
          -- intros o a f0 Hx. left. cbn [made unset_fut] in Hx. rewrite Hm' in Hx.
             apply app_inj_tail in Hx. destruct Hx as [_ Hx]. injection Hx as _ <-. exact He.
          -- eapply holds_intro; [exact Hm'|exact Hr].
    - assert (Hlat : latest (snd sl') = latest (snd (swv_signal st))).
      { unfold latest, latest_of. unfold delivered in Hv. rewrite Hv. reflexivity. }
      assert (Hsrc1 : sourced sl' (swv_inner st)).
      { unfold sourced. rewrite Hlat, Hv. exact Hsrc. }
      assert (Hp := poll_inner_vec sl' (swv_inner st) shown Hfs Hsrc1 Hhold).
      destruct (poll_fut (swv_inner st)) as [[r|] fs'] eqn:Ep.
      + destruct Hp as (older & a & f & f' & Hm & Hm' & Hpast & Hh & Hok2 & Hpl & Hr).
        assert (Hsrc2 : forall h, sourced sl' (mkFuts (made fs') h)).
        { intros h. split; cbn [made]; rewrite Hm'; [intros Hx; apply app_eq_nil in Hx; destruct Hx; discriminate|].
          intros o a0 f0 Hx. apply app_inj_tail in Hx. destruct Hx as [<- Hx]. injection Hx as <- <-.
          split; [exact (proj1 (proj2 Hsrc1 _ _ _ Hm))|exact Hpl]. }
        assert (Hs2 : sourced sl' fs') by (destruct fs'; apply Hsrc2).
        assert (Hne : made fs' <> []) by (rewrite Hm'; intros Hx; apply app_eq_nil in Hx; destruct Hx; discriminate).
        destruct r as [|[d|]].
        * eexists _, _. split; [reflexivity|].
          apply (Hgen fs' _ shown); try assumption; try discriminate; auto.
          -- intros Hx. contradiction.
          -- intros _. eapply holds_intro; [exact Hm'|exact Hr].
          -- intros _. intros o a0 f0 Hx. right.
             exact (proj2 (poll_fut_armed (made (swv_inner st)) _ _ (fun i => eq_refl) Ep) o a0 f0 Hx).
        * destruct Hr as (l' & Hd' & Hc). rewrite Hlen, (calculate_len_ok _ _ _ Hd'). eexists _, _. split; [reflexivity|].
          apply (Hgen fs' _ l'); try assumption; try discriminate; auto.
          -- intros Hx. contradiction.
          -- intros _. eapply holds_intro; [exact Hm'|exact Hc].
        * assert (Hh2 : holds (unset_fut fs') shown) by (eapply holds_intro; [exact Hm'|exact Hr]).
          destruct done; eexists _, _; (split; [reflexivity|]);
            apply (Hgen (unset_fut fs') _ shown); try assumption; try discriminate; auto;
            try (apply (Hsrc2 false)); try (intros Hx; contradiction).
          intros _ o a0 f0 Hx. left. cbn [made unset_fut] in Hx. rewrite Hm' in Hx.
          apply app_inj_tail in Hx. destruct Hx as [_ Hx]. injection Hx as _ <-. unfold ended. rewrite Hpast.
          apply in_or_app. right. left. reflexivity.
      + destruct Hp as [-> Hh].
        destruct done; eexists _, _; (split; [reflexivity|]);
          apply (Hgen (swv_inner st) _ shown); try assumption; try discriminate; auto.
        intros _ o a0 f0 Hx. left. destruct Hfs as (_ & _ & Hun). exact (Hun Hh o (a0, f0) Hx).
  Qed.

  Lemma swv_run script n : exists st outs,
    run (switch_vec_poll inner_of) n (switch_vec_init script) = Some (st, outs) /\ swv_inv st outs
    /\ (~ In (Ready None) outs -> forall st' o, switch_vec_poll inner_of st = Some (st', o) -> swv_arms st st' o).
  Proof.
    apply (run_then (switch_vec_poll inner_of) swv_inv swv_arms (switch_vec_init script)).
    - exists []. cbn [switch_vec_init swv_signal swv_inner swv_len].
      split; [apply slot_ok_fresh|]. split; [apply inners_ok_none|].
      split; [split; [reflexivity|intros older a f Hx; destruct older; discriminate]|].
      split; [reflexivity|]. split; [reflexivity|]. split; [reflexivity|]. split; [reflexivity|].
      split; intros H; exfalso; exact (last_out_nil _ H).
    - exact swv_poll_ok.
  Qed.
End SwitchVec.

Lemma switch_vec_mirror {A B} (inner_of : nat -> A -> list (poll (option (vecdiff B)))) script :
  (forall k a, good_vec_script (inner_of k a)) -> forall n, exists st outs shown,
    run (switch_vec_poll inner_of) n (switch_vec_init script) = Some (st, outs)
    /\ replay (yielded outs) = Some shown
    /\ (made (swv_inner st) = [] -> yielded (past (snd (swv_signal st))) = [] /\ shown = [])
    /\ forall older a f, made (swv_inner st) = older ++ [(a, f)] ->
         latest (snd (swv_signal st)) = Some a /\ plays (inner_of (length older) a) f
         /\ ((last_out outs (Ready None) -> past f <> [Ready None]) -> conveyed f = Some shown).
Proof.
  intros Hg n. destruct (swv_run inner_of Hg script n) as (st & outs & Hr & (shown & _ & _ & Hs & Hsh & _ & Hm & Hh & _) & _).
  exists st, outs, shown. split; [exact Hr|]. split; [exact Hsh|].
  split; [intros H; split; [exact (proj1 Hs H)|exact (Hm H)]|].
  intros older a f Hx. destruct (proj2 Hs older a f Hx) as [H1 H2]. split; [exact H1|]. split; [exact H2|].
  intros Hc. eapply holds_last; [exact Hx|]. apply Hh. intros Hl o a0 f0 Hy. rewrite Hx in Hy.
  apply app_inj_tail in Hy. destruct Hy as [_ Hy]. injection Hy as _ <-. exact (Hc Hl).
Qed.

Lemma switch_vec_ends {A B} (inner_of : nat -> A -> list (poll (option (vecdiff B)))) script :
  (forall k a, good_vec_script (inner_of k a)) -> forall n st outs,
    run (switch_vec_poll inner_of) n (switch_vec_init script) = Some (st, outs) ->
    let outer := snd (swv_signal st) in
    let inner_done := forall older a f, made (swv_inner st) = older ++ [(a, f)] -> ended f in
    obeys_end (past outer)
    /\ Forall (fun kf => obeys_end (past (snd kf))) (made (swv_inner st))
    /\ (last_out outs (Ready None) -> ended outer /\ inner_done)
    /\ (last_out outs Pending -> ~ (ended outer /\ inner_done)).
Proof.
  intros Hg n st outs H. destruct (swv_run inner_of Hg script n)
    as (st1 & outs1 & Hr & (shown & Hok & Hfs & _ & _ & _ & _ & _ & He & Hp) & _).
  rewrite H in Hr. injection Hr as <- <-. cbv zeta. split; [apply Hok|]. split; [apply Hfs|].
  destruct Hfs as (_ & Hhe & Hun). split.
  - intros Ho. destruct (He Ho) as [H1 H2]. split; [exact H1|]. intros older a f Hm. exact (Hun H2 older (a, f) Hm).
  - intros Ho [H1 H2]. apply (Hp Ho). split; [exact H1|]. destruct (held (swv_inner st)) eqn:Eh; [|reflexivity].
    exfalso. destruct (Hhe eq_refl) as (older & [a f] & Hm & Hn). exact (Hn (H2 older a f Hm)).
Qed.

Lemma switch_vec_wakes {A B} (inner_of : nat -> A -> list (poll (option (vecdiff B)))) script :
  (forall k a, good_vec_script (inner_of k a)) -> forall n st outs st',
    run (switch_vec_poll inner_of) n (switch_vec_init script) = Some (st, outs) -> ~ In (Ready None) outs ->
    switch_vec_poll inner_of st = Some (st', Pending) ->
    listening (snd (swv_signal st)) (snd (swv_signal st'))
    /\ (forall older a f, made (swv_inner st') = older ++ [(a, f)] ->
          listening (source_no (made (swv_inner st)) (length older)) f).
Proof.
  intros Hg n st outs st' H Hno Hp. destruct (swv_run inner_of Hg script n) as (st1 & outs1 & Hr & _ & HT).
  rewrite H in Hr. injection Hr as <- <-. exact (HT Hno st' Pending Hp eq_refl).
Qed.
