(** Proofs for Alert.v. *)
From Verif Require Import Base Spec BaseFacts LoopFacts VecDiff VecSpec MapDiff MapSpec VecSimple Sig SigSlots Slot Chain ChainFacts ElemSignal ElemSignalFacts
  Flatten FlattenFacts SwitchVec SwitchVecFacts MapComb MapValueSignalFacts DelayRemove DelayFacts WakeFacts Views ViewsFacts Compose ComposeFacts Alert.

Lemma asked_listening {X} (a b : src (option X)) : listening a b -> asked (past a) (past b).
Proof. exact (fun H => H). Qed.

Lemma rearms_listens {A B} (m : mach A B) : rearms (mpoll m) snd -> listens m.
Proof. intros H script n st sr outs st' sr' _ _ E. right. exact (H _ _ E). Qed.

Lemma single_listens a b m : single a b m -> listens m.
Proof.
  intros [a0 b0 m0 pre Rm H| |A|A B eqb f|A B f|A test|A].
  1: exact (proj1 (comb_keeps _ _ _ _ _ H)).
  all: apply rearms_listens; try exact (emit_rearms _). exact (stop_if_rearms test).
Qed.

Lemma Forall2_at {X Y} (P : X -> Y -> Prop) l l' : Forall2 P l l' -> forall i y, nth_error l' i = Some y -> exists x, nth_error l i = Some x /\ P x y.
Proof.
  induction 1 as [|x y l l' H _ IH]; intros [|i] z Hi; cbn in Hi; try discriminate; [injection Hi as <-; exists x; auto|]. exact (IH i z Hi).
Qed.
Lemma at_length {X} (l : list X) i : i < length l -> exists x, nth_error l i = Some x.
Proof. intros H. destruct (nth_error l i) eqn:E; [eauto|]. apply nth_error_None in E. lia. Qed.
Lemma last_made {X} (l : list X) : l <> [] -> exists older x, l = older ++ [x].
Proof. intros H. destruct (exists_last H) as (o & x & E). eauto. Qed.

Lemma waits_all k before after W : waits k before after W -> asked before after -> W.
Proof.
  induction 1 as [k before after|k before after H|a b m inp n st sr outs st' sr' before more W Hs Hr Hn Ho Hp _ IH
    |A B f inps n is outs is' before more W Hr Ho Hp _ IH|A B callback inp n st outs st' before more W Hr Ho Hp _ IH
    |A callback inp n st outs st' before more W Hr Ho Hp _ IH|A B inner_of inp n st outs st' before more W V Hi Hr Ho Hp _ IH _ IHi
    |A left right n st outs st' before more W V Hl Hr' Nl Nr Hr Hn Ho Hp _ IHl _ IHr|K B inner_of inp n st outs st' before more W V Hi Hg Hr Hn Ho Hp _ IH _ IHi
    |K inner_of inp n st outs st' before more W V Hi Hg Hr Hn Ho Hp _ IH _ IHi|K A inner_of inp n st outs st' before more W V Hi Hg Hr Hn Ho Hp _ IH _ IHi
    |K future_of inp n st outs st' before more W Hg Hr Hn Ho Hp _ IH|A B inner_of inp n st outs st' before more W V Hi Hr Hn Ho Hp _ IH _ IHi
    |K cmp A B inner_of inp n st outs st' before more W V TO Hi Hg Hr Hn Ho Hp _ IH _ IHi]; intros Ha.
  - exact Ha.
  - exact I.
  - apply IH. exact (single_listens a b m Hs _ _ _ _ _ _ _ Hr Hn Hp).
  - intros i Hi. destruct (at_length _ _ Hi) as (x' & Hx'). pose proof (map_mut_wakes f inps n is outs is' Hr Hp) as F.
    destruct (Forall2_at _ _ _ F i _ (map_nth_error (fun i => snd (mr_signal i)) _ _ Hx')) as (y & Hy & HL).
    rewrite nth_error_map in Hy. destruct (nth_error is i) as [x|] eqn:Hx; [|discriminate]. injection Hy as <-. exact (IH i x x' Hx Hx' HL).
  - destruct (map_future_wakes callback inp n st outs st' Hr Hp) as [H1 H2]. split; [exact (IH H1)|exact H2].
  - destruct (throttle_wakes callback inp n st outs st' Hr Hp) as [H1 H2]. split; [exact H1|]. intros Hf. apply IH. right. exact (H2 Hf).
  - destruct (switch_wakes inner_of inp n st outs st' Hi Hr Hp) as [H1 H2]. split; [exact (IH H1)|]. intros Hm. destruct (last_made _ Hm) as (older & [a f] & E).
    exact (IHi older a f E (H2 older a f E)).
  - destruct (chain_wakes left right Hl Hr' Nl Nr n st outs st' Hr Hn Hp) as [H1 H2]. split; [exact (IHl H1)|exact (IHr H2)].
  - destruct (map_signal_wakes inner_of inp Hi Hg n st outs st' Hr Hn Hp) as [H1 H2]. split; [exact (IH H1)|]. intros i Hl. destruct (at_length _ _ Hl) as (x' & Hx').
    destruct (Forall2_at _ _ _ H2 i x' Hx') as (x & Hx & HL). exact (IHi i x x' Hx Hx' HL).
  - destruct (filter_signal_wakes inner_of inp Hi Hg n st outs st' Hr Hn Hp) as (H1 & new & l & E1 & E2 & H2). split; [exact (IH H1)|]. intros i Hl.
    destruct (at_length _ _ Hl) as (x' & Hx'). destruct (Forall2_at _ _ _ H2 i _ (map_nth_error (fun f => snd (fs_signal f)) _ _ Hx')) as (x & Hx & HL).
    exact (IHi new l i x x' E1 E2 Hx Hx' HL).
  - destruct (flatten_wakes inner_of inp Hi Hg n st outs st' Hr Hn Hp) as (H1 & new & l & E1 & E2 & H2). split; [exact (IH H1)|]. intros i Hl.
    destruct (at_length _ _ Hl) as (x' & Hx'). destruct (Forall2_at _ _ _ H2 i _ (map_nth_error (fun f => snd (fv_signal_vec f)) _ _ Hx')) as (x & Hx & HL).
    exact (IHi new l i x x' E1 E2 Hx Hx' HL).
  - destruct (delay_wakes future_of inp Hg n st outs st' Hr Hn Hp) as [H1 H2]. split; [exact (IH H1)|exact H2].
  - destruct (switch_vec_wakes inner_of inp Hi n st outs st' Hr Hn Hp) as [H1 H2]. split; [exact (IH H1)|]. intros Hm. destruct (last_made _ Hm) as (older & [a f] & E).
    exact (IHi older a f E (H2 older a f E)).
  - destruct (map_value_signal_wakes cmp TO inner_of Hi inp Hg n st outs st' Hr Hn Hp) as [H1 H2]. split; [exact (IH H1)|]. intros i Hl.
    destruct (at_length _ _ Hl) as (x' & Hx'). destruct (Forall2_at _ _ _ H2 i x' Hx') as (x & Hx & HL). exact (IHi i x x' Hx Hx' HL).
Qed.

Lemma for_each_alert {A} (f : nat -> A -> list (poll unit)) inp n st st' W : run_future (for_each_poll f) n (for_each_init inp) = Some (st, None) ->
  for_each_poll f st = Some (st', Pending) -> waits (KSig A) (past (fst st)) (past (fst st')) W ->
  (forall older k g, made (snd st') = older ++ [(k, g)] -> results (past g) = [] -> armed (source_no (made (snd st)) (length older)) g)
  /\ ((forall older k g, made (snd st') = older ++ [(k, g)] -> results (past g) <> []) -> W).
Proof.
  intros Hr Hp Hw. destruct (for_each_wakes f inp n st st' Hr Hp) as [H1 H2]. split; [exact H1|]. intros Hf. apply (waits_all _ _ _ _ Hw). right. exact (H2 Hf).
Qed.
