(** Proofs for Rest.v. *)
From Coq Require Import Permutation.
From Verif Require Import Base Conc Spec BaseFacts LoopFacts Mpsc Slot VecDiff VecSpec MapDiff MapSpec SortSpec Shared Mutable MutableFacts7 MutableEx Broadcaster Sig SigSlots
  SigFlatFacts VecToSignal VecSimple Sort Chain ChainFacts ElemSignal ElemSignalFacts Flatten FlattenFacts SwitchVec SwitchVecFacts MapComb MapValueSignalFacts
  WakeFacts VecExecFacts Views ViewsFacts Compose ComposeFacts Alert AlertFacts Rest.

Lemma run_more_pending {S O} (m : S -> option (S * poll (option O))) n s s1 s2 outs : run m n s = Some (s1, outs) -> ~ In (Ready None) outs ->
  m s1 = Some (s2, Pending) -> run m (Datatypes.S n) s = Some (s2, outs ++ [Pending]).
Proof. intros H Hn E. pose proof (run_snoc m n s s1 outs H Hn) as X. rewrite E in X. exact X. Qed.

Lemma asked_caught {X} (a b : list (poll (option X))) : asked a b -> caught_up b.
Proof. intros [H|(p & H)]; [right; exact H|left]. exists (a ++ p). rewrite H, app_assoc. reflexivity. Qed.

Lemma caught_asked {X} (a b more : list (poll (option X))) : b = a ++ more -> more <> [] -> caught_up b -> asked a b.
Proof.
  intros -> Hm [(q & H)|H]; [|left; exact H]. right. destruct (exists_last Hm) as (p & x & ->). exists p. rewrite app_assoc in H.
  apply app_inj_tail in H. destruct H as [_ ->]. reflexivity.
Qed.

Lemma rests_gives k before outs R : rests k before outs R -> asked before outs -> gives k outs R.
Proof.
  induction 1 as [A v acts st id s before E Hs Ha Hr Hf Hp Hw|K cmp A m acts st id s before TO Hm E Hs Ha Hr Hw|A d l s k before E Hq Hk Hi Hr Hw He
    |k before outs R Hv Hs|k before outs R Hg He|A B f0 l s i before earlier more R E Hq Hi Ha Hr Hw Hl Hm _ IH
    |a b m pre Rm inp n st sr outs st' before more R Hc Hpre Hr Hn Ho Hp _ IH
    |A B f inps n is outs is' before more R Hne Hi Hr Hn Ho Hp Hin _ IH
    |A B inner_of inp n st outs st' before more R Q Hi Hr Hn Ho Hp Hin _ IH _ IHi
    |A left right n st outs st' before more R1 R2 Gl Gr Nl Nr Hr Hn Ho Hp Hl Hr' _ IHl _ IHr
    |K B inner_of inp n st outs st' before more R Q Hi Hg Hr Hn Ho Hp Hin _ IH _ IHi
    |K inner_of inp n st outs st' before more R Q Hi Hg Hb Hr Hn Ho Hp Hin _ IH _ IHi
    |K A inner_of inp n st outs st' before more R Q Hi Hg Hb Hr Hn Ho Hp Hin _ IH _ IHi
    |A B inner_of inp n st outs st' before more R Q Hi Hr Hn Ho Hp Hin Hat _ IH _ IHi
    |K cmp V B inner_of inp n st outs st' before more R Q TO Hi Hg Hr Hn Ho Hp Hin _ IH _ IHi]; intros Hask.
  - exact (g_mutable_vec A v acts st id s E Hs Ha Hr Hf Hp (Hw Hask)).
  - exact (g_mutable_map K cmp A m acts st id s TO Hm E Hs Ha Hr (Hw Hask)).
  - exact (g_mutable A d l s k E Hq Hk Hi Hr (Hw Hask) He).
  - exact (g_other k outs R Hv (fun _ => Hs Hask)).
  - exact Hg.
  - apply (g_broadcaster A B f0 l s i R E Hq Hi Ha Hr (Hw Hask)). apply IH.
    destruct (bc_leaf f0 l s i E Hq Hi Ha Hr (Hw Hask) (asked_caught _ _ Hask)) as [X _]. exact (caught_asked _ _ _ Hl Hm X).
  - refine (g_comb a b m pre Rm inp (S n) st' _ R Hc (IH _) Hpre (run_more_pending _ _ _ _ _ _ Hr Hn Hp)).
    exact (single_listens a b m (s_comb _ _ _ _ _ Hc) _ _ _ _ _ _ _ Hr Hn Hp).
  - refine (g_map_ref A B f inps (S n) is' _ R Hne Hi _ (run_more_pending _ _ _ _ _ _ Hr Hn Hp) Hin).
    intros i inp Hx. rewrite <- Hin, nth_error_map in Hx. destruct (nth_error is' i) as [x'|] eqn:Hx'; [|discriminate]. injection Hx as <-.
    pose proof (map_mut_wakes _ inps n is outs is' Hr Hp) as F.
    destruct (Forall2_at _ _ _ F i _ (map_nth_error (fun i => snd (mr_signal i)) _ _ Hx')) as (y & Hy & HL).
    rewrite nth_error_map in Hy. destruct (nth_error is i) as [x|] eqn:Hx; [|discriminate]. injection Hy as <-. exact (IH i x x' Hx Hx' HL).
  - destruct (switch_wakes inner_of inp n st outs st' Hi Hr Hp) as [H1 H2]. apply asked_listening in H1. rewrite Hin in H1.
    refine (g_switch A B inner_of inp (S n) st' _ R Q (IH H1) Hi (run_more_pending _ _ _ _ _ _ Hr Hn Hp) Hin _).
    intros older a f E. exact (IHi older a f E (H2 older a f E)).
  - destruct (chain_wakes left right Gl Gr Nl Nr n st outs st' Hr Hn Hp) as [H1 H2]. apply asked_listening in H1, H2. rewrite Hl in H1. rewrite Hr' in H2.
    exact (g_chain A left right (S n) st' _ R1 R2 (IHl H1) (IHr H2) Nl Nr (run_more_pending _ _ _ _ _ _ Hr Hn Hp) Hl Hr').
  - destruct (map_signal_wakes inner_of inp Hi Hg n st outs st' Hr Hn Hp) as [H1 H2]. apply asked_listening in H1. rewrite Hin in H1.
    refine (g_map_signal K B inner_of inp (S n) st' _ R Q (IH H1) Hi (run_more_pending _ _ _ _ _ _ Hr Hn Hp) Hin _).
    intros m Hm. apply In_nth_error in Hm. destruct Hm as (i & Hx'). destruct (Forall2_at _ _ _ H2 i m Hx') as (x & Hx & HL). exact (IHi i x m Hx Hx' HL).
  - destruct (filter_signal_wakes inner_of inp Hi Hg n st outs st' Hr Hn Hp) as (H1 & new & l & E1 & E2 & H2). apply asked_listening in H1. rewrite Hin in H1, E1.
    refine (g_filter_signal K inner_of inp (S n) st' _ R Q (IH H1) Hi Hb (run_more_pending _ _ _ _ _ _ Hr Hn Hp) Hin _).
    intros m Hm. apply In_nth_error in Hm. destruct Hm as (i & Hx').
    destruct (Forall2_at _ _ _ H2 i _ (map_nth_error (fun f => snd (fs_signal f)) _ _ Hx')) as (x & Hx & HL). exact (IHi new l i x m E1 E2 Hx Hx' HL).
  - destruct (flatten_wakes inner_of inp Hi Hg n st outs st' Hr Hn Hp) as (H1 & new & l & E1 & E2 & H2). apply asked_listening in H1. rewrite Hin in H1, E1.
    refine (g_flatten K A inner_of inp (S n) st' _ R Q (IH H1) Hi Hb (run_more_pending _ _ _ _ _ _ Hr Hn Hp) Hin _).
    intros m Hm. apply In_nth_error in Hm. destruct Hm as (i & Hx').
    destruct (Forall2_at _ _ _ H2 i _ (map_nth_error (fun f => snd (fv_signal_vec f)) _ _ Hx')) as (x & Hx & HL). exact (IHi new l i x m E1 E2 Hx Hx' HL).
  - destruct (switch_vec_wakes inner_of inp Hi n st outs st' Hr Hn Hp) as [H1 H2]. apply asked_listening in H1. rewrite Hin in H1.
    refine (g_switch_vec A B inner_of inp (S n) st' _ R Q (IH H1) Hi (run_more_pending _ _ _ _ _ _ Hr Hn Hp) Hin Hat _).
    intros older a f E. exact (IHi older a f E (H2 older a f E)).
  - destruct (map_value_signal_wakes cmp TO inner_of Hi inp Hg n st outs st' Hr Hn Hp) as [H1 H2]. apply asked_listening in H1. rewrite Hin in H1.
    refine (g_map_value_signal K cmp V B inner_of inp (S n) st' _ R Q TO (IH H1) Hi (run_more_pending _ _ _ _ _ _ Hr Hn Hp) Hin _).
    intros m Hm. apply In_nth_error in Hm. destruct Hm as (i & Hx'). destruct (Forall2_at _ _ _ H2 i m Hx') as (x & Hx & HL). exact (IHi i x m Hx Hx' HL).
Qed.

Lemma rests_shows k before outs R : rests k before outs R -> asked before outs -> exists x, says k (yielded outs) x /\ R x.
Proof. intros H Ha. destruct (compose_shows k outs R (rests_gives _ _ _ _ H Ha)) as [_ X]. exact (X (asked_caught _ _ Ha)). Qed.

Lemma gives_rests k before outs R : gives k outs R -> rests k before outs R.
Proof. intros G. destruct (compose_shows k outs R G) as [Hv Hs]. exact (r_other k before outs R Hv (fun Ha => Hs (asked_caught _ _ Ha))). Qed.

Lemma run_future_more {S X} (m : S -> option (S * poll X)) n : forall s s1 s2, run_future m n s = Some (s1, None) -> m s1 = Some (s2, Pending) ->
  run_future m (Datatypes.S n) s = Some (s2, None).
Proof.
  induction n as [|n IH]; intros s s1 s2 H E.
  - injection H as <-. cbn. rewrite E. reflexivity.
  - cbn [run_future] in H |- *. destruct (m s) as [[s' [|x]]|]; [|discriminate|discriminate]. exact (IH s' s1 s2 H E).
Qed.

Lemma for_each_shows k (f : nat -> item k -> list (poll unit)) inp n st st' R : run_future (for_each_poll f) n (for_each_init inp) = Some (st, None) ->
  for_each_poll f st = Some (st', Pending) -> rests k (past (fst st)) (past (fst st')) R ->
  (forall older v g, made (snd st') = older ++ [(v, g)] -> results (past g) <> []) ->
  exists x, says k (map fst (made (snd st'))) x /\ R x.
Proof.
  intros Hr Hp Hs Hf. destruct (for_each_wakes f inp n st st' Hr Hp) as [_ H2].
  destruct (for_each_run f inp (S n)) as (sr & fs & r & E & H & _). rewrite (run_future_more _ _ _ _ _ Hr Hp) in E. injection E as E <-. subst st'. cbn [fst snd] in *.
  rewrite H. apply (rests_shows _ _ _ _ Hs). right. exact (H2 Hf).
Qed.

(** For examples. *)
Lemma vec_rests {A} (v : list A) acts id outs c before :
  match exec vec_step (sh_init v) acts with
  | Some st => match nth_error (chans st) id with
               | Some s => contents st = c /\ cgot s = outs /\ (calive s && ready st && negb (failing st) && negb (poisoned st) && negb (cwoken s)) = true
               | None => False
               end
  | None => False
  end -> exists st, exec vec_step (sh_init v) acts = Some st /\ contents st = c /\ rests (KVec A) before outs (fun l => l = contents st).
Proof.
  destruct (exec vec_step (sh_init v) acts) as [st|] eqn:E; [|contradiction]. destruct (nth_error (chans st) id) as [s|] eqn:Es; [|contradiction].
  intros (C & <- & H). rewrite !andb_true_iff, !negb_true_iff in H. destruct H as ((((H1 & H2) & H3) & H4) & H5). exists st. split; [reflexivity|]. split; [exact C|].
  exact (r_mutable_vec A v acts st id s before E Es H1 H2 H3 H4 (fun _ => H5)).
Qed.
Lemma mu_rests {A} (d : A) l i j oi oj vi vj bi bj :
  match exec mu_step (mu_init d) l with
  | Some s => val_of s i = vi /\ val_of s j = vj /\ g_ans (m_sig s i) = oi /\ g_ans (m_sig s j) = oj /\ (quietb s && mu_restsb s i && mu_restsb s j) = true
  | None => False
  end -> exists s, exec mu_step (mu_init d) l = Some s /\ val_of s i = vi /\ val_of s j = vj
    /\ rests (KSig A) bi oi (fun v => v = val_of s i) /\ rests (KSig A) bj oj (fun v => v = val_of s j).
Proof.
  intros H. assert (X : forall s k b, exec mu_step (mu_init d) l = Some s -> quietb s = true -> mu_restsb s k = true ->
    rests (KSig A) b (g_ans (m_sig s k)) (fun v => v = val_of s k)).
  { clear. intros s k b E Q H. unfold mu_restsb in H. rewrite !andb_true_iff, !negb_true_iff in H. destruct H as ((((H1 & H2) & H3) & H4) & H5). apply Nat.ltb_lt in H1.
    refine (r_mutable A d l s k b E (quietb_spec s Q) H1 _ H3 _ (fun _ => H5)).
    - destruct (g_pc (m_sig s k)); congruence.
    - intros _ Hi. rewrite <- not_true_iff_false in H4. apply H4. apply existsb_exists. eexists. split; [exact Hi|]. cbn. rewrite !Nat.eqb_refl. reflexivity. }
  destruct (exec mu_step (mu_init d) l) as [s|] eqn:E; [|contradiction]. destruct H as (V1 & V2 & <- & <- & H). rewrite !andb_true_iff in H. destruct H as ((H1 & H2) & H3).
  exists s. repeat (split; [assumption||reflexivity|]). split; apply X; auto.
Qed.
