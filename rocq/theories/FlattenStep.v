(** What one poll of flatten (the SignalVec one) does, exactly. *)
From Verif Require Import Base Spec BaseFacts VecDiff VecSpec LoopFacts VecFacts Slot SlotFacts VecSlotFacts ChainFacts
  VecSimpleFacts WakeFacts ElemSignalFacts Flatten FlattenFacts VecExecFacts FlattenSpec.

Lemma run_stop {St O} (m : St -> option (St * poll (option O))) n : forall s s' outs, run m n s = Some (s', outs) -> In (Ready None) outs -> run m (S n) s = Some (s', outs).
Proof.
  induction n as [|n IH]; intros s s' outs H Hi; [cbn in H; injection H as _ <-; destruct Hi|]. cbn [run] in H. change (run m (S (S n)) s) with
    (match m s with None => None | Some (s1, Ready None) => Some (s1, [Ready None]) | Some (s1, o) => match run m (S n) s1 with None => None | Some (s2, os) => Some (s2, o :: os) end end).
  destruct (m s) as [[s1 [|[x|]]]|]; [| |exact H|discriminate].
  all: destruct (run m n s1) as [[s2 os]|] eqn:E; [|discriminate]; injection H as <- <-; destruct Hi as [Hi|Hi]; [discriminate|]; rewrite (IH _ _ _ E Hi); reflexivity.
Qed.
Lemma In_dec_end {O} (outs : list (poll (option O))) : In (Ready None) outs \/ ~ In (Ready None) outs.
Proof. induction outs as [|[|[x|]] outs [H|H]]; [right|left|right|left|right|left|left]; cbn; auto; intros [|]; [discriminate|auto|discriminate|auto]. Qed.

Section Step.
  Context {K A : Type} (inner_of : K -> list (poll (option (vecdiff A)))).
  Hypothesis inner_good : forall k, good_vec_script (inner_of k).
  Notation applies := (@apply_all (vecdiff A) (list A) apply_to_vec).
  Notation iok := (iok inner_of).

  Lemma step_none inner ls d inner' : Forall2 iok inner ls -> flatten_step inner_of inner d = Some (inner', None) ->
    resets d = false /\ exists ls', apply_to_vec (fst (vd_map no_items d)) ls = Some ls' /\ Forall2 iok inner' ls'.
  Proof.
    intros HF H.
    assert (X : resets d = false /\ apply_to_vec (fst (vd_map (fv_new inner_of) d)) inner = Some inner').
    { destruct d as [vs|i k|i k|i|o n|k| |]; cbn [flatten_step] in H.
      - destruct (poll_all_values (map (fv_new inner_of) vs)) as [[? ?]|]; discriminate.
      - split; [reflexivity|]. cbn. destruct (vinsert i (fv_new inner_of k) inner); [|discriminate]. congruence.
      - split; [reflexivity|]. cbn. destruct (vset i (fv_new inner_of k) inner); [|discriminate]. congruence.
      - split; [reflexivity|]. cbn. destruct (vremove i inner) as [[? ?]|]; [|discriminate]. congruence.
      - split; [reflexivity|]. cbn. destruct (vremove o inner) as [[? ?]|]; [|discriminate]. destruct (vinsert n f l); [|discriminate]. congruence.
      - split; [reflexivity|]. cbn. congruence.
      - split; [reflexivity|]. cbn. destruct (vpop inner) as [[? ?]|]; [|discriminate]. congruence.
      - discriminate. }
    destruct X as [Hd Ha]. split; [exact Hd|].
    refine (apply_rel iok _ (fst (vd_map no_items d)) _ _ _ _ HF Ha).
    destruct d; cbn in Hd |- *; auto; try discriminate; try (split; [reflexivity|]); exact (iok_new inner_of inner_good _).
  Qed.

  Lemma step_some inner d inner' e : flatten_step inner_of inner d = Some (inner', Some e) ->
    resets d = true /\ exists ls, Forall2 iok inner' ls /\ forall l, apply_to_vec e l = Some (concat ls).
  Proof.
    destruct d as [vs|i k|i k|i|o n|k| |]; cbn [flatten_step]; intros H.
    - destruct (poll_all_values_ok inner_of inner_good vs) as (inner1 & ls & E & HF & _). rewrite E in H. injection H as <- <-.
      split; [reflexivity|]. exists ls. split; [exact HF|]. reflexivity.
    - destruct (vinsert i (fv_new inner_of k) inner); discriminate.
    - destruct (vset i (fv_new inner_of k) inner); discriminate.
    - destruct (vremove i inner) as [[? ?]|]; discriminate.
    - destruct (vremove o inner) as [[? ?]|]; [|discriminate]. destruct (vinsert n f l); discriminate.
    - discriminate.
    - destruct (vpop inner) as [[? ?]|]; discriminate.
    - injection H as <- <-. split; [reflexivity|]. exists []. split; [constructor|reflexivity].
  Qed.

  Lemma emit_exact td : forall inner ls pst inner' sr r, Forall2 iok inner ls -> loop_emit (flatten_step inner_of) inner pst td = Some (inner', sr, r) ->
    exists new, yielded (past sr) = yielded pst ++ new
      /\ match r with
         | Ready (Some e) => exists ls', Forall2 iok inner' ls' /\ (forall l, apply_to_vec e l = Some (concat ls'))
             /\ exists new0 d, new = new0 ++ [d] /\ existsb resets new0 = false /\ resets d = true
         | _ => existsb resets new = false /\ exists ls', carried no_items new ls = Some ls' /\ Forall2 iok inner' ls'
         end.
  Proof.
    induction td as [|[|[d|]] td IH]; intros inner ls pst inner' sr r HF H; cbn [loop_emit] in H.
    - injection H as <- <- <-. exists []. cbn [past]. rewrite yielded_app. split; [reflexivity|]. split; [reflexivity|]. exists ls. split; [reflexivity|exact HF].
    - injection H as <- <- <-. exists []. cbn [past]. rewrite yielded_app. split; [reflexivity|]. split; [reflexivity|]. exists ls. split; [reflexivity|exact HF].
    - destruct (flatten_step inner_of inner d) as [[inner1 [e|]]|] eqn:E; [| |discriminate].
      + injection H as <- <- <-. destruct (step_some _ _ _ _ E) as (Hd & ls' & HF' & He). exists [d]. cbn [past]. rewrite yielded_app. split; [reflexivity|].
        exists ls'. split; [exact HF'|]. split; [exact He|]. exists [], d. auto.
      + destruct (step_none _ _ _ _ HF E) as (Hd & ls1 & Ea & HF1). destruct (IH _ _ _ _ _ _ HF1 H) as (new & Hn & Hm). exists (d :: new).
        split; [rewrite Hn, yielded_app, <- app_assoc; reflexivity|].
        assert (Hc : forall ls', carried no_items new ls1 = Some ls' -> carried no_items (d :: new) ls = Some ls').
        { intros ls' Hc. unfold carried in *. cbn [map apply_all]. rewrite Ea. exact Hc. }
        destruct r as [|[e|]].
        * destruct Hm as (Hr & ls' & H1 & H2). split; [cbn; rewrite Hd; exact Hr|]. exists ls'. auto.
        * destruct Hm as (ls' & H1 & H2 & new0 & d1 & -> & H3 & H4). exists ls'. split; [exact H1|]. split; [exact H2|]. exists (d :: new0), d1.
          split; [reflexivity|]. split; [cbn; rewrite Hd; exact H3|exact H4].
        * destruct Hm as (Hr & ls' & H1 & H2). split; [cbn; rewrite Hd; exact Hr|]. exists ls'. auto.
    - injection H as <- <- <-. exists []. cbn [past]. rewrite yielded_app. split; [reflexivity|]. split; [reflexivity|]. exists ls. split; [reflexivity|exact HF].
  Qed.

  Lemma emit_slot_exact inner ls sl inner' sl' r : Forall2 iok inner ls -> emit_slot (flatten_step inner_of) inner sl = Some (inner', sl', r) ->
    exists new, delivered sl' = delivered sl ++ new
      /\ match r with
         | Ready (Some e) => exists ls', Forall2 iok inner' ls' /\ (forall l, apply_to_vec e l = Some (concat ls'))
             /\ exists new0 d, new = new0 ++ [d] /\ existsb resets new0 = false /\ resets d = true
         | _ => existsb resets new = false /\ exists ls', carried no_items new ls = Some ls' /\ Forall2 iok inner' ls'
         end.
  Proof.
    intros HF H. destruct sl as [[|] sr]; cbn in H.
    - destruct (loop_emit (flatten_step inner_of) inner (past sr) (todo sr)) as [[[i1 sr1] r1]|] eqn:E; [|discriminate].
      destruct (emit_exact _ _ _ _ _ _ _ HF E) as (new & H1 & H2). exists new.
      destruct r1 as [|[e|]]; injection H as <- <- <-; split; auto.
    - injection H as <- <- <-. exists []. split; [rewrite app_nil_r; reflexivity|]. split; [reflexivity|]. exists ls. split; [reflexivity|exact HF].
  Qed.

  Lemma iok_holds (inner : list (fstate K A)) ls : Forall2 iok inner ls -> Forall2 holds inner ls.
  Proof. apply forall2_flat. intros f l H. exact (proj1 (proj2 (proj1 H))). Qed.
  Lemma holds_same (inner : list (fstate K A)) ls ls' : Forall2 holds inner ls -> Forall2 holds inner ls' -> ls = ls'.
  Proof.
    intros H. revert ls'. induction H as [|f l inner ls Hf _ IH]; intros ls' H'; inversion H' as [|? l' ? ls2 Hf' H2]; subst; [reflexivity|].
    unfold holds in *. rewrite Hf in Hf'. injection Hf' as ->. rewrite (IH _ H2). reflexivity.
  Qed.

  Lemma poll_exact outer n st outs ls : good_vec_script outer -> run (flatten_vec_poll inner_of) n (flatten_vec_init outer) = Some (st, outs) ->
    fla_pending st = [] -> Forall2 holds (fla_inner st) ls ->
    forall st' o, flatten_vec_poll inner_of st = Some (st', o) -> exists new ls',
      yielded (past (snd (fla_signal st'))) = yielded (past (snd (fla_signal st))) ++ new
      /\ Forall2 holds (fla_inner st') ls'
      /\ ((existsb resets new = false /\ exists ls1, carried no_items new ls = Some ls1 /\ applies (concat ls1) (yielded [o] ++ fla_pending st') = Some (concat ls'))
          \/ ((exists new0 d, new = new0 ++ [d] /\ existsb resets new0 = false /\ resets d = true)
              /\ fla_pending st' = [] /\ exists e, o = Ready (Some e) /\ forall l, apply_to_vec e l = Some (concat ls'))).
  Proof.
    intros Hg Hr Hp HF st' o E. destruct (flatten_vec_run inner_of inner_good outer Hg n) as (st1 & outs1 & Hr1 & (ls0 & shown & th & _ & _ & _ & HI & _) & _).
    rewrite Hr in Hr1. injection Hr1 as <- <-. assert (ls = ls0) by exact (holds_same _ _ _ HF (iok_holds _ _ HI)). subst ls0.
    unfold flatten_vec_poll in E. rewrite Hp in E.
    destruct (emit_slot (flatten_step inner_of) (fla_inner st) (fla_signal st)) as [[[inner sl'] r]|] eqn:Es; [|discriminate].
    destruct (emit_slot_exact _ _ _ _ _ _ HI Es) as (new & Hn & Hm). exists new.
    assert (Hcase : existsb resets new = false /\ (exists ls1, carried no_items new ls = Some ls1 /\ Forall2 iok inner ls1) ->
      (let? (inner', pending, inner_done) := poll_inner 0 [] inner in
        match pending with
        | first :: rest => Some (mkFlat sl' inner' rest, Ready (Some first))
        | [] => if inner_done && match r with Ready None => true | _ => false end
                then Some (mkFlat sl' inner' [], Ready None) else Some (mkFlat sl' inner' [], Pending)
        end) = Some (st', o) ->
      exists ls', yielded (past (snd (fla_signal st'))) = yielded (past (snd (fla_signal st))) ++ new /\ Forall2 holds (fla_inner st') ls'
        /\ exists ls1, carried no_items new ls = Some ls1 /\ applies (concat ls1) (yielded [o] ++ fla_pending st') = Some (concat ls')).
    { intros (Hx & ls1 & Hc & HF1) E1. destruct (poll_inner_ok inner_of (concat ls1) inner ls1 [] [] HF1 eq_refl) as (inner' & ls' & pend & done & E2 & HF2 & _ & Ha2 & _).
      cbn [length app] in E2, Ha2. rewrite E2 in E1. exists ls'. destruct pend as [|d rest].
      - destruct (done && _); injection E1 as <- <-; cbn [fla_signal fla_inner fla_pending]; (split; [exact Hn|]; split; [exact (iok_holds _ _ HF2)|]);
          exists ls1; split; [exact Hc|exact Ha2|exact Hc|exact Ha2].
      - injection E1 as <- <-. cbn [fla_signal fla_inner fla_pending]. split; [exact Hn|]. split; [exact (iok_holds _ _ HF2)|]. exists ls1. split; [exact Hc|exact Ha2]. }
    destruct r as [|[e|]].
    - destruct Hm as [H1 H2]. destruct (Hcase (conj H1 H2) E) as (ls' & X1 & X2 & X3). exists ls'. split; [exact X1|]. split; [exact X2|]. left. auto.
    - injection E as <- <-. destruct Hm as (ls' & X1 & X2 & X3). exists ls'. cbn [fla_signal fla_inner fla_pending]. split; [exact Hn|]. split; [exact (iok_holds _ _ X1)|].
      right. split; [exact X3|]. split; [reflexivity|]. exists e. auto.
    - destruct Hm as [H1 H2]. destruct (Hcase (conj H1 H2) E) as (ls' & X1 & X2 & X3). exists ls'. split; [exact X1|]. split; [exact X2|]. left. auto.
  Qed.

  Variable outer : list (poll (option (vecdiff K))).
  Notation after n := (run (flatten_vec_poll inner_of) n (flatten_vec_init outer)).

  Definition fl_mirrors (n : nat) : Prop := exists st outs ls shown,
    after n = Some (st, outs) /\ Forall2 holds (fla_inner st) ls /\ replay (yielded outs) = Some shown
    /\ (last_out outs Pending \/ last_out outs (Ready None) -> shown = concat ls)
    /\ applies shown (fla_pending st) = Some (concat ls).

  Hypothesis outer_good : good_vec_script outer.

  Lemma after_ex n : exists st outs ls shown, after n = Some (st, outs) /\ Forall2 holds (fla_inner st) ls /\ replay (yielded outs) = Some shown
    /\ (last_out outs Pending \/ last_out outs (Ready None) -> fla_pending st = []).
  Proof.
    destruct (flatten_vec_run inner_of inner_good outer outer_good n) as (st & outs & Hr & (ls & shown & th & _ & _ & _ & HI & Hs & _ & _ & _ & Hp & _) & _).
    exists st, outs, ls, shown. split; [exact Hr|]. split; [exact (iok_holds _ _ HI)|]. auto.
  Qed.

  (** Enough to know the output together with what is queued. *)
  Lemma fl_mirrors_intro n st outs ls shown : after n = Some (st, outs) -> Forall2 holds (fla_inner st) ls -> replay (yielded outs) = Some shown ->
    applies shown (fla_pending st) = Some (concat ls) -> fl_mirrors n.
  Proof.
    intros H1 H2 H3 H4. exists st, outs, ls, shown. split; [exact H1|]. split; [exact H2|]. split; [exact H3|]. split; [|exact H4].
    intros Hl. destruct (after_ex n) as (st1 & outs1 & ls1 & sh1 & E & _ & _ & Hp). rewrite H1 in E. injection E as <- <-.
    rewrite (Hp Hl) in H4. injection H4 as ->. reflexivity.
  Qed.

  Lemma replay_snoc_all (ds es : list (vecdiff A)) l : replay ds = Some l -> replay (ds ++ es) = applies l es.
  Proof. intros H. unfold replay in *. rewrite apply_all_app, H. reflexivity. Qed.

  Lemma fl_mirrors_reset n : reset_at inner_of outer n -> fl_mirrors (S n).
  Proof.
    intros (st & outs & st' & o & new & Hr & Hno & [E Hn] & Hx). pose proof (run_snoc _ _ _ _ _ Hr Hno) as Hr'. rewrite E in Hr'.
    destruct (after_ex n) as (st1 & outs1 & ls & shown & E1 & HF & Hs & _). rewrite Hr in E1. injection E1 as <- <-.
    assert (Hp : fla_pending st = []).
    { destruct (fla_pending st) as [|d rest] eqn:Hp; [reflexivity|]. unfold flatten_vec_poll in E. rewrite Hp in E. injection E as <- <-. cbn in Hn.
      rewrite <- (app_nil_r (yielded _)) in Hn at 1. apply app_inv_head in Hn. subst new. discriminate. }
    destruct (poll_exact outer n st outs ls outer_good Hr Hp HF st' o E) as (new' & ls' & Hn' & HF' & [[Hx' _]|(_ & Hp' & e & -> & He)]).
    { rewrite Hn in Hn'. apply app_inv_head in Hn'. subst new'. congruence. }
    refine (fl_mirrors_intro (S n) _ _ ls' (concat ls') Hr' HF' _ _).
    - rewrite yielded_app, (replay_snoc_all _ _ _ Hs). cbn. rewrite He. reflexivity.
    - rewrite Hp'. reflexivity.
  Qed.

  Lemma fl_mirrors_next n : fl_mirrors n -> harmless inner_of outer n -> fl_mirrors (S n).
  Proof.
    intros (st & outs & ls & shown & Hr & HF & Hs & Hl & Ha) Hh. destruct (In_dec_end outs) as [Hi|Hno].
    { exists st, outs, ls, shown. split; [exact (run_stop _ _ _ _ _ Hr Hi)|]. auto. }
    destruct (after_ex (S n)) as (st' & outs' & _ & _ & Hr' & _). pose proof (run_snoc _ _ _ _ _ Hr Hno) as Hx.
    destruct (flatten_vec_poll inner_of st) as [[st1 o]|] eqn:E; [|congruence]. rewrite Hx in Hr'. injection Hr' as -> <-.
    destruct (fla_pending st) as [|d rest] eqn:Hp.
    - injection Ha as ->. destruct (poll_exact outer n st outs ls outer_good Hr Hp HF st' o E) as (new & ls' & Hn & HF' & [(Hx' & ls1 & Hc & Ha')|(_ & Hp' & e & -> & He)]).
      + rewrite (Hh st outs st' o new ls ls1 Hr (conj E Hn) Hx' HF Hc), apply_all_app in Ha'. destruct (applies (concat ls) (yielded [o])) as [sh|] eqn:Eo; [|discriminate].
        refine (fl_mirrors_intro (S n) _ _ ls' sh Hx HF' _ Ha'). rewrite yielded_app, (replay_snoc_all _ _ _ Hs). exact Eo.
      + refine (fl_mirrors_intro (S n) _ _ ls' (concat ls') Hx HF' _ _).
        * rewrite yielded_app, (replay_snoc_all _ _ _ Hs). cbn. rewrite He. reflexivity.
        * rewrite Hp'. reflexivity.
    - unfold flatten_vec_poll in E. rewrite Hp in E. injection E as <- <-. cbn [apply_all] in Ha. destruct (apply_to_vec d shown) as [sh|] eqn:Ed; [|discriminate].
      refine (fl_mirrors_intro (S n) _ _ ls sh Hx HF _ Ha). rewrite yielded_app, (replay_snoc_all _ _ _ Hs). cbn. rewrite Ed. reflexivity.
  Qed.

  Lemma fl_mirrors_since from n : (from = 0 \/ exists m, from = S m /\ reset_at inner_of outer m) -> from <= n -> (forall m, from <= m < n -> harmless inner_of outer m) -> fl_mirrors n.
  Proof.
    intros Hf Hle. induction Hle as [|n Hle IH]; intros Hh.
    - destruct Hf as [->|(m & -> & Hm)]; [|exact (fl_mirrors_reset m Hm)]. exists (flatten_vec_init outer), [], [], []. cbn. repeat split; auto; constructor.
    - apply fl_mirrors_next; [apply IH; intros m Hm; apply Hh; lia|apply Hh; lia].
  Qed.
End Step.

Lemma flatten_poll_exact K A (inner_of : K -> list (poll (option (vecdiff A)))) outer :
  (forall k, good_vec_script (inner_of k)) -> good_vec_script outer -> forall n st outs ls,
    run (flatten_vec_poll inner_of) n (flatten_vec_init outer) = Some (st, outs) -> fla_pending st = [] ->
    Forall2 holds (fla_inner st) ls -> forall st' o, flatten_vec_poll inner_of st = Some (st', o) -> exists new ls',
      polls inner_of st st' o new
      /\ Forall2 holds (fla_inner st') ls'
      /\ ((existsb resets new = false /\ exists ls1, carried no_items new ls = Some ls1
            /\ apply_all apply_to_vec (concat ls1) (yielded [o] ++ fla_pending st') = Some (concat ls'))
          \/ ((exists new0 d, new = new0 ++ [d] /\ existsb resets new0 = false /\ resets d = true)
              /\ fla_pending st' = [] /\ exists e, o = Ready (Some e) /\ forall l, apply_to_vec e l = Some (concat ls'))).
Proof.
  intros Hi Ho n st outs ls Hr Hp HF st' o E. destruct (poll_exact inner_of Hi outer n st outs ls Ho Hr Hp HF st' o E) as (new & ls' & H1 & H2 & H3).
  exists new, ls'. split; [split; assumption|]. auto.
Qed.

Lemma flatten_since K A (inner_of : K -> list (poll (option (vecdiff A)))) outer :
  (forall k, good_vec_script (inner_of k)) -> good_vec_script outer -> forall from n,
    (from = 0 \/ exists m, from = S m /\ reset_at inner_of outer m) -> from <= n ->
    (forall m, from <= m < n -> harmless inner_of outer m) -> exists st outs ls shown,
      run (flatten_vec_poll inner_of) n (flatten_vec_init outer) = Some (st, outs)
      /\ Forall2 holds (fla_inner st) ls
      /\ replay (yielded outs) = Some shown
      /\ (last_out outs Pending \/ last_out outs (Ready None) -> shown = concat ls)
      /\ apply_all apply_to_vec shown (fla_pending st) = Some (concat ls).
Proof. intros Hi Ho from n. exact (fl_mirrors_since inner_of Hi outer Ho from n). Qed.

(** For the examples: a poll is harmless if a computation says so. *)
Definition inner_contents {K A} (st : flatten_state K A) : list (list A) :=
  map (fun f => match conveyed (snd (fv_signal_vec f)) with Some l => l | None => [] end) (fla_inner st).
Lemma harmless_intro {K A} (inner_of : K -> list (poll (option (vecdiff A)))) outer n :
  match run (flatten_vec_poll inner_of) n (flatten_vec_init outer) with
  | Some (st, _) =>
      match flatten_vec_poll inner_of st with
      | Some (st', _) =>
          match carried no_items (skipn (length (yielded (past (snd (fla_signal st))))) (yielded (past (snd (fla_signal st'))))) (inner_contents st) with
          | Some ls1 => concat ls1 = concat (inner_contents st)
          | None => True
          end
      | None => True
      end
  | None => True
  end -> harmless inner_of outer n.
Proof.
  intros H st outs st' o new ls ls1 Hr [Hp Hn] _ HF Hc. rewrite Hr, Hp, Hn, skipn_app, skipn_all, Nat.sub_diag in H. cbn [skipn app] in H.
  assert (E : inner_contents st = ls).
  { unfold inner_contents. clear - HF. induction HF as [|f l fs ls Hf _ IH]; [reflexivity|]. cbn [map]. unfold holds in Hf. rewrite Hf, IH. reflexivity. }
  rewrite E, Hc in H. exact H.
Qed.

Lemma flatten_fine_mirror {K A} (inner_of : K -> list (poll (option (vecdiff A)))) outer :
  (forall k, good_vec_script (inner_of k)) -> good_vec_script outer -> forall n, flatten_fine inner_of outer n -> exists st outs ls shown,
    run (flatten_vec_poll inner_of) n (flatten_vec_init outer) = Some (st, outs)
    /\ conveyed (snd (fla_signal st)) = Some (map fv_origin (fla_inner st))
    /\ Forall2 holds (fla_inner st) ls
    /\ replay (yielded outs) = Some shown
    /\ (last_out outs Pending \/ last_out outs (Ready None) -> shown = concat ls).
Proof.
  intros Hi Ho n [Ht|(from & H1 & H2 & H3)].
  - destruct (flatten_mirror inner_of outer Hi Ho Ht n) as (st & outs & ls & shown & X1 & X2 & X3 & X4 & X5 & _). exists st, outs, ls, shown.
    split; [exact X1|]. split; [exact X2|]. split; [|auto]. exact (forall2_flat _ _ _ _ (fun f l H => proj2 H) X3).
  - destruct (flatten_since K A inner_of outer Hi Ho from n H1 H2 H3) as (st & outs & ls & shown & X1 & X2 & X3 & X4 & _). exists st, outs, ls, shown.
    split; [exact X1|]. split; [|auto]. destruct (flatten_ends inner_of outer Hi Ho n) as (st1 & outs1 & Y1 & _ & Y2 & _). rewrite X1 in Y1. injection Y1 as <- <-. exact Y2.
Qed.
