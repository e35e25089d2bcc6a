(** What every combinator polls before it answers Pending. *)
From Verif Require Import Base Spec BaseFacts VecDiff LoopFacts Slot SlotFacts Sig SigSlots SigFacts SigSlotsFacts
  SigFutFacts SigFlatFacts MapMutFacts VecSimple VecToSignal Sort VecSlotFacts.

(** ** Single sources *)
Lemma emit_rearms {St D O} (step : St -> D -> option (St * option O)) : rearms (emit_poll step) snd.
Proof.
  intros [s sr] [s' sr'] H. simpl in *.
  destruct (loop_emit step s (past sr) (todo sr)) as [[[s1 sr1] r1]|] eqn:E; [|discriminate].
  injection H as <- <- ->. apply loop_emit_struct in E. destruct E as (ds & tl & Hp & _ & ->).
  exists (somes ds). exact Hp.
Qed.

Lemma drain_armed {St D} (step : St -> D -> option St) s sl s' sl' :
  drain_slot step s sl = Some (s', sl', false) -> armed (snd sl) (snd sl').
Proof.
  destruct sl as [[|] sr]; simpl; [|discriminate].
  destruct (loop_drain step s (past sr) (todo sr)) as [[[s1 sr1] d1]|] eqn:E; [|discriminate].
  intros H. injection H as <- <- ->. apply loop_drain_struct in E. destruct E as (ds & Hp & _).
  exists (somes ds). simpl. rewrite Hp, <- app_assoc. reflexivity.
Qed.

Lemma poll_src_armed {X} (sr sr' : src X) : poll_src sr = (Pending, sr') -> armed sr sr'.
Proof.
  unfold poll_src. destruct (todo sr) as [|[|x] t]; intros H; try discriminate; injection H as <-;
    apply armed_intro; reflexivity.
Qed.

Lemma poll_slot_armed {X} (sl sl' : slot X) : poll_slot sl = (Some Pending, sl') -> armed (snd sl) (snd sl').
Proof.
  destruct sl as [[|] sr]; simpl; [|discriminate].
  destruct (poll_src sr) as [r sr'] eqn:E. intros H. injection H as -> <-. apply poll_src_armed. exact E.
Qed.

Lemma tsm_rearms {A B} (callback : list A -> B) : rearms (tsm_poll callback) (fun st => snd (tsm_signal st)).
Proof.
  intros st st' H. unfold tsm_poll in H.
  destruct (drain_slot _ (tsm_values st, false) (tsm_signal st)) as [[[[v c] sl] done]|] eqn:E; [|discriminate].
  destruct (c || tsm_first st); [discriminate|]. destruct done; [discriminate|].
  injection H as <-. exact (drain_armed _ _ _ _ _ E).
Qed.

Lemma sum_rearms {A} (sum : list A -> A) : rearms (sum_poll sum) (fun st => snd (tsm_signal st)).
Proof.
  intros st st' H. unfold sum_poll in H.
  destruct (drain_slot _ (tsm_values st, false) (tsm_signal st)) as [[[[v c] sl] done]|] eqn:E; [|discriminate].
  destruct (c || tsm_first st); [discriminate|]. destruct done; [discriminate|].
  injection H as <-. exact (drain_armed _ _ _ _ _ E).
Qed.

Lemma len_rearms {A} : rearms (@len_poll A) (fun st => snd (len_signal st)).
Proof.
  intros st st' H. unfold len_poll in H.
  destruct (drain_slot _ (len_len st, false) (len_signal st)) as [[[[v c] sl] done]|] eqn:E; [|discriminate].
  destruct (c || len_first st); [discriminate|]. destruct done; [discriminate|].
  injection H as <-. exact (drain_armed _ _ _ _ _ E).
Qed.

Lemma sort_rearms {A} (compare : A -> A -> comparison) : rearms (sort_poll compare) snd.
Proof.
  intros [[pd vs idx] sr] st' H. unfold sort_poll in H. destruct pd as [d|]; [discriminate|].
  exact (emit_rearms (sort_step compare) (mkSort None vs idx, sr) st' H).
Qed.

Lemma maybe_rearms {A E C} (f : A -> C) (g : E -> C) (st st' : maybe_signal A E) :
  maybe_poll f g st = Some (st', Pending) ->
  exists s s', st = MSignal s /\ st' = MSignal s' /\ armed s s'.
Proof.
  destruct st as [s|[v|]]; simpl; [|discriminate|discriminate].
  destruct (poll_src s) as [r s'] eqn:E1. destruct r as [|v]; intros H; [|discriminate].
  injection H as <-. exists s, s'. split; [reflexivity|]. split; [reflexivity|]. apply poll_src_armed. exact E1.
Qed.

Lemma from_future_rearms {A} : rearms (@from_future_poll A) (fun st => snd (ff_future st)).
Proof.
  intros st st' H. unfold from_future_poll in H. destruct (poll_slot (ff_future st)) as [[[|v]|] sl] eqn:E; try discriminate.
  destruct (ff_first st); [discriminate|]. injection H as <-. exact (poll_slot_armed _ _ E).
Qed.

Lemma from_stream_rearms {A} : rearms (@from_stream_poll A) (fun st => snd (fs_stream st)).
Proof.
  intros st st' H. unfold from_stream_poll in H.
  destruct (drain_slot _ None (fs_stream st)) as [[[[v|] sl] done]|] eqn:E; try discriminate.
  destruct (fs_first st); [discriminate|]. destruct done; [discriminate|].
  injection H as <-. exact (drain_armed _ _ _ _ _ E).
Qed.

Lemma to_future_rearms {A} : rearms (@to_future_poll A) snd.
Proof.
  intros [v sr] [v' sr'] H. unfold to_future_poll in H. simpl.
  destruct (loop_drain _ v (past sr) (todo sr)) as [[[s1 sr1] d1]|] eqn:E; [|discriminate].
  destruct d1; [destruct s1; discriminate|]. injection H as <- <-.
  apply loop_drain_struct in E. destruct E as (ds & Hp & _).
  exists (somes ds). simpl. rewrite Hp, <- app_assoc. reflexivity.
Qed.

Lemma stop_if_rearms {A} (test : A -> bool) : rearms (stop_if_poll test) snd.
Proof.
  intros [[stopped calls] sr] [[s' c'] sr'] H. unfold stop_if_poll in H. simpl.
  destruct stopped; [discriminate|]. destruct (poll_src sr) as [[|[v|]] sr1] eqn:E; try discriminate.
  injection H as <- <- <-. apply poll_src_armed. exact E.
Qed.

Lemma sample_rearms {A B} : rearms (@sample_poll A B) ss_stream.
Proof.
  intros st st' H. unfold sample_poll in H. destruct (poll_src (ss_stream st)) as [[|[v|]] sr1] eqn:E; try discriminate.
  - injection H as <-. apply poll_src_armed. exact E.
  - destruct (drain_slot _ (ss_value st) (ss_signal st)) as [[[[w|] sl] done]|]; discriminate.
Qed.

(** ** Several sources *)
Lemma source_no_app {K X} (older : list (K * src X)) k f : source_no (older ++ [(k, f)]) (length older) = f.
Proof. unfold source_no. rewrite nth_error_app2, Nat.sub_diag; [reflexivity|apply le_n]. Qed.

(** Futures were made in between, but none was polled. *)
Definition same_pasts {K X} (a b : list (K * src X)) : Prop :=
  forall i, past (source_no b i) = past (source_no a i).

Lemma same_pasts_set {K X} (a : list (K * src X)) (fs : futs K X) k script :
  same_pasts a (made fs) -> same_pasts a (made (set_fut fs k script)).
Proof.
  intros H i. rewrite <- H. simpl. unfold source_no.
  destruct (Nat.lt_ge_cases i (length (made fs))) as [Hl|Hl].
  - rewrite nth_error_app1; [reflexivity|exact Hl].
  - rewrite nth_error_app2, (proj2 (nth_error_None (made fs) i)); [|exact Hl|exact Hl].
    destruct (i - length (made fs)) as [|j]; simpl; [reflexivity|]. destruct j; reflexivity.
Qed.

Lemma poll_fut_armed {K X} (a : list (K * src X)) (fs fs' : futs K X) :
  same_pasts a (made fs) -> poll_fut fs = (Some Pending, fs') ->
  held fs' = true /\ forall older k f, made fs' = older ++ [(k, f)] -> armed (source_no a (length older)) f.
Proof.
  intros Ha H. unfold poll_fut in H. destruct (held fs); [|discriminate].
  destruct (rev (made fs)) as [|[k sr] older] eqn:Er; [discriminate|].
  destruct (poll_src sr) as [r sr'] eqn:E. injection H as -> <-. simpl. split; [reflexivity|].
  intros o k1 f Hm. apply app_inj_tail in Hm. destruct Hm as [<- Hm]. injection Hm as <- <-.
  assert (Hm : made fs = rev older ++ [(k, sr)]).
  { rewrite <- (rev_involutive (made fs)), Er. reflexivity. }
  specialize (Ha (length (rev older))). rewrite Hm, source_no_app in Ha.
  destruct (poll_src_armed _ _ E) as [p Hp]. exists p. rewrite Hp, Ha. reflexivity.
Qed.

Lemma poll_fut_none_held {K X} (fs fs' : futs K X) : poll_fut fs = (None, fs') -> fs' = fs.
Proof.
  unfold poll_fut. destruct (held fs); [|intros H; injection H as <-; reflexivity].
  destruct (rev (made fs)) as [|[k sr] older]; [intros H; injection H as <-; reflexivity|].
  destruct (poll_src sr); discriminate.
Qed.

Lemma drain_made {A B} (callback : nat -> A -> list (poll B)) (fs fs' : futs A B) sl sl' done :
  drain_slot (fun fs value => Some (set_fut fs value (callback (length (made fs)) value))) fs sl
    = Some (fs', sl', done) -> same_pasts (made fs) (made fs').
Proof.
  destruct sl as [[|] sr]; simpl; [|intros H; injection H as <- <- <-; intros i; reflexivity].
  assert (G : forall td fs1 pst fs2 sr2 d, same_pasts (made fs) (made fs1) ->
    loop_drain (fun fs value => Some (set_fut fs value (callback (length (made fs)) value))) fs1 pst td
      = Some (fs2, sr2, d) -> same_pasts (made fs) (made fs2)).
  { induction td as [|[|[a|]] td IH]; intros fs1 pst fs2 sr2 d HS H; simpl in H.
    - injection H as <- <- <-. exact HS.
    - injection H as <- <- <-. exact HS.
    - apply IH in H; [exact H|]. apply same_pasts_set. exact HS.
    - injection H as <- <- <-. exact HS. }
  destruct (loop_drain _ fs (past sr) (todo sr)) as [[[s1 sr1] d1]|] eqn:E; [|discriminate].
  intros H. injection H as <- <- <-. apply G in E; [exact E|]. intros i. reflexivity.
Qed.

Lemma drain_listening {St D} (step : St -> D -> option St) s sl s' sl' done :
  slot_ok sl -> drain_slot step s sl = Some (s', sl', done) -> listening (snd sl) (snd sl').
Proof.
  intros Hok H. destruct done.
  - left. destruct (drain_slot_ok _ _ _ _ _ _ Hok H) as ([_ Hok'] & Hf & _). apply Hok'. exact Hf.
  - right. exact (drain_armed _ _ _ _ _ H).
Qed.

Lemma mf_inv_reached {A B} (callback : nat -> A -> list (poll B)) script n st outs :
  run (map_future_poll callback) n (map_future_init script) = Some (st, outs) -> mf_inv st outs.
Proof.
  intros H. revert H. apply (run_inv_partial0 (map_future_poll callback) mf_inv (map_future_init script)).
  - unfold mf_inv. cbn [map_future_init mf_signal mf_future mf_first].
    split; [apply slot_ok_fresh|]. split; [apply futs_ok_none|]. split; [reflexivity|].
    split; [split; reflexivity|]. split; [congruence|]. split; [exists []; auto|].
    split; [intros b H; exfalso; exact (last_out_nil _ H)|].
    split; intros H; exfalso; exact (last_out_nil _ H).
  - intros s o s' r HI _ E. destruct (mf_inv_step callback s o HI) as (s1 & r1 & E1 & H1).
    rewrite E in E1. injection E1 as <- <-. exact H1.
Qed.

Lemma map_future_wakes {A B} (callback : nat -> A -> list (poll B)) script n st outs st' :
  run (map_future_poll callback) n (map_future_init script) = Some (st, outs) ->
  map_future_poll callback st = Some (st', Pending) ->
  listening (snd (mf_signal st)) (snd (mf_signal st'))
  /\ (forall older k f, made (mf_future st') = older ++ [(k, f)] -> results (past f) = [] ->
        armed (source_no (made (mf_future st)) (length older)) f).
Proof.
  intros Hr H. assert (HI := mf_inv_reached _ _ _ _ _ Hr).
  destruct (mf_inv_step callback st outs HI) as (s1 & r1 & E1 & H1). rewrite H in E1. injection E1 as <- <-.
  destruct H1 as (_ & (_ & _ & Hun) & _). destruct HI as (Hok & _).
  unfold map_future_poll in H.
  destruct (drain_slot _ (mf_future st) (mf_signal st)) as [[[fs sl] done]|] eqn:E; [|discriminate].
  assert (Hl := drain_listening _ _ _ _ _ _ Hok E). assert (Hs := drain_made _ _ _ _ _ _ E).
  destruct (poll_fut fs) as [[[|v]|] fs'] eqn:Ep; [|discriminate|].
  - destruct (mf_first st); [discriminate|]. injection H as <-. simpl in *. split; [exact Hl|].
    destruct (poll_fut_armed _ _ _ Hs Ep) as [_ Ha]. intros older k f Hm _. exact (Ha older k f Hm).
  - destruct (mf_first st); [discriminate|]. destruct done; [discriminate|]. injection H as <-. simpl in *.
    split; [exact Hl|]. intros older k f Hm Hres. exfalso.
    destruct (held fs') eqn:Hh.
    + assert (Hf := poll_fut_none_held _ _ Ep). subst fs'. unfold poll_fut in Ep. rewrite Hh, Hm, rev_app_distr in Ep.
      simpl in Ep. destruct (poll_src f); discriminate.
    + exact (Hun eq_refl older (k, f) Hm Hres).
Qed.

Lemma th_inv_reached {A} (callback : nat -> list (poll unit)) (script : list (poll (option A))) n st outs :
  run (throttle_poll callback) n (throttle_init script) = Some (st, outs) -> th_inv st outs.
Proof.
  intros H. revert H. apply (run_inv_partial0 (throttle_poll callback) th_inv (throttle_init script)).
  - unfold th_inv. cbn [throttle_init th_signal th_future].
    split; [apply slot_ok_fresh|]. split; [apply futs_ok_none|]. split; [reflexivity|]. split; [reflexivity|].
    split; [intros o f nw H; destruct o; discriminate|].
    split; intros H; exfalso; exact (last_out_nil _ H).
  - intros s o s' r HI _ E. destruct (th_inv_step callback s o HI) as (s1 & r1 & E1 & H1).
    rewrite E in E1. injection E1 as <- <-. exact H1.
Qed.

Lemma throttle_wakes {A} (callback : nat -> list (poll unit)) (script : list (poll (option A))) n st outs st' :
  run (throttle_poll callback) n (throttle_init script) = Some (st, outs) ->
  throttle_poll callback st = Some (st', Pending) ->
  (forall older k f, made (th_future st') = older ++ [(k, f)] -> results (past f) = [] ->
     armed (source_no (made (th_future st)) (length older)) f)
  /\ ((forall older k f, made (th_future st') = older ++ [(k, f)] -> results (past f) <> []) ->
     armed (snd (th_signal st)) (snd (th_signal st'))).
Proof.
  intros Hr H. assert (HI := th_inv_reached _ _ _ _ _ Hr).
  destruct (th_inv_step callback st outs HI) as (s1 & r1 & E1 & H1). rewrite H in E1. injection E1 as <- <-.
  destruct H1 as (_ & (_ & Hhd & Hun) & _).
  unfold throttle_poll in H.
  destruct (poll_fut (th_future st)) as [[[|v]|] fs'] eqn:Ep.
  - injection H as <-. simpl in *. destruct (poll_fut_armed (made (th_future st)) _ _ (fun i => eq_refl) Ep) as [Hh Ha].
    split; [intros older k f Hm _; exact (Ha older k f Hm)|].
    intros Hd. exfalso. destruct (Hhd Hh) as (o & [k f] & Hm & Ho). exact (Hd o k f Hm Ho).
  - destruct (poll_slot (th_signal st)) as [[[|[w|]]|] sl] eqn:Es; try discriminate.
    + injection H as <-. simpl in *. split.
      * intros older k f Hm Hres. exfalso. exact (Hun eq_refl older (k, f) Hm Hres).
      * intros _. exact (poll_slot_armed _ _ Es).
    + destruct (poll_fut (set_fut (unset_fut fs') tt _)) as [[[|]|] ?]; discriminate.
  - destruct (poll_slot (th_signal st)) as [[[|[w|]]|] sl] eqn:Es; try discriminate.
    + injection H as <-. simpl in *. split.
      * intros older k f Hm Hres. exfalso. destruct (held fs') eqn:Hh.
        -- assert (Hf := poll_fut_none_held _ _ Ep). subst fs'. unfold poll_fut in Ep. rewrite Hh, Hm, rev_app_distr in Ep.
           simpl in Ep. destruct (poll_src f); discriminate.
        -- exact (Hun eq_refl older (k, f) Hm Hres).
      * intros _. exact (poll_slot_armed _ _ Es).
    + destruct (poll_fut (set_fut fs' tt _)) as [[[|]|] ?]; discriminate.
Qed.

Lemma sw_inv_reached {A B} (inner_of : nat -> A -> list (poll (option B))) script n st outs :
  (forall k a, has_initial (inner_of k a)) ->
  run (switch_poll inner_of) n (switch_init script) = Some (st, outs) -> sw_inv st outs.
Proof.
  intros Hini. apply (run_inv_partial0 (switch_poll inner_of) sw_inv (switch_init script)).
  - unfold sw_inv. cbn [switch_init fl_signal fl_inner].
    split; [apply slot_ok_fresh|]. split; [apply inners_ok_none|]. split; [reflexivity|]. split; [reflexivity|].
    split; [constructor|]. split; intros H; exfalso; exact (last_out_nil _ H).
  - intros s o s' r HI _ E. destruct (sw_inv_step inner_of s o Hini HI) as (s1 & r1 & E1 & H1).
    rewrite E in E1. injection E1 as <- <-. exact H1.
Qed.

Lemma switch_wakes {A B} (inner_of : nat -> A -> list (poll (option B))) script n st outs st' :
  (forall k a, has_initial (inner_of k a)) ->
  run (switch_poll inner_of) n (switch_init script) = Some (st, outs) ->
  switch_poll inner_of st = Some (st', Pending) ->
  listening (snd (fl_signal st)) (snd (fl_signal st'))
  /\ (forall older a f, made (fl_inner st') = older ++ [(a, f)] ->
        listening (source_no (made (fl_inner st)) (length older)) f).
Proof.
  intros Hini Hr H. assert (HI := sw_inv_reached _ _ _ _ _ Hini Hr).
  destruct (sw_inv_step inner_of st outs Hini HI) as (s1 & r1 & E1 & H1). rewrite H in E1. injection E1 as <- <-.
  destruct H1 as (_ & (_ & _ & Hun) & _). destruct HI as (Hok & _).
  unfold switch_poll in H. assert (Hp := poll_slot_ok _ Hok).
  destruct (poll_slot (fl_signal st)) as [r sl] eqn:Es.
  assert (Hnew : forall a, match poll_fut (set_fut (fl_inner st) a (inner_of (length (made (fl_inner st))) a)) with
      | (Some (Ready (Some _)), _) => True | _ => False end).
  { intros a. destruct (Hini (length (made (fl_inner st))) a) as (b & t & ->).
    unfold poll_fut, set_fut. simpl. rewrite rev_app_distr. simpl. exact I. }
  assert (Hrest : forall (sl' : slot (option A)) done,
    (match poll_fut (fl_inner st) with
     | (Some Pending, inner2) => Some (mkFl sl' inner2, Pending)
     | (Some (Ready (Some v)), inner2) => Some (mkFl sl' inner2, Ready (Some v))
     | (Some (Ready None), inner2) => if done : bool then Some (mkFl sl' (unset_fut inner2), Ready None)
                                       else Some (mkFl sl' (unset_fut inner2), Pending)
     | (None, inner2) => if done then Some (mkFl sl' inner2, Ready None) else Some (mkFl sl' inner2, Pending)
     end) = Some (st', Pending) ->
    fl_signal st' = sl' /\ (forall older a f, made (fl_inner st') = older ++ [(a, f)] ->
        listening (source_no (made (fl_inner st)) (length older)) f)).
  { intros sl' done Hx. destruct (poll_fut (fl_inner st)) as [[[|[v|]]|] fs'] eqn:Ep; try discriminate.
    - injection Hx as <-. simpl in *. split; [reflexivity|].
      destruct (poll_fut_armed (made (fl_inner st)) _ _ (fun i => eq_refl) Ep) as [Hh Ha].
      intros older a f Hm. right. exact (Ha older a f Hm).
    - destruct done; [discriminate|]. injection Hx as <-. simpl in *. split; [reflexivity|].
      intros older a f Hm. left. exact (Hun eq_refl older (a, f) Hm).
    - destruct done; [discriminate|]. injection Hx as <-. simpl in *. split; [reflexivity|].
      intros older a f Hm. left. destruct (held fs') eqn:Hh; [exfalso|exact (Hun eq_refl older (a, f) Hm)].
      assert (Hf := poll_fut_none_held _ _ Ep). subst fs'. unfold poll_fut in Ep. rewrite Hh, Hm, rev_app_distr in Ep.
      simpl in Ep. destruct (poll_src f); discriminate. }
  destruct r as [[|[a|]]|].
  - destruct (Hrest sl false H) as [-> Hi]. split; [right; exact (poll_slot_armed _ _ Es)|exact Hi].
  - specialize (Hnew a). destruct (poll_fut (set_fut (fl_inner st) a _)) as [[[|[v|]]|] fs']; try contradiction. discriminate.
  - destruct (Hrest (drop_slot sl) true H) as [-> Hi]. split; [left; apply Hp|exact Hi].
  - destruct (Hrest sl true H) as [-> Hi]. split; [left|exact Hi]. destruct Hp as [-> Hp]. apply Hok. exact Hp.
Qed.

(** map_ref! and map_mut! *)
Lemma mr_poll_listening {A} (i i' : mr_input A) d : slot_ok (mr_signal i) -> mr_poll i = (i', (d, false)) ->
  listening (mr_src i) (mr_src i').
Proof.
  intros Hok H. unfold mr_poll in H. assert (Hp := poll_slot_ok _ Hok).
  destruct (poll_slot (mr_signal i)) as [[[|[v|]]|] sl] eqn:E; try discriminate; injection H as <- <-; unfold mr_src; simpl.
  - right. exact (poll_slot_armed _ _ E).
  - left. apply Hp.
  - left. destruct Hp as [-> Hp]. apply Hok. exact Hp.
Qed.

Lemma mr_poll_all_listening {A} (is : list (mr_input A)) : forall is' d,
  Forall (fun i => slot_ok (mr_signal i)) is -> mr_poll_all is = (is', (d, false)) ->
  Forall2 listening (map mr_src is) (map mr_src is').
Proof.
  induction is as [|i is IH]; intros is' d Hok H; simpl in H.
  - injection H as <- _. constructor.
  - inversion Hok as [|? ? H1 H2]; subst. destruct (mr_poll i) as [i1 [d1 c1]] eqn:E1.
    destruct (mr_poll_all is) as [is1 [d2 c2]] eqn:E2. injection H as <- _ Hc.
    apply orb_false_iff in Hc. destruct Hc as [-> ->]. simpl. constructor.
    + exact (mr_poll_listening i i1 d1 H1 E1).
    + exact (IH is1 d2 H2 eq_refl).
Qed.

Lemma mr_poll_slot_ok {A} (i : mr_input A) : slot_ok (mr_signal i) -> slot_ok (mr_signal (fst (mr_poll i))).
Proof.
  intros Hok. unfold mr_poll. assert (Hp := poll_slot_ok _ Hok).
  destruct (poll_slot (mr_signal i)) as [[[|[v|]]|] sl]; simpl; try apply Hp.
  destruct Hp as [-> _]. exact Hok.
Qed.

Lemma mr_poll_all_slot_ok {A} (is : list (mr_input A)) : Forall (fun i => slot_ok (mr_signal i)) is ->
  Forall (fun i => slot_ok (mr_signal i)) (fst (mr_poll_all is)).
Proof.
  induction 1 as [|i is H1 H2 IH]; simpl; [constructor|].
  assert (H := mr_poll_slot_ok i H1). destruct (mr_poll i) as [i1 [d1 c1]].
  destruct (mr_poll_all is) as [is1 [d2 c2]]. constructor; assumption.
Qed.

Lemma mr_store_slot_ok {A} (is : list (mr_input A)) vs : Forall (fun i => slot_ok (mr_signal i)) is ->
  Forall (fun i => slot_ok (mr_signal i)) (mr_store is vs).
Proof. intros H. revert vs. induction H; intros [|v vs]; simpl; constructor; auto. Qed.

Lemma map_mut_wakes {A B} (f : list A -> list A * B) (scripts : list (list (poll (option A)))) n is outs is' :
  run (map_mut_poll f) n (map_mut_init scripts) = Some (is, outs) ->
  map_mut_poll f is = Some (is', Pending) ->
  Forall2 listening (map (fun i => snd (mr_signal i)) is) (map (fun i => snd (mr_signal i)) is').
Proof.
  intros Hr H.
  assert (Hok : Forall (fun i => slot_ok (mr_signal i)) is).
  { revert Hr. apply (run_inv_partial0 (map_mut_poll f) (fun is _ => Forall (fun i => slot_ok (mr_signal i)) is)
      (map_mut_init scripts)).
    - unfold map_mut_init. rewrite Forall_map. apply Forall_forall. intros s _. apply slot_ok_fresh.
    - intros s o s' r HI _ E. unfold map_mut_poll in E. assert (H1 := mr_poll_all_slot_ok s HI).
      destruct (mr_poll_all s) as [s1 [d c]]. destruct c.
      + destruct (mr_values s1); [|discriminate]. destruct (f l). injection E as <- <-.
        apply mr_store_slot_ok. exact H1.
      + destruct d; injection E as <- <-; exact H1. }
  unfold map_mut_poll in H. destruct (mr_poll_all is) as [is1 [d c]] eqn:E. destruct c.
  - destruct (mr_values is1); [|discriminate]. destruct (f l). discriminate.
  - destruct d; [discriminate|]. injection H as <-. exact (mr_poll_all_listening is is1 false Hok E).
Qed.

(** for_each *)
Lemma fe_loop_armed {A} (f : nat -> A -> list (poll unit)) (before : src (option A)) (bfs : futs A unit) td :
  forall fs pst sr fs',
  held fs = false -> (exists p, pst = past before ++ p) ->
  (forall i, length (made fs) <= i -> past (source_no (made bfs) i) = []) ->
  fe_loop f fs pst td = ((sr, fs'), Pending) ->
  (held fs' = true /\ forall older k g, made fs' = older ++ [(k, g)] -> armed (source_no (made bfs) (length older)) g)
  \/ (held fs' = false /\ armed before sr).
Proof.
  induction td as [|[|[a|]] td IH]; intros fs pst sr fs' Hh (p & Hp) Hb H; cbn [fe_loop] in H.
  - injection H as <- <-. right. split; [exact Hh|]. exists p. simpl. rewrite Hp, <- app_assoc. reflexivity.
  - injection H as <- <-. right. split; [exact Hh|]. exists p. simpl. rewrite Hp, <- app_assoc. reflexivity.
  - unfold poll_fut, set_fut in H. cbn [held made] in H. rewrite rev_app_distr in H.
    cbn [rev app] in H. destruct (poll_src (fresh (f (length (made fs)) a))) as [r sr'] eqn:E.
    rewrite rev_involutive in H. destruct r as [|u].
    + injection H as <- <-. left. cbn [held made]. split; [reflexivity|]. intros older k g Hm.
      apply app_inj_tail in Hm. destruct Hm as [<- Hm]. injection Hm as _ <-.
      destruct (poll_src_armed _ _ E) as [q Hq]. exists q. rewrite Hq, Hb; [reflexivity|apply le_n].
    + refine (IH _ _ _ _ _ _ _ H).
      * reflexivity.
      * exists (p ++ [Ready (Some a)]). rewrite Hp, <- app_assoc. reflexivity.
      * intros i Hi. apply Hb. cbn [unset_fut made] in Hi. rewrite app_length in Hi. simpl in Hi.
        apply Nat.le_trans with (2 := Hi). apply Nat.le_add_r.
  - discriminate.
Qed.

Lemma source_no_beyond {K X} (l : list (K * src X)) i : length l <= i -> past (source_no l i) = [].
Proof. intros H. unfold source_no. rewrite (proj2 (nth_error_None l i) H). reflexivity. Qed.

Lemma run_future_reached {St X} (m : St -> option (St * poll X)) (I : St -> Prop) :
  (forall s s', I s -> m s = Some (s', Pending) -> I s') ->
  forall n s s', I s -> run_future m n s = Some (s', None) -> I s'.
Proof.
  intros Hs. induction n as [|n IH]; intros s s' HI H; simpl in H.
  - injection H as <-. exact HI.
  - destruct (m s) as [[s1 [|x]]|] eqn:E; try discriminate. apply IH with (2 := H). exact (Hs s s1 HI E).
Qed.

Lemma for_each_wakes {A} (f : nat -> A -> list (poll unit)) script n st st' :
  run_future (for_each_poll f) n (for_each_init script) = Some (st, None) ->
  for_each_poll f st = Some (st', Pending) ->
  (forall older k g, made (snd st') = older ++ [(k, g)] -> results (past g) = [] ->
     armed (source_no (made (snd st)) (length older)) g)
  /\ ((forall older k g, made (snd st') = older ++ [(k, g)] -> results (past g) <> []) ->
     armed (fst st) (fst st')).
Proof.
  intros Hr H.
  assert (HI : fe_inv (fst st) (snd st)).
  { revert Hr. apply (run_future_reached (for_each_poll f) (fun st => fe_inv (fst st) (snd st))).
    - intros s s' HI E. destruct (for_each_step f s HI) as (s1 & r & E1 & HP). rewrite E in E1. injection E1 as <- <-.
      apply HP.
    - simpl. split; [intros []|]. split; [apply futs_ok_none|]. split; [reflexivity|].
      intros o g nw Hx; destruct o; discriminate. }
  destruct (for_each_step f st HI) as (s1 & r1 & E1 & HP). rewrite H in E1. injection E1 as <- <-.
  destruct HP as ((_ & (_ & Hhd & Hun) & _) & _).
  assert (Hfin : (held (snd st') = true /\ forall older k g, made (snd st') = older ++ [(k, g)] ->
                     armed (source_no (made (snd st)) (length older)) g)
                 \/ (held (snd st') = false /\ armed (fst st) (fst st'))).
  { destruct st as [sr fs]. unfold for_each_poll in H. cbn [fst snd] in *. destruct (poll_fut fs) as [[[|u]|] fs1] eqn:Ep.
    - injection H as <-. left. exact (poll_fut_armed (made fs) _ _ (fun i => eq_refl) Ep).
    - destruct (fe_loop f (unset_fut fs1) (past sr) (todo sr)) as [[sr2 fs2] o] eqn:El. injection H as <- ->.
      cbn [fst snd] in *. refine (fe_loop_armed f sr fs (todo sr) _ _ _ _ _ _ _ El); [reflexivity|exists []; rewrite app_nil_r; reflexivity|].
      intros i Hi. apply source_no_beyond. cbn [unset_fut made] in Hi.
      assert (Hlen : length (made fs1) = length (made fs)).
      { destruct HI as (_ & Hfs & _). assert (Hpf := poll_fut_ok fs Hfs). rewrite Ep in Hpf.
        destruct Hpf as (o & k & s1 & s2 & -> & -> & _). rewrite !app_length. reflexivity. }
      rewrite <- Hlen. exact Hi.
    - assert (Hf := poll_fut_none_held _ _ Ep). subst fs1.
      assert (Hh : held fs = false).
      { destruct HI as (_ & Hfs & _). assert (Hpf := poll_fut_ok fs Hfs). rewrite Ep in Hpf. apply Hpf. }
      destruct (fe_loop f fs (past sr) (todo sr)) as [[sr2 fs2] o] eqn:El. injection H as <- ->.
      cbn [fst snd] in *. refine (fe_loop_armed f sr fs (todo sr) _ _ _ _ Hh _ _ El); [exists []; rewrite app_nil_r; reflexivity|].
      intros i Hi. apply source_no_beyond. exact Hi. }
  destruct Hfin as [[Hh Ha]|[Hh Ha]].
  - split; [intros older k g Hm _; exact (Ha older k g Hm)|]. intros Hd. exfalso.
    destruct (Hhd Hh) as (o & [k g] & Hm & Ho). exact (Hd o k g Hm Ho).
  - split; [|intros _; exact Ha]. intros older k g Hm Hres. exfalso. exact (Hun Hh older (k, g) Hm Hres).
Qed.
