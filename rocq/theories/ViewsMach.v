(** The combinators as state machines (Views.v): when they read their input, and what they show. *)
From Coq Require Import Permutation.
From Verif Require Import Base Conc Spec BaseFacts LoopFacts Slot SlotFacts VecDiff VecSpec VecFacts VecSimple VecSimpleFacts Sort SortSpec SortFacts
  VecToSignal VecToSignalFacts Sig SigFacts MapDiff MapSpec MapFacts MapComb MapCombFacts VecCalm VecExecFacts MapViewFacts Views ViewsFacts.

(** ** Loops that answer with every change *)
Section Emit.
  Context {A B : Type} (m : mach A B) (step : mst m -> A -> option (mst m * option B)).
  Hypothesis Hm : forall x, mpoll m x = emit_poll step x.

  Lemma run_ext {S X} (m1 m2 : S -> option (S * poll (option X))) : (forall x, m1 x = m2 x) -> forall n s, run m1 n s = run m2 n s.
  Proof. intros H. induction n as [|n IH]; intros s; simpl; [reflexivity|]. rewrite H. destruct (m2 s) as [[s1 [|[]]]|]; rewrite ?IH; reflexivity. Qed.

  Lemma emit_on_demand : on_demand m.
  Proof.
    intros st pst td st' sr r H. rewrite Hm in H. destruct (emit_demand step _ _ _ _ _ _ H) as [(u & H1 & H2 & H3)|(_ & H2 & _)]; [left|right; eauto].
    exists u. split; [exact H1|]. split; [exact H2|]. intros rest. rewrite Hm. apply H3.
  Qed.
  Lemma emit_listens : listens m.
  Proof. intros script n st [pst td] outs st' sr' _ _ H. rewrite Hm in H. right. exact (emit_rearms step _ _ _ _ _ H). Qed.
  Lemma emit_alert : alert m.
  Proof. intros script n st [pst td] outs st' sr' _ _ H. rewrite Hm in H. exact (emit_rearms step _ _ _ _ _ H). Qed.
  Lemma emit_ends : ends m.
  Proof. intros script n st sr outs H. rewrite (run_ext _ _ Hm) in H. apply emit_run_wake in H. apply H. Qed.
  Lemma emit_obeys : obeys m.
  Proof. intros script n st sr outs H. rewrite (run_ext _ _ Hm) in H. apply emit_run_wake in H. apply H. Qed.
End Emit.

(** ** Loops that read everything that there is *)
Lemma loop_drain_demand {St D} (step : St -> D -> option St) td : forall s pst s' sr done,
  loop_drain step s pst td = Some (s', sr, done) ->
  (exists used, td = used ++ todo sr /\ past sr = pst ++ used
     /\ forall rest, loop_drain step s pst (used ++ rest) = Some (s', mkSrc (pst ++ used) rest, done))
  \/ past sr = pst ++ td ++ [Pending].
Proof.
  induction td as [|x td IH]; intros s pst s' sr r H; simpl in H.
  - injection H as <- <- <-. right. reflexivity.
  - destruct x as [|[d|]].
    + injection H as <- <- <-. left. exists [Pending]. auto.
    + destruct (step s d) as [s1|] eqn:E; [|discriminate]. destruct (IH _ _ _ _ _ H) as [(u & H1 & H2 & H3)|H2].
      * left. exists (Ready (Some d) :: u). split; [simpl; congruence|]. split; [rewrite H2, <- app_assoc; reflexivity|].
        intros rest. simpl. rewrite E, H3, <- app_assoc. reflexivity.
      * right. rewrite H2, <- app_assoc. reflexivity.
    + injection H as <- <- <-. left. exists [Ready None]. auto.
Qed.

Lemma drain_demand {St D} (step : St -> D -> option St) s live pst td s' live' sr done :
  drain_slot step s (live, mkSrc pst td) = Some (s', (live', sr), done) ->
  (exists used, td = used ++ todo sr /\ past sr = pst ++ used
     /\ forall rest, drain_slot step s (live, mkSrc pst (used ++ rest)) = Some (s', (live', mkSrc (pst ++ used) rest), done))
  \/ (exists p, past sr = pst ++ td ++ Pending :: p).
Proof.
  unfold drain_slot. destruct live; cbn [past todo].
  - destruct (loop_drain step s pst td) as [[[s1 sr1] d1]|] eqn:E; [|discriminate]. intros H. injection H as <- <- <- <-.
    destruct (loop_drain_demand _ _ _ _ _ _ _ E) as [(u & H1 & H2 & H3)|H2]; [left|right; eauto].
    exists u. split; [exact H1|]. split; [exact H2|]. intros rest. rewrite H3. reflexivity.
  - intros H. injection H as <- <- <- <-. left. exists []. simpl. rewrite app_nil_r. auto.
Qed.

Section Slot.
  Context {A B X : Type} (m : mach A B) (step : X -> A -> option X) (lv : mst m -> bool).
  Hypothesis Hinit : lv (minit m) = true.
  Hypothesis Hm : forall st sr st' sr' r, mpoll m (st, sr) = Some ((st', sr'), r) ->
    exists s s' done, drain_slot step s (lv st, sr) = Some (s', (lv st', sr'), done) /\ (r = Ready None -> done = true).

  Lemma slot_runs script n st sr outs : run (mpoll m) n (minit m, fresh script) = Some ((st, sr), outs) ->
    slot_ok (lv st, sr) /\ (last_out outs (Ready None) -> ended sr).
  Proof.
    intros H. change (slot_ok (lv (fst (st, sr)), snd (st, sr)) /\ (last_out outs (Ready None) -> ended (snd (st, sr)))). revert H.
    apply (run_inv_partial0 (mpoll m) (fun x outs => slot_ok (lv (fst x), snd x) /\ (last_out outs (Ready None) -> ended (snd x)))).
    - cbn [fst snd]. rewrite Hinit. split; [apply slot_ok_fresh|]. intros H. exfalso. exact (last_out_nil _ H).
    - intros [s1 sr1] os [s2 sr2] o (Hok & _) _ H. cbn [fst snd] in *. destruct (Hm _ _ _ _ _ H) as (a & b & done & E & Hr).
      destruct (drain_slot_ok _ _ _ _ _ _ Hok E) as (K1 & K2 & K3). split; [exact K1|]. rewrite last_out_snoc. intros ->. apply K1. rewrite K2, Hr; reflexivity.
  Qed.

  Lemma slot_listens : listens m.
  Proof.
    intros script n st sr outs st' sr' Hr _ H. destruct (slot_runs _ _ _ _ _ Hr) as [Hok _]. destruct (Hm _ _ _ _ _ H) as (a & b & done & E & _).
    destruct (drain_slot_ok _ _ _ _ _ _ Hok E) as (K1 & K2 & _). destruct done; [left; apply K1; exact K2|right]. unfold drain_slot in E. destruct (lv st); [|discriminate].
    destruct (loop_drain step a (past sr) (todo sr)) as [[[s1 sr1] d1]|] eqn:E1; [|discriminate]. injection E as _ _ <- ->.
    apply loop_drain_struct in E1. destruct E1 as (ds & Hp & _). exists (somes ds). rewrite Hp, <- app_assoc. reflexivity.
  Qed.
  (** If it says that it will wait only when there is something to wait for. *)
  Lemma slot_alert : (forall st sr st' sr', mpoll m (st, sr) = Some ((st', sr'), Pending) -> exists s s', drain_slot step s (lv st, sr) = Some (s', (lv st', sr'), false)) -> alert m.
  Proof.
    intros Hp script n st sr outs st' sr' _ _ H. destruct (Hp _ _ _ _ H) as (a & b & E). unfold drain_slot in E. destruct (lv st); [|discriminate].
    destruct (loop_drain step a (past sr) (todo sr)) as [[[s1 sr1] d1]|] eqn:E1; [|discriminate]. injection E as _ _ <- ->.
    apply loop_drain_struct in E1. destruct E1 as (ds & Hp1 & _). exists (somes ds). rewrite Hp1, <- app_assoc. reflexivity.
  Qed.
  Lemma slot_ends : ends m.
  Proof. intros script n st sr outs Hr. apply (slot_runs _ _ _ _ _ Hr). Qed.
  Lemma slot_obeys : obeys m.
  Proof. intros script n st sr outs Hr. apply (slot_runs _ _ _ _ _ Hr). Qed.
End Slot.

(** The same machine, with its fields in another order. *)
Lemma run_iso {S1 S2 O} (m1 : S1 -> option (S1 * poll (option O))) (m2 : S2 -> option (S2 * poll (option O))) (h : S1 -> S2) :
  (forall x, m2 (h x) = let? (y, r) := m1 x in Some (h y, r)) -> forall n x, run m2 n (h x) = let? (y, outs) := run m1 n x in Some (h y, outs).
Proof.
  intros H. induction n as [|n IH]; intros x; [reflexivity|]. cbn [run]. rewrite H. destruct (m1 x) as [[y r]|]; [|reflexivity].
  destruct r as [|[o|]]; [| |reflexivity]; rewrite IH; destruct (run m1 n y) as [[? ?]|]; reflexivity.
Qed.

(** ** What their inputs and outputs say *)
(** [fw]: whether it never moves an element towards the front. *)
Definition vec_ok {A} (fw : bool) (ds : list (vecdiff A)) : Prop := replay ds <> None /\ (fw = true -> Forall fwd ds).
Definition vec_val {A} (ds : list (vecdiff A)) (l : list A) : Prop := replay ds = Some l.
Definition map_ok {K A} (cmp : K -> K -> comparison) (ds : list (mapdiff K A)) : Prop := mreplay cmp ds <> None /\ ascending_entries cmp ds.
Definition map_val {K A} (cmp : K -> K -> comparison) (ds : list (mapdiff K A)) (l : list (K * A)) : Prop := mreplay cmp ds = Some l.
Definition sig_ok {A} (vs : list A) : Prop := True.
Definition sig_val {A} (vs : list A) (a : A) : Prop := exists p, vs = p ++ [a].

Lemma latest_val {A} (outs : list (poll (option A))) a : latest_of outs = Some a <-> sig_val (yielded outs) a.
Proof.
  unfold latest_of, sig_val. split.
  - destruct (rev (yielded outs)) as [|x t] eqn:E; [discriminate|]. intros H. injection H as ->. exists (rev t). rewrite <- (rev_involutive (yielded outs)), E. reflexivity.
  - intros (p & ->). rewrite rev_app_distr. reflexivity.
Qed.

Lemma complete_ne {X} (outs : list (poll (option X))) : complete outs -> outs <> [].
Proof. intros [(p & ->)|H]; [intros H; destruct p; discriminate|intros ->; destruct H]. Qed.

(** ** SignalVec to SignalVec *)
Section Vec.
  Context {A B : Type} (fw : bool).

  Lemma vmap_mirrors (f : A -> B) : mirrors (vmap_mach f) (vec_ok fw) vec_val (vec_ok fw) vec_val (fun l y => y = map f l).
  Proof.
    intros script [Hg Hf] n. destruct (vmap_mirror f script Hg n) as (st & sr & outs & l & Hr & Hc & Ho & _).
    exists st, sr, outs. split; [exact Hr|]. split.
    - split; [rewrite Ho; discriminate|]. intros E. specialize (Hf E).
      change ((fun outs => Forall fwd (yielded outs)) outs). cbv beta. apply (emit_run_part (vmap_step f) (Forall fwd) (fun _ _ os => Forall fwd os)) in Hr; auto.
      + intros a b. rewrite Forall_app. tauto.
      + intros s1 ds os d s' oo HI HP E1. rewrite Forall_app in HP. destruct HP as [_ HP]. inversion HP; subst. apply Forall_app. split; [exact HI|].
        unfold vmap_step in E1. pose proof (shape_vd_map f d) as Hs. destruct (vd_map f d) as [out c]. injection E1 as _ <-. cbn in *. constructor; [|constructor].
        destruct d, out; try contradiction; try exact I. destruct Hs as [<- <-]. assumption.
    - intros _ x Hx. unfold vec_val, conveyed in *. exists (map f x). split; [congruence|reflexivity].
  Qed.

  Lemma forward_backward (acc : A -> bool) ds : Forall fwd ds -> backward_moves_ok acc ds.
  Proof.
    intros H pre o n post l x y -> _ Hlt _ _ _. exfalso. apply Forall_app in H as [_ H]. inversion H as [|? ? H1 _]; subst. cbn in H1. lia.
  Qed.

  Lemma filter_map_mirrors (f : A -> option B) : fw = true -> mirrors (filter_map_mach f) (vec_ok fw) vec_val (vec_ok fw) vec_val (fun l y => y = accepted_values f l).
  Proof.
    intros -> script [Hg Hf] n. specialize (Hf eq_refl). destruct (filter_map_mirror f script Hg (forward_backward _ _ Hf) n) as (st & sr & outs & l & Hr & Hc & Ho & _).
    exists st, sr, outs. split; [exact Hr|]. split.
    - split; [rewrite Ho; discriminate|]. intros _. exact (filter_map_forward f _ _ _ _ _ Hr Hf).
    - intros _ x Hx. unfold vec_val, conveyed in *. exists (accepted_values f x). split; [congruence|reflexivity].
  Qed.

  Lemma filter_mirrors (p : A -> bool) : fw = true -> mirrors (filter_mach p) (vec_ok fw) vec_val (vec_ok fw) vec_val (fun l y => y = filter p l).
  Proof.
    intros -> script [Hg Hf] n. specialize (Hf eq_refl). destruct (filter_mirror p script Hg (forward_backward _ _ Hf) n) as (st & sr & outs & l & Hr & Hc & Ho & _).
    exists st, sr, outs. split; [exact Hr|]. split.
    - split; [rewrite Ho; discriminate|]. intros _. exact (filter_map_forward _ _ _ _ _ _ Hr Hf).
    - intros _ x Hx. unfold vec_val, conveyed in *. exists (filter p x). split; [congruence|reflexivity].
  Qed.

  Lemma debug_mirrors : mirrors (@debug_mach A) (vec_ok fw) vec_val (vec_ok fw) vec_val (fun l y => y = l).
  Proof.
    intros script [Hg Hf] n. destruct (emit_run_inv (@vdebug_step A) (vec_ok fw) (fun a b H => conj (replay_prefix a b (proj1 H)) (fun E => proj1 (proj1 (Forall_app _ _ _) (proj2 H E))))
      (fun _ ds os => os = ds /\ vec_ok fw ds)) with (s0 := tt) (script := script) (n := n) as ([] & sr & outs & Hr & H1 & H2).
    - intros [] ds os d (-> & _) H. exists tt, (Some d). split; [reflexivity|]. auto.
    - split; [reflexivity|]. split; [discriminate|constructor].
    - split; assumption.
    - exists tt, sr, outs. split; [exact Hr|]. rewrite H1. split; [exact H2|]. intros _ x Hx. eauto.
  Qed.

  Lemma sort_mirrors (compare : A -> A -> comparison) : total_preorder compare ->
    mirrors (sort_mach compare) (vec_ok fw) vec_val (vec_ok fw) vec_val (stable_sort_of compare).
  Proof.
    intros TP script [Hg Hf] n. destruct (sort_mirror compare TP script Hg n) as (st & sr & outs & l & out & Hr & Hc & Hs & Ho).
    exists st, sr, outs. split; [exact Hr|]. split.
    - split; [destruct Ho as [Ho|(p & x & q & _ & Ho & _)]; rewrite Ho; discriminate|]. intros E. apply (sort_calm compare TP _ _ _ _ _ Hg Hr). auto.
    - intros Hcomp x Hx. unfold vec_val, conveyed in *. rewrite Hc in Hx. injection Hx as <-. exists out. split; [|exact Hs].
      destruct Ho as [Ho|(p & x & q & _ & _ & N1 & N2 & _)]; [exact Ho|]. exfalso. destruct Hcomp as [Hl|Hi]; [auto|]. exact (N2 (run_end_last (sort_mach compare) n _ _ _ Hr Hi)).
  Qed.

  Lemma sort_on_demand (compare : A -> A -> comparison) : on_demand (sort_mach compare).
  Proof.
    intros [pe va ix] pst td st' sr r H. cbn [mpoll sort_mach] in *. unfold sort_poll in *. destruct pe as [d|].
    - injection H as <- <- <-. left. exists []. simpl. rewrite app_nil_r. auto.
    - destruct (emit_demand _ _ _ _ _ _ _ H) as [X|(_ & X & _)]; [left; exact X|right; eauto].
  Qed.
  Lemma sort_listens (compare : A -> A -> comparison) : listens (sort_mach compare).
  Proof.
    intros script n [pe va ix] [pst td] outs st' sr' _ _ H. right. cbn [mpoll sort_mach] in H. unfold sort_poll in H. destruct pe; [discriminate|]. exact (emit_rearms _ _ _ _ _ _ H).
  Qed.
  Lemma sort_alert (compare : A -> A -> comparison) : alert (sort_mach compare).
  Proof.
    intros script n [pe va ix] [pst td] outs st' sr' _ _ H. cbn [mpoll sort_mach] in H. unfold sort_poll in H. destruct pe; [discriminate|]. exact (emit_rearms _ _ _ _ _ _ H).
  Qed.
  Lemma sort_ends (compare : A -> A -> comparison) : ends (sort_mach compare).
  Proof. intros script n st sr outs H. apply sort_wake in H. apply H. Qed.
  Lemma sort_obeys (compare : A -> A -> comparison) : obeys (sort_mach compare).
  Proof. intros script n st sr outs H. apply sort_wake in H. apply H. Qed.
End Vec.

(** ** SignalVec to Signal *)
Section ToSignal.
  Context {A B : Type} (fw : bool).
  Notation tsm_step := (fun (s : list A * bool) change => let? values' := tsm_change (fst s) change in Some (values', true)).
  Definition tsm_lv (st : bool * bool * list A) : bool := fst (fst st).
  Definition tsm_h (x : tsm_state A) : (bool * bool * list A) * src (option (vecdiff A)) := ((fst (tsm_signal x), tsm_first x, tsm_values x), snd (tsm_signal x)).

  Lemma tsm_on_demand (f : list A -> B) : on_demand (to_signal_mach f).
  Proof.
    intros [[live fi] va] pst td st' sr r H. cbn [mpoll to_signal_mach] in *. unfold tsm_poll in *. cbn [tsm_signal tsm_first tsm_values] in *.
    destruct (drain_slot tsm_step (va, false) (live, mkSrc pst td)) as [[[[v1 ch] [l1 sr1]] done]|] eqn:E; [|discriminate].
    assert (Es : sr = sr1) by (destruct (ch || fi); [|destruct done]; injection H; auto). subst sr1.
    destruct (drain_demand _ _ _ _ _ _ _ _ _ E) as [(u & H1 & H2 & H3)|X]; [left|right; exact X].
    exists u. split; [exact H1|]. split; [exact H2|]. intros rest. rewrite H3. destruct (ch || fi); [|destruct done]; injection H as <- <-; reflexivity.
  Qed.
  Lemma tsm_slot (f : list A -> B) st sr st' sr' r : mpoll (to_signal_mach f) (st, sr) = Some ((st', sr'), r) ->
    exists s s' done, drain_slot tsm_step s (tsm_lv st, sr) = Some (s', (tsm_lv st', sr'), done) /\ (r = Ready None -> done = true).
  Proof.
    destruct st as [[live fi] va]. cbn [mpoll to_signal_mach]. unfold tsm_poll. cbn [tsm_signal tsm_first tsm_values tsm_lv fst].
    destruct (drain_slot tsm_step (va, false) (live, sr)) as [[[[v1 ch] [l1 sr1]] done]|] eqn:E; [|discriminate]. intros H.
    exists (va, false), (v1, ch), done. rewrite E. destruct (ch || fi); [|destruct done]; injection H as <- <- <-; (split; [reflexivity|]); intros; congruence.
  Qed.
  Lemma tsm_alert (f : list A -> B) : alert (to_signal_mach f).
  Proof.
    apply (slot_alert (to_signal_mach f) tsm_step tsm_lv). intros [[live fi] va] sr st' sr'. cbn [mpoll to_signal_mach]. unfold tsm_poll. cbn [tsm_signal tsm_first tsm_values tsm_lv fst].
    destruct (drain_slot tsm_step (va, false) (live, sr)) as [[[[v1 ch] [l1 sr1]] done]|] eqn:E; [|discriminate]. intros H.
    exists (va, false), (v1, ch). rewrite E. destruct (ch || fi); [discriminate|destruct done; [discriminate|]]. injection H as <- <-. reflexivity.
  Qed.
  Lemma tsm_mirrors (f : list A -> B) : mirrors (to_signal_mach f) (vec_ok fw) vec_val sig_ok sig_val (fun l y => y = f l).
  Proof.
    intros script [Hg _] n. destruct (tsm_shows f script Hg n) as (st & outs & l & Hr & Hc & Ho & _).
    exists (fst (tsm_h st)), (snd (tsm_h st)), outs. split; [|split; [exact I|]].
    - pose proof (run_iso (tsm_poll f) (mpoll (to_signal_mach f)) tsm_h) as X. specialize (X (fun x => ltac:(destruct x as [[? ?] ? ?]; reflexivity)) n (tsm_init script)).
      rewrite Hr in X. exact X.
    - intros Hcomp x Hx. destruct (Ho (complete_ne _ Hcomp)) as [_ Hl]. exists (f l). split; [apply latest_val; exact Hl|]. unfold vec_val, conveyed in *. cbn in Hx. congruence.
  Qed.
End ToSignal.

Section Sum.
  Context {A : Type} (fw : bool).
  Lemma sum_on_demand (sum : list A -> A) : on_demand (sum_mach sum).
  Proof.
    intros [[live fi] va] pst td st' sr r H. cbn [mpoll sum_mach] in *. unfold sum_poll in *. cbn [tsm_signal tsm_first tsm_values] in *.
    destruct (drain_slot sum_change (va, false) (live, mkSrc pst td)) as [[[[v1 ch] [l1 sr1]] done]|] eqn:E; [|discriminate].
    assert (Es : sr = sr1) by (destruct (ch || fi); [|destruct done]; injection H; auto). subst sr1.
    destruct (drain_demand _ _ _ _ _ _ _ _ _ E) as [(u & H1 & H2 & H3)|X]; [left|right; exact X].
    exists u. split; [exact H1|]. split; [exact H2|]. intros rest. rewrite H3. destruct (ch || fi); [|destruct done]; injection H as <- <-; reflexivity.
  Qed.
  Lemma sum_slot (sum : list A -> A) st sr st' sr' r : mpoll (sum_mach sum) (st, sr) = Some ((st', sr'), r) ->
    exists s s' done, drain_slot sum_change s (tsm_lv st, sr) = Some (s', (tsm_lv st', sr'), done) /\ (r = Ready None -> done = true).
  Proof.
    destruct st as [[live fi] va]. cbn [mpoll sum_mach]. unfold sum_poll. cbn [tsm_signal tsm_first tsm_values tsm_lv fst].
    destruct (drain_slot sum_change (va, false) (live, sr)) as [[[[v1 ch] [l1 sr1]] done]|] eqn:E; [|discriminate]. intros H.
    exists (va, false), (v1, ch), done. rewrite E. destruct (ch || fi); [|destruct done]; injection H as <- <- <-; (split; [reflexivity|]); intros; congruence.
  Qed.
  Lemma sum_alert (sum : list A -> A) : alert (sum_mach sum).
  Proof.
    apply (slot_alert (sum_mach sum) sum_change tsm_lv). intros [[live fi] va] sr st' sr'. cbn [mpoll sum_mach]. unfold sum_poll. cbn [tsm_signal tsm_first tsm_values tsm_lv fst].
    destruct (drain_slot sum_change (va, false) (live, sr)) as [[[[v1 ch] [l1 sr1]] done]|] eqn:E; [|discriminate]. intros H.
    exists (va, false), (v1, ch). rewrite E. destruct (ch || fi); [discriminate|destruct done; [discriminate|]]. injection H as <- <-. reflexivity.
  Qed.
  Lemma sum_mirrors (sum : list A -> A) : (forall l l', Permutation l l' -> sum l = sum l') ->
    mirrors (sum_mach sum) (vec_ok fw) vec_val sig_ok sig_val (fun l y => y = sum l).
  Proof.
    intros HP script [Hg _] n. destruct (sum_shows sum script HP Hg n) as (st & outs & l & Hr & Hc & Ho & _).
    exists (fst (tsm_h st)), (snd (tsm_h st)), outs. split; [|split; [exact I|]].
    - pose proof (run_iso (sum_poll sum) (mpoll (sum_mach sum)) tsm_h) as X. specialize (X (fun x => ltac:(destruct x as [[? ?] ? ?]; reflexivity)) n (sum_init script)).
      rewrite Hr in X. exact X.
    - intros Hcomp x Hx. destruct (Ho (complete_ne _ Hcomp)) as [_ Hl]. exists (sum l). split; [apply latest_val; exact Hl|]. unfold vec_val, conveyed in *. cbn in Hx. congruence.
  Qed.
End Sum.

Section Len.
  Context {A : Type} (fw : bool).
  Definition len_h (x : len_state A) : (bool * bool * nat) * src (option (vecdiff A)) := ((fst (len_signal x), len_first x, len_len x), snd (len_signal x)).
  Definition ie_h (x : ie_state A) : (bool * bool * nat * option bool) * src (option (vecdiff A)) :=
    let l := ie_len x in ((fst (len_signal l), len_first l, len_len l, ie_old x), snd (len_signal l)).
  Definition len_lv (st : bool * bool * nat) : bool := fst (fst st).
  Definition ie_lv (st : bool * bool * nat * option bool) : bool := fst (fst (fst st)).

  Lemma len_on_demand : on_demand (@len_mach A).
  Proof.
    intros [[live fi] va] pst td st' sr r H. cbn [mpoll len_mach] in *. unfold len_poll in *. cbn [len_signal len_first len_len] in *.
    destruct (drain_slot len_change (va, false) (live, mkSrc pst td)) as [[[[v1 ch] [l1 sr1]] done]|] eqn:E; [|discriminate].
    assert (Es : sr = sr1) by (destruct (ch || fi); [|destruct done]; injection H; auto). subst sr1.
    destruct (drain_demand _ _ _ _ _ _ _ _ _ E) as [(u & H1 & H2 & H3)|X]; [left|right; exact X].
    exists u. split; [exact H1|]. split; [exact H2|]. intros rest. rewrite H3. destruct (ch || fi); [|destruct done]; injection H as <- <-; reflexivity.
  Qed.
  Lemma len_slot st sr st' sr' r : mpoll (@len_mach A) (st, sr) = Some ((st', sr'), r) ->
    exists s s' done, drain_slot len_change s (len_lv st, sr) = Some (s', (len_lv st', sr'), done) /\ (r = Ready None -> done = true).
  Proof.
    destruct st as [[live fi] va]. cbn [mpoll len_mach]. unfold len_poll. cbn [len_signal len_first len_len len_lv fst].
    destruct (drain_slot len_change (va, false) (live, sr)) as [[[[v1 ch] [l1 sr1]] done]|] eqn:E; [|discriminate]. intros H.
    exists (va, false), (v1, ch), done. rewrite E. destruct (ch || fi); [|destruct done]; injection H as <- <- <-; (split; [reflexivity|]); intros; congruence.
  Qed.
  Lemma len_alert : alert (@len_mach A).
  Proof.
    apply (slot_alert (@len_mach A) len_change len_lv). intros [[live fi] va] sr st' sr'. cbn [mpoll len_mach]. unfold len_poll. cbn [len_signal len_first len_len len_lv fst].
    destruct (drain_slot len_change (va, false) (live, sr)) as [[[[v1 ch] [l1 sr1]] done]|] eqn:E; [|discriminate]. intros H.
    exists (va, false), (v1, ch). rewrite E. destruct (ch || fi); [discriminate|destruct done; [discriminate|]]. injection H as <- <-. reflexivity.
  Qed.
  Lemma len_mirrors : mirrors (@len_mach A) (vec_ok fw) vec_val sig_ok sig_val (fun l y => y = length l).
  Proof.
    intros script [Hg _] n. destruct (len_shows script Hg n) as (st & outs & l & Hr & Hc & Ho & _).
    exists (fst (len_h st)), (snd (len_h st)), outs. split; [|split; [exact I|]].
    - pose proof (run_iso (@len_poll A) (mpoll len_mach) len_h) as X. specialize (X (fun x => ltac:(destruct x as [[? ?] ? ?]; reflexivity)) n (len_init script)).
      rewrite Hr in X. exact X.
    - intros Hcomp x Hx. destruct (Ho (complete_ne _ Hcomp)) as [_ Hl]. exists (length l). split; [apply latest_val; exact Hl|]. unfold vec_val, conveyed in *. cbn in Hx. congruence.
  Qed.

  Lemma ie_on_demand : on_demand (@is_empty_mach A).
  Proof.
    intros [[[live fi] va] old] pst td st' sr r H. cbn [mpoll is_empty_mach] in *. unfold ie_poll, len_poll in *. cbn [len_signal len_first len_len ie_len ie_old] in *.
    destruct (drain_slot len_change (va, false) (live, mkSrc pst td)) as [[[[v1 ch] [l1 sr1]] done]|] eqn:E; [|discriminate].
    assert (Es : sr = sr1) by (destruct (ch || fi); [destruct (negb _)|destruct done]; injection H; auto). subst sr1.
    destruct (drain_demand _ _ _ _ _ _ _ _ _ E) as [(u & H1 & H2 & H3)|X]; [left|right; exact X].
    exists u. split; [exact H1|]. split; [exact H2|]. intros rest. rewrite H3. destruct (ch || fi); [destruct (negb _)|destruct done]; injection H as <- <-; reflexivity.
  Qed.
  Lemma ie_slot st sr st' sr' r : mpoll (@is_empty_mach A) (st, sr) = Some ((st', sr'), r) ->
    exists s s' done, drain_slot len_change s (ie_lv st, sr) = Some (s', (ie_lv st', sr'), done) /\ (r = Ready None -> done = true).
  Proof.
    destruct st as [[[live fi] va] old]. cbn [mpoll is_empty_mach]. unfold ie_poll, len_poll. cbn [len_signal len_first len_len ie_lv fst ie_len ie_old].
    destruct (drain_slot len_change (va, false) (live, sr)) as [[[[v1 ch] [l1 sr1]] done]|] eqn:E; [|discriminate]. intros H.
    exists (va, false), (v1, ch), done. rewrite E. destruct (ch || fi); [destruct (negb _)|destruct done]; injection H as <- <- <-; (split; [reflexivity|]); intros; congruence.
  Qed.
  Lemma ie_mirrors : mirrors (@is_empty_mach A) (vec_ok fw) vec_val sig_ok sig_val (fun l y => y = true <-> l = []).
  Proof.
    intros script [Hg _] n. destruct (is_empty_shows script Hg n) as (st & outs & l & Hr & Hc & Ho & _).
    exists (fst (ie_h st)), (snd (ie_h st)), outs. split; [|split; [exact I|]].
    - pose proof (run_iso (@ie_poll A) (mpoll is_empty_mach) ie_h) as X. specialize (X (fun x => ltac:(destruct x as [[[? ?] ? ?] ?]; reflexivity)) n (ie_init script)).
      rewrite Hr in X. exact X.
    - intros Hcomp x Hx. destruct (Ho (complete_ne _ Hcomp)) as [_ (b & Hl & Hb)]. exists b. split; [apply latest_val; exact Hl|]. unfold vec_val, conveyed in *. cbn in Hx.
      rewrite Hc in Hx. injection Hx as <-. exact Hb.
  Qed.
End Len.

(** ** Signal to Signal *)
Section Sig.
  Lemma map_mirrors {A B} (f : A -> B) : mirrors (map_mach f) sig_ok sig_val sig_ok sig_val (fun a b => b = f a).
  Proof.
    intros script _ n. destruct (map_mirror f script n) as (st & sr & outs & Hr & Ho). exists st, sr, outs. split; [exact Hr|]. split; [exact I|].
    intros _ x (p & Hx). exists (f x). split; [|reflexivity]. exists (map f p). rewrite Ho, yielded_answers_mapped, Hx, map_app. reflexivity.
  Qed.
  Lemma dedupe_mirrors {A} (eqb : A -> A -> bool) : lawful eqb -> mirrors (dedupe_mach eqb) sig_ok sig_val sig_ok sig_val (fun a b => b = a).
  Proof.
    intros HL script _ n. destruct (dedupe_run_lawful eqb script n HL) as (st & sr & outs & Hr & Ho & _). exists st, sr, outs. split; [exact Hr|]. split; [exact I|].
    intros _ x Hx. exists x. split; [|reflexivity]. apply latest_val. rewrite Ho. apply latest_val. exact Hx.
  Qed.
End Sig.

(** ** SignalMap *)
Section Map.
  Context {K : Type} (cmp : K -> K -> comparison) (TO : total_order cmp).

  Lemma map_value_mirrors {A B} (f : A -> B) : mirrors (map_value_mach f) (map_ok cmp) (map_val cmp) (map_ok cmp) (map_val cmp) (fun l y => y = map (fun '(k, v) => (k, f v)) l).
  Proof.
    intros script [Hg Ha] n. destruct (map_value_mirror cmp f script Hg n) as (st & sr & outs & l & Hr & Hc & Ho & _). exists st, sr, outs. split; [exact Hr|]. split.
    - split; [rewrite Ho; discriminate|]. apply (emit_run_part (map_value_step f) (ascending_entries cmp) (fun _ _ os => ascending_entries cmp os)) in Hr; auto.
      + intros a b H es Hi. apply H. apply in_or_app. auto.
      + intros s1 ds os d s' oo HI HP E es Hi. apply in_app_or in Hi. destruct Hi as [Hi|Hi]; [exact (HI _ Hi)|].
        unfold map_value_step in E. destruct (md_map f d) as [out c] eqn:Ed. injection E as _ <-. cbn [olist] in Hi. destruct Hi as [->|[]].
        destruct d as [es0| | | |]; cbn [md_map] in Ed; try discriminate. injection Ed as <- _.
        assert (Hm : is_map cmp es0) by (apply HP; apply in_or_app; right; left; reflexivity).
        unfold is_map in *. rewrite map_map. erewrite map_ext; [exact Hm|]. intros [? ?]. reflexivity.
      + intros es [].
    - intros _ x Hx. unfold map_val, mconveyed in *. eexists. split; [exact Ho|]. congruence.
  Qed.

  Lemma keys_mirrors {A} fw : mirrors (@keys_mach K A cmp) (map_ok cmp) (map_val cmp) (vec_ok fw) vec_val (fun l y => y = map fst l).
  Proof.
    intros script [Hg Ha] n. destruct (keys_mirror cmp TO script Hg Ha n) as (st & sr & outs & l & Hr & Hc & Ho & _). exists st, sr, outs. split; [exact Hr|]. split.
    - split; [rewrite Ho; discriminate|]. intros _. apply (emit_run_part (keys_step cmp) (fun _ => True) (fun _ _ os => Forall fwd os)) in Hr; auto.
      intros s1 ds os d s' oo HI _ E. apply Forall_app. split; [exact HI|]. destruct d; cbn [keys_step] in E.
      all: repeat match type of E with context [match ?x with _ => _ end] => destruct x; try discriminate end.
      all: injection E as _ <-; cbn; repeat constructor.
    - intros _ x Hx. unfold map_val, vec_val, mconveyed in *. eexists. split; [exact Ho|]. congruence.
  Qed.

  Lemma entries_mirrors {A} fw : mirrors (@entries_mach K A cmp) (map_ok cmp) (map_val cmp) (vec_ok fw) vec_val (fun l y => y = l).
  Proof.
    intros script [Hg Ha] n. destruct (entries_mirror cmp TO script Hg Ha n) as (st & sr & outs & l & Hr & Hc & Ho & _). exists st, sr, outs. split; [exact Hr|]. split.
    - split; [rewrite Ho; discriminate|]. intros _. apply (emit_run_part (entries_step cmp) (fun _ => True) (fun _ _ os => Forall fwd os)) in Hr; auto.
      intros s1 ds os d s' oo HI _ E. apply Forall_app. split; [exact HI|]. destruct d; cbn [entries_step] in E.
      all: repeat match type of E with context [match ?x with _ => _ end] => destruct x; try discriminate end.
      all: injection E as _ <-; cbn; repeat constructor.
    - intros _ x Hx. unfold map_val, vec_val, mconveyed in *. eexists. split; [exact Ho|]. congruence.
  Qed.

  Lemma ascending_distinct {A} (ds : list (mapdiff K A)) : ascending_entries cmp ds -> distinct_entries ds.
  Proof. intros H es Hi. eapply is_map_nodup; eauto. Qed.

  Lemma key_mirrors {A} (key_eq : K -> K -> bool) (LK : lawful key_eq) k :
    mirrors (@key_mach K A key_eq k) (map_ok cmp) (map_val cmp) sig_ok sig_val (fun l y => forall v, y = Some v <-> In (k, v) l).
  Proof.
    intros script [Hg Ha] n. destruct (key_cloned_mirror cmp TO key_eq LK k script Hg (ascending_distinct _ Ha) n) as (st & sr & outs & l & Hr & Hc & Ho).
    exists st, sr, outs. split; [exact Hr|]. split; [exact I|]. intros Hcomp x Hx. destruct (Ho (complete_ne _ Hcomp)) as (o & Hl & Hv). exists o.
    split; [apply latest_val; exact Hl|]. unfold map_val, mconveyed in *. rewrite Hc in Hx. injection Hx as <-. exact Hv.
  Qed.
End Map.

Section Key.
  Context {K A : Type} (key_eq : K -> K -> bool) (k : K).
  Lemma key_on_demand : on_demand (@key_mach K A key_eq k).
  Proof.
    intros fi pst td st' sr r H. cbn [mpoll key_mach] in *. unfold key_poll in *. cbn [past todo] in *.
    destruct (loop_drain (key_step key_eq k) None pst td) as [[[ch sr1] done]|] eqn:E; [|discriminate].
    assert (Es : sr = sr1) by (destruct ch; [|destruct fi; [|destruct done]]; injection H; auto). subst sr1.
    destruct (loop_drain_demand _ _ _ _ _ _ _ E) as [(u & H1 & H2 & H3)|X]; [left|right; eauto].
    exists u. split; [exact H1|]. split; [exact H2|]. intros rest. rewrite H3. destruct ch; [|destruct fi; [|destruct done]]; injection H as <- <-; reflexivity.
  Qed.
  Lemma key_listens : listens (@key_mach K A key_eq k).
  Proof. intros script n st sr outs st' sr' _ _ H. right. exact (key_cloned_rearms key_eq k _ _ H). Qed.
  Lemma key_alert : alert (@key_mach K A key_eq k).
  Proof. intros script n st sr outs st' sr' _ _ H. exact (key_cloned_rearms key_eq k _ _ H). Qed.
  Lemma key_ends : ends (@key_mach K A key_eq k).
  Proof. intros script n st sr outs H. exact (key_cloned_end_sound key_eq k script n st sr outs H). Qed.
End Key.
