(** The views of a MutableVec and of a MutableBTreeMap (Views.v) show what ViewsSpec.v says. *)
From Coq Require Import Permutation.
From Verif Require Import Base Conc Spec BaseFacts LoopFacts Slot SlotFacts VecDiff VecSpec VecFacts VecSimple Sort SortSpec SortFacts VecToSignal Sig SigFacts
  MutVec MutVecSpec MutVecSends MapDiff MapSpec MapFacts MapComb MapCombFacts Mpsc MutMap MutMapSpec Shared SharedFacts VecCalm VecExecFacts MapViewFacts
  Views ViewsSpec ViewsFacts ViewsRun ViewsEnd ViewsMach ViewsProg ViewsPrompt.

(** ** Every view, given those directly of the source *)
Section Denote.
Context {C D : Type} {VR SR : Type -> Type} (lok : list D -> Prop) (lval : list D -> C -> Prop) (fw : bool).
Context (root : forall A, VR A -> pipe D (vecdiff A)) (rshows : forall A, VR A -> C -> list A -> Prop).
Context (sroot : forall B, SR B -> pipe D B) (sshows : forall B, SR B -> C -> B -> Prop).
Hypothesis Hroot : forall A r, denoted lok lval (root A r) (vec_ok fw) vec_val (rshows A r).
Hypothesis Hsroot : forall B r, denoted lok lval (sroot B r) sig_ok sig_val (sshows B r).
Hypothesis Proot : forall A r, prompt (root A r) /\ alert_pipe (root A r).
Hypothesis Psroot : forall B r, prompt (sroot B r) /\ alert_pipe (sroot B r).

Lemma vec_denoted {A} (v : vec_view VR A) : vec_lawful v -> (vec_filters v = true -> fw = true) ->
  denoted lok lval (vec_pipe root v) (vec_ok fw) vec_val (vec_shows rshows v).
Proof.
  induction v as [A r|A B f v IH|A p v IH|A B f v IH|A compare v IH|A v IH]; cbn [vec_lawful vec_filters vec_pipe vec_shows]; intros HL HF.
  - apply Hroot.
  - apply (denoted_on _ _ _ _ _ _ _ _ _ _ (IH HL HF) (emit_on_demand (vmap_mach f) (vmap_step f) (fun _ => eq_refl)) (emit_listens (vmap_mach f) (vmap_step f) (fun _ => eq_refl))
      (emit_ends (vmap_mach f) (vmap_step f) (fun _ => eq_refl)) (or_intror (emit_obeys (vmap_mach f) (vmap_step f) (fun _ => eq_refl))) (vmap_mirrors fw f)).
  - refine (denoted_on _ _ _ _ _ _ _ _ _ _ (IH HL _) (emit_on_demand (filter_mach p) _ (fun _ => eq_refl)) (emit_listens (filter_mach p) _ (fun _ => eq_refl))
      (emit_ends (filter_mach p) _ (fun _ => eq_refl)) (or_intror (emit_obeys (filter_mach p) _ (fun _ => eq_refl))) (filter_mirrors fw p (HF eq_refl))). auto.
  - refine (denoted_on _ _ _ _ _ _ _ _ _ _ (IH HL _) (emit_on_demand (filter_map_mach f) _ (fun _ => eq_refl)) (emit_listens (filter_map_mach f) _ (fun _ => eq_refl))
      (emit_ends (filter_map_mach f) _ (fun _ => eq_refl)) (or_intror (emit_obeys (filter_map_mach f) _ (fun _ => eq_refl))) (filter_map_mirrors fw f (HF eq_refl))). auto.
  - destruct HL as [TP HL]. exact (denoted_on _ _ _ _ _ _ _ _ _ _ (IH HL HF) (sort_on_demand compare) (sort_listens compare) (sort_ends compare) (or_intror (sort_obeys compare)) (sort_mirrors fw compare TP)).
  - apply (denoted_on _ _ _ _ _ _ _ _ _ _ (IH HL HF) (emit_on_demand debug_mach _ (fun _ => eq_refl)) (emit_listens debug_mach _ (fun _ => eq_refl))
      (emit_ends debug_mach _ (fun _ => eq_refl)) (or_intror (emit_obeys debug_mach _ (fun _ => eq_refl))) (debug_mirrors fw)).
Qed.

Lemma sig_denoted {B} (g : sig_view VR SR B) : sig_lawful g -> (sig_filters g = true -> fw = true) ->
  denoted lok lval (sig_pipe root sroot g) sig_ok sig_val (sig_shows rshows sshows g).
Proof.
  induction g as [B r|A B f v|A v|A v|A sum v|A B f g IH|A eqb g IH]; cbn [sig_lawful sig_filters sig_pipe sig_shows]; intros HL HF.
  - apply Hsroot.
  - exact (denoted_on _ _ _ _ _ _ _ _ _ _ (vec_denoted v HL HF) (tsm_on_demand f) (slot_listens (to_signal_mach f) _ tsm_lv eq_refl (tsm_slot f))
      (slot_ends (to_signal_mach f) _ tsm_lv eq_refl (tsm_slot f)) (or_intror (slot_obeys (to_signal_mach f) _ tsm_lv eq_refl (tsm_slot f))) (tsm_mirrors fw f)).
  - exact (denoted_on _ _ _ _ _ _ _ _ _ _ (vec_denoted v HL HF) len_on_demand (slot_listens len_mach _ len_lv eq_refl len_slot)
      (slot_ends len_mach _ len_lv eq_refl len_slot) (or_intror (slot_obeys len_mach _ len_lv eq_refl len_slot)) (len_mirrors fw)).
  - exact (denoted_on _ _ _ _ _ _ _ _ _ _ (vec_denoted v HL HF) ie_on_demand (slot_listens is_empty_mach _ ie_lv eq_refl ie_slot)
      (slot_ends is_empty_mach _ ie_lv eq_refl ie_slot) (or_intror (slot_obeys is_empty_mach _ ie_lv eq_refl ie_slot)) (ie_mirrors fw)).
  - destruct HL as [HP HL]. exact (denoted_on _ _ _ _ _ _ _ _ _ _ (vec_denoted v HL HF) (sum_on_demand sum) (slot_listens (sum_mach sum) _ tsm_lv eq_refl (sum_slot sum))
      (slot_ends (sum_mach sum) _ tsm_lv eq_refl (sum_slot sum)) (or_intror (slot_obeys (sum_mach sum) _ tsm_lv eq_refl (sum_slot sum))) (sum_mirrors fw sum HP)).
  - apply (denoted_on _ _ _ _ _ _ _ _ _ _ (IH HL HF) (emit_on_demand (map_mach f) _ (fun _ => eq_refl)) (emit_listens (map_mach f) _ (fun _ => eq_refl))
      (emit_ends (map_mach f) _ (fun _ => eq_refl)) (or_intror (emit_obeys (map_mach f) _ (fun _ => eq_refl))) (map_mirrors f)).
  - destruct HL as [LE HL]. apply (denoted_on _ _ _ _ _ _ _ _ _ _ (IH HL HF) (emit_on_demand (dedupe_mach eqb) _ (fun _ => eq_refl)) (emit_listens (dedupe_mach eqb) _ (fun _ => eq_refl))
      (emit_ends (dedupe_mach eqb) _ (fun _ => eq_refl)) (or_intror (emit_obeys (dedupe_mach eqb) _ (fun _ => eq_refl))) (dedupe_mirrors eqb LE)).
Qed.

Lemma vec_prompt {A} (v : vec_view VR A) : prompt (vec_pipe root v) /\ alert_pipe (vec_pipe root v).
Proof.
  induction v as [A r|A B f v [IH1 IH2]|A p v [IH1 IH2]|A B f v [IH1 IH2]|A compare v [IH1 IH2]|A v [IH1 IH2]]; cbn [vec_pipe].
  - apply Proot.
  - split; [apply (emit_prompt (vmap_mach f) _ (fun _ => eq_refl)); exact IH1|split; [apply (emit_alert (vmap_mach f) _ (fun _ => eq_refl))|exact IH2]].
  - split; [apply (emit_prompt (filter_mach p) _ (fun _ => eq_refl)); exact IH1|split; [apply (emit_alert (filter_mach p) _ (fun _ => eq_refl))|exact IH2]].
  - split; [apply (emit_prompt (filter_map_mach f) _ (fun _ => eq_refl)); exact IH1|split; [apply (emit_alert (filter_map_mach f) _ (fun _ => eq_refl))|exact IH2]].
  - split; [apply sort_prompt; exact IH1|split; [apply sort_alert|exact IH2]].
  - split; [apply (emit_prompt debug_mach _ (fun _ => eq_refl)); exact IH1|split; [apply (emit_alert debug_mach _ (fun _ => eq_refl))|exact IH2]].
Qed.

Lemma sig_prompt {B} (g : sig_view VR SR B) : prompt (sig_pipe root sroot g) /\ (asks_empty g = false -> alert_pipe (sig_pipe root sroot g)).
Proof.
  induction g as [B r|A B f v|A v|A v|A sum v|A B f g [IH1 IH2]|A eqb g [IH1 IH2]]; cbn [sig_pipe asks_empty].
  - destruct (Psroot _ r). auto.
  - destruct (vec_prompt v) as [P1 P2]. split; [apply tsm_prompt; exact P1|]. intros _. split; [apply tsm_alert|exact P2].
  - destruct (vec_prompt v) as [P1 P2]. split; [apply len_prompt; exact P1|]. intros _. split; [apply len_alert|exact P2].
  - destruct (vec_prompt v) as [P1 P2]. split; [apply ie_prompt; exact P1|]. discriminate.
  - destruct (vec_prompt v) as [P1 P2]. split; [apply sum_prompt; exact P1|]. intros _. split; [apply sum_alert|exact P2].
  - split; [apply (emit_prompt (map_mach f) _ (fun _ => eq_refl)); exact IH1|]. intros E. split; [apply (emit_alert (map_mach f) _ (fun _ => eq_refl))|auto].
  - split; [apply (emit_prompt (dedupe_mach eqb) _ (fun _ => eq_refl)); exact IH1|]. intros E. split; [apply (emit_alert (dedupe_mach eqb) _ (fun _ => eq_refl))|auto].
Qed.
End Denote.

Lemma nothing_all {C D} (lok : list D -> Prop) (lval : list D -> C -> Prop) B (r : nothing B) : denoted lok lval (nothing_pipe B r) sig_ok sig_val (nothing_shows B r).
Proof. destruct r. Qed.
Lemma nothing_prompt {D} B (r : nothing B) : prompt (nothing_pipe (D := D) B r) /\ alert_pipe (nothing_pipe (D := D) B r).
Proof. destruct r. Qed.

(** ** MutableVec *)
Section Vec.
Context {X : Type}.
Notation sys := (system (list X) (vecdiff X) (op X) (ret X)).
Notation step := (sys_step vec_run (@vec_first X)).

Lemma of_vec_denoted fw A (r : of_vec X A) : denoted (vec_ok fw) vec_val (of_vec_pipe A r) (vec_ok fw) vec_val (of_vec_shows A r).
Proof. destruct r. cbn. apply denoted_source; [auto|]. intros ds c _ H. exists c. auto. Qed.
Lemma of_vec_prompt A (r : of_vec X A) : prompt (of_vec_pipe A r) /\ alert_pipe (of_vec_pipe A r).
Proof. destruct r. cbn. auto. Qed.

Lemma sends_forward (o : op X) v : moves_forward o -> Forall fwd (op_sends o v).
Proof.
  assert (Rem : forall is len, Forall fwd (@removed_at X is len)). { induction is as [|i is IH]; intros len; cbn; constructor; auto. destruct (_ =? _); exact I. }
  assert (Rng : forall a b len, Forall fwd (@removed_range X a b len)).
  { intros a b len. unfold removed_range. destruct (b <=? a); [constructor|]. destruct (_ && _); [repeat constructor|apply Rem]. }
  assert (Mv : forall a b, a <= b -> Forall fwd (@moved X a b)). { intros a b H. unfold moved. destruct (a =? b); repeat constructor. exact H. }
  destruct o; cbn [moves_forward op_sends]; intros H.
  all: try (repeat constructor; fail).
  all: try (apply Rng).
  - destruct v; repeat constructor.
  - destruct (_ =? _); repeat constructor.
  - apply Mv. exact H.
  - destruct v; repeat constructor.
  - destruct v; [constructor|]. destruct (filter _ _); [repeat constructor|apply Rem].
  - apply Forall_app. split; [apply Mv; lia|]. destruct (Nat.ltb_spec a b); [apply Mv; lia|]. destruct (Nat.ltb_spec b a); [lia|constructor].
  - destruct H.
  - destruct (_ =? _); repeat constructor.
  - destruct (_ =? _); repeat constructor.
  - apply Forall_forall. intros d Hd. apply in_map_iff in Hd. destruct Hd as (x & <- & _). exact I.
  - destruct d; try (repeat constructor; fail).
    + destruct (_ =? _); repeat constructor.
    + destruct (_ =? _); repeat constructor.
    + apply Mv. exact H.
    + destruct v; repeat constructor.
Qed.

Lemma follows_forward (v : list X) l ds v' : follows vec_means v l ds v' -> (forall t o r, In (t, o, r) l -> moves_forward o) -> Forall fwd ds.
Proof.
  induction 1 as [|c l ds1 c1 t o ds2 c2 r H IH (_ & _ & ->)]; intros Hl; [constructor|]. apply Forall_app. split.
  - apply IH. intros t' o' r' Hi. apply (Hl t' o' r'). apply in_or_app. auto.
  - apply sends_forward. apply (Hl t o (Some r)). apply in_or_app. right. left. reflexivity.
Qed.

Context (v0 : list X) (acts : list (xact (vecdiff X) (op X))) (s : sys).
Hypothesis Hx : exec step (sys_init v0) acts = Some s.

Lemma vec_lok fw i c : (fw = true -> forall t o r, In (t, o, r) (calls (sh s)) -> moves_forward o) -> nth_error (chans (sh s)) i = Some c -> vec_ok fw (yielded (cgot c)).
Proof.
  intros Hfw Hc. destruct (sys_reach _ _ _ _ _ Hx) as ((sacts & Hs) & _).
  destruct (vec_order _ _ _ _ _ Hs Hc) as (l1 & ds1 & v1 & l2 & ds2 & v' & _ & F2 & Hcalls & (rest & Hrest) & (x & Hr) & _).
  split; [unfold replay; rewrite Hr; discriminate|]. intros E. specialize (Hfw E).
  assert (Y : Forall fwd (yielded (cgot c) ++ rest)).
  { rewrite Hrest. apply Forall_app. split; [unfold vec_first; destruct v1; repeat constructor|]. apply (follows_forward _ _ _ _ F2). intros t o r Hi. apply (Hfw t o r).
    destruct Hcalls as [[-> _]|(t1 & o1 & -> & _)]; apply in_or_app; right; [exact Hi|apply in_or_app; left; exact Hi]. }
  apply Forall_app in Y. tauto.
Qed.

Lemma vec_lval ds (c : list X) : apply_all apply_to_vec [] ds = Some c -> vec_val ds c.
Proof. auto. Qed.

Lemma vec_full i : ready (sh s) = true -> failing (sh s) = false -> poisoned (sh s) = false ->
  forall c, nth_error (chans (sh s)) i = Some c -> calive c = true -> apply_all apply_to_vec [] (ctotal c) = Some (contents (sh s)).
Proof. intros H1 H2 H3 c Hc Ha. destruct (sys_reach _ _ _ _ _ Hx) as ((sacts & Hs) & _). exact (vec_quiet _ _ _ _ _ Hs Hc Ha H1 H2 H3). Qed.


Section One.
  Context (i : nat) (B : Type) (p : pipe (vecdiff X) B) (ps : pstate p) (shown : list (poll (option B))) (pc : tpc) (w : bool) (n : nat).
  Hypothesis Ht : nth_error (tasks s) i = Some (mkTask B p ps shown pc w n).
  Context (Y : Type) (kok : list B -> Prop) (kval : list B -> Y -> Prop) (RR : list X -> Y -> Prop) (fw : bool).
  Hypothesis Hfw : fw = true -> forall t o r, In (t, o, r) (calls (sh s)) -> moves_forward o.
  Hypothesis Hden : denoted (vec_ok fw) vec_val p kok kval RR.

  Lemma vec_task_safe : pc <> TPanic.
  Proof.
    exact (view_safe vec_run vec_first (vec_ok fw) vec_val v0 acts s Hx i _ Ht (fun c => vec_lok fw i c Hfw) kok kval RR Hden).
  Qed.
  Lemma vec_task_shows : pc = TIdle -> w = false -> ready (sh s) = true -> failing (sh s) = false -> poisoned (sh s) = false ->
    exists y, kval (yielded shown) y /\ RR (contents (sh s)) y.
  Proof.
    intros H1 H2 H3 H4 H5. exact (view_shows vec_run vec_first apply_to_vec [] (fun _ => True) vec_means op_panics vec_run_means vec_run_panics vec_first_ok (vec_ok fw) vec_val vec_lval v0 acts s I Hx i _ Ht
      (fun c => vec_lok fw i c Hfw) kok kval RR Hden H1 H2 (vec_full i H3 H4 H5)).
  Qed.
  Lemma vec_task_open : alert_pipe p -> pc = TIdle -> w = false -> 0 < owners (sh s).
  Proof.
    exact (view_open vec_run vec_first apply_to_vec [] (fun _ => True) vec_means op_panics vec_run_means vec_run_panics vec_first_ok (vec_ok fw) vec_val v0 acts s I Hx i _ Ht kok kval RR Hden).
  Qed.
  Lemma vec_task_done : pc = TDone -> owners (sh s) = 0 /\ (poisoned (sh s) = false -> exists y, kval (yielded shown) y /\ RR (contents (sh s)) y).
  Proof.
    intros H1. destruct (view_done vec_run vec_first apply_to_vec [] (fun _ => True) vec_means op_panics vec_run_means vec_run_panics vec_first_ok (vec_ok fw) vec_val vec_lval v0 acts s I Hx i _ Ht
      (fun c => vec_lok fw i c Hfw) kok kval RR Hden H1) as (Y1 & c & Hc & Ha & Hn & Hsh). split; [exact Y1|]. intros Hp.
    destruct (sys_reach _ _ _ _ _ Hx) as ((sacts & Hs) & _). destruct (vec_ends _ _ _ _ _ Hs Hc Ha Hn) as (_ & v' & E1 & E2). rewrite (E2 Hp). auto.
  Qed.
End One.

Lemma vec_settles : Forall viewing_vec (tasks s) -> exists more s', exec step s more = Some s' /\ Forall pending_act more /\ settled s' /\ same_contents s s'
  /\ length (tasks s') = length (tasks s) /\ forall i t', nth_error (tasks s') i = Some t' -> exists t, nth_error (tasks s) i = Some t /\ grown t t'.
Proof.
  intros Hv. destruct (sys_reach _ _ _ _ _ Hx) as ((sacts & Hs) & Hl & _).
  destruct (settles vec_run vec_first s) as (more & s' & E & F & Hset & (G1 & _ & G3) & Sm).
  - intros Hr. destruct (writer (sh s)) as [t|] eqn:Ew; [eauto|]. exfalso.
    destruct (si_idle _ _ _ _ _ (reach vec_run vec_first apply_to_vec [] (fun _ => True) vec_means op_panics vec_run_means vec_run_panics vec_first_ok _ _ _ I Hs) Ew) as (E1 & E2 & _).
    unfold ready in Hr. rewrite E1, E2 in Hr. discriminate.
  - exact Hl.
  - intros t Ht. rewrite Forall_forall in Hv. destruct (Hv t Ht); cbn [tpipe].
    + apply (vec_prompt of_vec_pipe of_vec_prompt v).
    + apply (sig_prompt of_vec_pipe nothing_pipe of_vec_prompt nothing_prompt g).
  - exists more, s'. auto 10.
Qed.
End Vec.

Section VecViews.
Context {X : Type}.
Notation step := (sys_step vec_run (@vec_first X)).
Notation fine s := (forall t o r, In (t, o, r) (calls (sh s)) -> moves_forward o).

Lemma vec_list_den {A} (v : vec_view (of_vec X) A) : vec_lawful v -> denoted (vec_ok (vec_filters v)) vec_val (vec_pipe of_vec_pipe v) (vec_ok (vec_filters v)) vec_val (vec_shows of_vec_shows v).
Proof. intros HL. apply vec_denoted; auto. apply of_vec_denoted. Qed.
Lemma vec_value_den {B} (g : sig_view (of_vec X) nothing B) : sig_lawful g ->
  denoted (vec_ok (sig_filters g)) vec_val (sig_pipe of_vec_pipe nothing_pipe g) sig_ok sig_val (sig_shows of_vec_shows nothing_shows g).
Proof. intros HL. apply (sig_denoted _ _ (sig_filters g)); auto; [apply of_vec_denoted|apply nothing_all]. Qed.

Lemma vec_list_shows (v0 : list X) (acts : list (xact (vecdiff X) (op X))) s i A (v : vec_view (of_vec X) A) ps shown n : exec step (sys_init v0) acts = Some s ->
  nth_error (tasks s) i = Some (mkTask _ (vec_pipe of_vec_pipe v) ps shown TIdle false n) -> vec_lawful v -> (vec_filters v = true -> fine s) ->
  ready (sh s) = true -> failing (sh s) = false -> poisoned (sh s) = false ->
  exists l, replay (yielded shown) = Some l /\ vec_shows of_vec_shows v (contents (sh s)) l.
Proof. intros Hx Ht HL Hf H1 H2 H3. exact (vec_task_shows v0 acts s Hx i _ _ ps shown _ _ n Ht _ _ _ _ _ Hf (vec_list_den v HL) eq_refl eq_refl H1 H2 H3). Qed.

Lemma vec_value_shows (v0 : list X) (acts : list (xact (vecdiff X) (op X))) s i B (g : sig_view (of_vec X) nothing B) ps shown n : exec step (sys_init v0) acts = Some s ->
  nth_error (tasks s) i = Some (mkTask _ (sig_pipe of_vec_pipe nothing_pipe g) ps shown TIdle false n) -> sig_lawful g -> (sig_filters g = true -> fine s) ->
  ready (sh s) = true -> failing (sh s) = false -> poisoned (sh s) = false ->
  exists y, latest_of shown = Some y /\ sig_shows of_vec_shows nothing_shows g (contents (sh s)) y.
Proof.
  intros Hx Ht HL Hf H1 H2 H3. destruct (vec_task_shows v0 acts s Hx i _ _ ps shown _ _ n Ht _ _ _ _ _ Hf (vec_value_den g HL) eq_refl eq_refl H1 H2 H3) as (y & Y1 & Y2).
  exists y. split; [apply latest_val; exact Y1|exact Y2].
Qed.

Lemma vec_list_safe (v0 : list X) (acts : list (xact (vecdiff X) (op X))) s i A (v : vec_view (of_vec X) A) ps shown pc w n : exec step (sys_init v0) acts = Some s ->
  nth_error (tasks s) i = Some (mkTask _ (vec_pipe of_vec_pipe v) ps shown pc w n) -> vec_lawful v -> (vec_filters v = true -> fine s) ->
  pc <> TPanic /\ exists l, replay (yielded shown) = Some l.
Proof.
  intros Hx Ht HL Hf. split; [exact (vec_task_safe v0 acts s Hx i _ _ ps shown _ _ n Ht _ _ _ _ _ Hf (vec_list_den v HL))|].
  destruct (view_kok vec_run vec_first (vec_ok (vec_filters v)) vec_val v0 acts s Hx i _ Ht (fun c => vec_lok v0 acts s Hx (vec_filters v) i c Hf) _ _ _ (vec_list_den v HL)) as [K _].
  destruct (replay (yielded shown)) eqn:Er; [eauto|destruct (K Er)].
Qed.

Lemma vec_value_safe (v0 : list X) (acts : list (xact (vecdiff X) (op X))) s i B (g : sig_view (of_vec X) nothing B) ps shown pc w n : exec step (sys_init v0) acts = Some s ->
  nth_error (tasks s) i = Some (mkTask _ (sig_pipe of_vec_pipe nothing_pipe g) ps shown pc w n) -> sig_lawful g -> (sig_filters g = true -> fine s) -> pc <> TPanic.
Proof. intros Hx Ht HL Hf. exact (vec_task_safe v0 acts s Hx i _ _ ps shown _ _ n Ht _ _ _ _ _ Hf (vec_value_den g HL)). Qed.

Lemma vec_list_ends (v0 : list X) (acts : list (xact (vecdiff X) (op X))) s i A (v : vec_view (of_vec X) A) ps shown pc w n : exec step (sys_init v0) acts = Some s ->
  nth_error (tasks s) i = Some (mkTask _ (vec_pipe of_vec_pipe v) ps shown pc w n) -> vec_lawful v -> (vec_filters v = true -> fine s) ->
  (pc = TIdle -> w = false -> 0 < owners (sh s))
  /\ (pc = TDone -> owners (sh s) = 0 /\ (poisoned (sh s) = false -> exists l, replay (yielded shown) = Some l /\ vec_shows of_vec_shows v (contents (sh s)) l)).
Proof.
  intros Hx Ht HL Hf. split.
  - exact (vec_task_open v0 acts s Hx i _ _ ps shown _ _ n Ht _ _ _ _ _ (vec_list_den v HL) (proj2 (vec_prompt of_vec_pipe of_vec_prompt v))).
  - exact (vec_task_done v0 acts s Hx i _ _ ps shown _ _ n Ht _ _ _ _ _ Hf (vec_list_den v HL)).
Qed.

Lemma vec_value_ends (v0 : list X) (acts : list (xact (vecdiff X) (op X))) s i B (g : sig_view (of_vec X) nothing B) ps shown pc w n : exec step (sys_init v0) acts = Some s ->
  nth_error (tasks s) i = Some (mkTask _ (sig_pipe of_vec_pipe nothing_pipe g) ps shown pc w n) -> sig_lawful g -> (sig_filters g = true -> fine s) ->
  (asks_empty g = false -> pc = TIdle -> w = false -> 0 < owners (sh s))
  /\ (pc = TDone -> owners (sh s) = 0 /\ (poisoned (sh s) = false -> exists y, latest_of shown = Some y /\ sig_shows of_vec_shows nothing_shows g (contents (sh s)) y)).
Proof.
  intros Hx Ht HL Hf. split.
  - intros He. exact (vec_task_open v0 acts s Hx i _ _ ps shown _ _ n Ht _ _ _ _ _ (vec_value_den g HL) (proj2 (sig_prompt of_vec_pipe nothing_pipe of_vec_prompt nothing_prompt g) He)).
  - intros Hp. destruct (vec_task_done v0 acts s Hx i _ _ ps shown _ _ n Ht _ _ _ _ _ Hf (vec_value_den g HL) Hp) as (Y1 & Y2). split; [exact Y1|].
    intros Hq. destruct (Y2 Hq) as (y & Z1 & Z2). exists y. split; [apply latest_val; exact Z1|exact Z2].
Qed.
End VecViews.

(** ** MutableBTreeMap *)
Section Map.
Context {K X : Type} (cmp : K -> K -> comparison) (TO : total_order cmp) (key_eq : K -> K -> bool) (LK : lawful key_eq).
Notation sys := (system (list (K * X)) (mapdiff K X) (mop K X) (mret X)).
Notation step := (sys_step (map_run cmp) (@map_first K X)).
Notation fok := (map_first_ok cmp TO).

Definition asc_diff (d : mapdiff K X) : Prop := forall es, d = MReplace es -> is_map cmp es.

Lemma run_asc (o : mop K X) m m' ds r : is_map cmp m -> map_run cmp o m = (m', ds, r) -> Forall asc_diff ds.
Proof.
  intros Hm E. destruct r as [r|].
  - destruct (map_run_means cmp TO _ _ _ _ _ Hm E) as (Hok & _ & _ & Hs). apply Forall_forall. intros d Hd es ->.
    destruct o; cbn [mop_sends] in Hs.
    all: try (subst ds; destruct Hd as [Hd|[]]; injection Hd as <-; exact Hok).
    all: destruct Hs as [H1 H2].
    1: { destruct m as [|e m]; [rewrite H1 in Hd by reflexivity; destruct Hd|]. rewrite H2 in Hd by discriminate. destruct Hd as [|[]]. discriminate. }
    all: exfalso; assert (N : ~ has_key k m) by (intros h; rewrite (H2 h) in Hd; destruct Hd as [|[]]; discriminate); rewrite (H1 N) in Hd; repeat (destruct Hd as [Hd|Hd]; try discriminate); try destruct Hd.
  - destruct (map_run_panics cmp TO _ _ _ _ Hm E) as (-> & _). constructor.
Qed.

Lemma map_value_pipe {A} (v : map_view X A) : denoted (map_ok cmp) (map_val cmp) (map_pipe (K := K) v) (map_ok cmp) (map_val cmp) (map_shows v).
Proof.
  induction v as [|A B f v IH]; cbn [map_pipe map_shows].
  - apply denoted_source; [auto|]. intros ds c _ H. exists c. auto.
  - apply (denoted_on _ _ _ _ _ _ _ _ _ _ IH (emit_on_demand (map_value_mach f) _ (fun _ => eq_refl)) (emit_listens (map_value_mach f) _ (fun _ => eq_refl))
      (emit_ends (map_value_mach f) _ (fun _ => eq_refl)) (or_intror (emit_obeys (map_value_mach f) _ (fun _ => eq_refl))) (map_value_mirrors cmp f)).
Qed.
Lemma map_pipe_prompt {A} (v : map_view X A) : prompt (map_pipe (K := K) v) /\ alert_pipe (map_pipe (K := K) v).
Proof.
  induction v as [|A B f v [IH1 IH2]]; cbn [map_pipe]; [cbn; auto|].
  split; [apply (emit_prompt (map_value_mach f) _ (fun _ => eq_refl)); exact IH1|split; [apply (emit_alert (map_value_mach f) _ (fun _ => eq_refl))|exact IH2]].
Qed.

Lemma source_map : denoted (map_ok cmp) (map_val cmp) (@PSource (mapdiff K X)) (map_ok cmp) (map_val cmp) eq.
Proof. apply denoted_source; [auto|]. intros ds c _ H. exists c. auto. Qed.

Lemma of_map_denoted A (r : of_map K X A) : denoted (map_ok cmp) (map_val cmp) (of_map_pipe cmp A r) (vec_ok true) vec_val (of_map_shows A r).
Proof.
  destruct r; cbn [of_map_pipe of_map_shows].
  - eapply denoted_weaken; [|apply (denoted_on _ _ _ _ _ _ _ _ _ _ source_map (emit_on_demand (keys_mach cmp) _ (fun _ => eq_refl)) (emit_listens (keys_mach cmp) _ (fun _ => eq_refl))
      (emit_ends (keys_mach cmp) _ (fun _ => eq_refl)) (or_introl eq_refl) (keys_mirrors cmp TO true))]. intros c x (y & <- & H). exact H.
  - eapply denoted_weaken; [|apply (denoted_on _ _ _ _ _ _ _ _ _ _ source_map (emit_on_demand (entries_mach cmp) _ (fun _ => eq_refl)) (emit_listens (entries_mach cmp) _ (fun _ => eq_refl))
      (emit_ends (entries_mach cmp) _ (fun _ => eq_refl)) (or_introl eq_refl) (entries_mirrors cmp TO true))]. intros c x (y & <- & H). exact H.
Qed.
Lemma of_map_prompt A (r : of_map K X A) : prompt (of_map_pipe cmp A r) /\ alert_pipe (of_map_pipe cmp A r).
Proof.
  destruct r; cbn [of_map_pipe].
  - split; [apply (emit_prompt (keys_mach cmp) _ (fun _ => eq_refl)); exact I|split; [apply (emit_alert (keys_mach cmp) _ (fun _ => eq_refl))|exact I]].
  - split; [apply (emit_prompt (entries_mach cmp) _ (fun _ => eq_refl)); exact I|split; [apply (emit_alert (entries_mach cmp) _ (fun _ => eq_refl))|exact I]].
Qed.
Lemma key_denoted B (r : key_of_map K X B) : denoted (map_ok cmp) (map_val cmp) (key_pipe key_eq B r) sig_ok sig_val (key_shows B r).
Proof.
  destruct r; cbn [key_pipe key_shows]. eapply denoted_weaken; [|apply (denoted_on _ _ _ _ _ _ _ _ _ _ source_map (key_on_demand key_eq k) (key_listens key_eq k) (key_ends key_eq k) (or_introl eq_refl) (key_mirrors cmp TO key_eq LK k))].
  intros c x (y & <- & H). exact H.
Qed.
Lemma key_pipe_prompt B (r : key_of_map K X B) : prompt (key_pipe key_eq B r) /\ alert_pipe (key_pipe key_eq B r).
Proof. destruct r; cbn [key_pipe]. split; [apply key_prompt; exact I|split; [apply key_alert|exact I]]. Qed.

Section State.
Context (m0 : list (K * X)) (acts : list (xact (mapdiff K X) (mop K X))) (s : sys).
Hypothesis Hm0 : is_map cmp m0.
Hypothesis Hx : exec step (sys_init m0) acts = Some s.

Lemma map_lok i c : nth_error (chans (sh s)) i = Some c -> map_ok cmp (yielded (cgot c)).
Proof.
  intros Hc. destruct (sys_reach _ _ _ _ _ Hx) as ((sacts & Hs) & _). split.
  - destruct (map_order cmp TO _ _ _ _ _ Hm0 Hs Hc) as (l1 & ds1 & m1 & l2 & ds2 & _ & _ & _ & _ & (x & E) & _). unfold mreplay. rewrite E. discriminate.
  - intros es Hi. pose proof (got_Q (map_run cmp) map_first (apply_to_map cmp) [] (is_map cmp) map_means (fun _ _ => False) (map_run_means cmp TO) (map_run_panics cmp TO) fok asc_diff run_asc) as G.
    assert (F : forall c, is_map cmp c -> Forall asc_diff (@map_first K X c)).
    { intros [|e m] H; cbn [map_first]; [constructor|]. constructor; [|constructor]. intros es' E. injection E as <-. exact H. }
    specialize (G F m0 sacts (sh s) i c Hm0 Hs Hc). rewrite Forall_forall in G. exact (G _ Hi es eq_refl).
Qed.

Lemma map_lval ds (c : list (K * X)) : apply_all (apply_to_map cmp) [] ds = Some c -> map_val cmp ds c.
Proof. auto. Qed.

Section One.
  Context (i : nat) (B : Type) (p : pipe (mapdiff K X) B) (ps : pstate p) (shown : list (poll (option B))) (pc : tpc) (w : bool) (n : nat).
  Hypothesis Ht : nth_error (tasks s) i = Some (mkTask B p ps shown pc w n).
  Context (Y : Type) (kok : list B -> Prop) (kval : list B -> Y -> Prop) (RR : list (K * X) -> Y -> Prop).
  Hypothesis Hden : denoted (map_ok cmp) (map_val cmp) p kok kval RR.

  Lemma map_task_safe : pc <> TPanic /\ kok (yielded shown).
  Proof.
    split; [exact (view_safe (map_run cmp) map_first (map_ok cmp) (map_val cmp) m0 acts s Hx i _ Ht (map_lok i) kok kval RR Hden)|].
    exact (view_kok (map_run cmp) map_first (map_ok cmp) (map_val cmp) m0 acts s Hx i _ Ht (map_lok i) kok kval RR Hden).
  Qed.
  Lemma map_task_shows : pc = TIdle -> w = false -> ready (sh s) = true -> exists y, kval (yielded shown) y /\ RR (contents (sh s)) y.
  Proof.
    intros H1 H2 H3. apply (view_shows (map_run cmp) map_first (apply_to_map cmp) [] (is_map cmp) map_means (fun _ _ => False) (map_run_means cmp TO) (map_run_panics cmp TO) fok (map_ok cmp) (map_val cmp) map_lval m0 acts s Hm0 Hx i _ Ht
      (map_lok i) kok kval RR Hden H1 H2). intros c Hc Ha. destruct (sys_reach _ _ _ _ _ Hx) as ((sacts & Hs) & _). exact (map_quiet cmp TO _ _ _ _ _ Hm0 Hs Hc Ha H3).
  Qed.
  Lemma map_task_ends : alert_pipe p -> pc = TIdle -> w = false -> 0 < owners (sh s).
  Proof.
    exact (view_open (map_run cmp) map_first (apply_to_map cmp) [] (is_map cmp) map_means (fun _ _ => False) (map_run_means cmp TO) (map_run_panics cmp TO) fok (map_ok cmp) (map_val cmp) m0 acts s Hm0 Hx i _ Ht kok kval RR Hden).
  Qed.
  Lemma map_task_done : pc = TDone -> owners (sh s) = 0 /\ exists y, kval (yielded shown) y /\ RR (contents (sh s)) y.
  Proof.
    intros H1. destruct (view_done (map_run cmp) map_first (apply_to_map cmp) [] (is_map cmp) map_means (fun _ _ => False) (map_run_means cmp TO) (map_run_panics cmp TO) fok (map_ok cmp) (map_val cmp) map_lval m0 acts s Hm0 Hx i _ Ht
      (map_lok i) kok kval RR Hden H1) as (Y1 & c & Hc & Ha & Hn & Hsh). split; [exact Y1|].
    destruct (sys_reach _ _ _ _ _ Hx) as ((sacts & Hs) & _). destruct (map_ends cmp TO _ _ _ _ _ Hm0 Hs Hc Ha Hn) as (_ & E1). auto.
  Qed.
End One.

Lemma map_settles : Forall (viewing_map cmp key_eq) (tasks s) -> exists more s', exec step s more = Some s' /\ Forall pending_act more /\ settled s' /\ same_contents s s'
  /\ length (tasks s') = length (tasks s) /\ forall i t', nth_error (tasks s') i = Some t' -> exists t, nth_error (tasks s) i = Some t /\ grown t t'.
Proof.
  intros Hv. destruct (sys_reach _ _ _ _ _ Hx) as ((sacts & Hs) & Hl & _).
  destruct (settles (map_run cmp) map_first s) as (more & s' & E & F & Hset & (G1 & _ & G3) & Sm).
  - intros Hr. destruct (writer (sh s)) as [t|] eqn:Ew; [eauto|]. exfalso.
    destruct (si_idle _ _ _ _ _ (reach (map_run cmp) map_first (apply_to_map cmp) [] (is_map cmp) map_means (fun _ _ => False) (map_run_means cmp TO) (map_run_panics cmp TO) fok _ _ _ Hm0 Hs) Ew) as (E1 & E2 & _).
    unfold ready in Hr. rewrite E1, E2 in Hr. discriminate.
  - exact Hl.
  - intros t Ht. rewrite Forall_forall in Hv. destruct (Hv t Ht); cbn [tpipe].
    + apply map_pipe_prompt.
    + apply (vec_prompt (of_map_pipe cmp) of_map_prompt v).
    + apply (sig_prompt (of_map_pipe cmp) (key_pipe key_eq) of_map_prompt key_pipe_prompt g).
  - exists more, s'. auto 10.
Qed.

Lemma map_list_den {A} (v : vec_view (of_map K X) A) : vec_lawful v -> denoted (map_ok cmp) (map_val cmp) (vec_pipe (of_map_pipe cmp) v) (vec_ok true) vec_val (vec_shows of_map_shows v).
Proof. intros HL. apply vec_denoted; auto. apply of_map_denoted. Qed.
Lemma map_signal_den {B} (g : sig_view (of_map K X) (key_of_map K X) B) : sig_lawful g ->
  denoted (map_ok cmp) (map_val cmp) (sig_pipe (of_map_pipe cmp) (key_pipe key_eq) g) sig_ok sig_val (sig_shows of_map_shows key_shows g).
Proof. intros HL. apply (sig_denoted _ _ true); auto; [apply of_map_denoted|apply key_denoted]. Qed.

(** *** map_value *)
Lemma map_entries_all i A (v : map_view X A) ps shown pc w n : nth_error (tasks s) i = Some (mkTask _ (map_pipe v) ps shown pc w n) ->
  (pc <> TPanic /\ exists l, mreplay cmp (yielded shown) = Some l)
  /\ (pc = TIdle -> w = false -> ready (sh s) = true -> exists l, mreplay cmp (yielded shown) = Some l /\ map_shows v (contents (sh s)) l)
  /\ (pc = TIdle -> w = false -> 0 < owners (sh s))
  /\ (pc = TDone -> owners (sh s) = 0 /\ exists l, mreplay cmp (yielded shown) = Some l /\ map_shows v (contents (sh s)) l).
Proof.
  intros Ht. split; [|split; [|split]].
  - destruct (map_task_safe i _ _ ps shown _ _ n Ht _ _ _ _ (map_value_pipe v)) as [K1 [K2 _]]. split; [exact K1|]. destruct (mreplay cmp (yielded shown)) eqn:Er; [eauto|destruct (K2 eq_refl)].
  - exact (map_task_shows i _ _ ps shown _ _ n Ht _ _ _ _ (map_value_pipe v)).
  - exact (map_task_ends i _ _ ps shown _ _ n Ht _ _ _ _ (map_value_pipe v) (proj2 (map_pipe_prompt v))).
  - exact (map_task_done i _ _ ps shown _ _ n Ht _ _ _ _ (map_value_pipe v)).
Qed.

(** *** signal_vec_keys, entries_cloned *)
Lemma map_list_all i A (v : vec_view (of_map K X) A) ps shown pc w n : nth_error (tasks s) i = Some (mkTask _ (vec_pipe (of_map_pipe cmp) v) ps shown pc w n) -> vec_lawful v ->
  (pc <> TPanic /\ exists l, replay (yielded shown) = Some l)
  /\ (pc = TIdle -> w = false -> ready (sh s) = true -> exists l, replay (yielded shown) = Some l /\ vec_shows of_map_shows v (contents (sh s)) l)
  /\ (pc = TIdle -> w = false -> 0 < owners (sh s))
  /\ (pc = TDone -> owners (sh s) = 0 /\ exists l, replay (yielded shown) = Some l /\ vec_shows of_map_shows v (contents (sh s)) l).
Proof.
  intros Ht HL. split; [|split; [|split]].
  - destruct (map_task_safe i _ _ ps shown _ _ n Ht _ _ _ _ (map_list_den v HL)) as [K1 [K2 _]]. split; [exact K1|]. destruct (replay (yielded shown)) eqn:Er; [eauto|destruct (K2 eq_refl)].
  - exact (map_task_shows i _ _ ps shown _ _ n Ht _ _ _ _ (map_list_den v HL)).
  - exact (map_task_ends i _ _ ps shown _ _ n Ht _ _ _ _ (map_list_den v HL) (proj2 (vec_prompt (of_map_pipe cmp) of_map_prompt v))).
  - exact (map_task_done i _ _ ps shown _ _ n Ht _ _ _ _ (map_list_den v HL)).
Qed.

(** *** key_cloned *)
Lemma map_signal_all i B (g : sig_view (of_map K X) (key_of_map K X) B) ps shown pc w n :
  nth_error (tasks s) i = Some (mkTask _ (sig_pipe (of_map_pipe cmp) (key_pipe key_eq) g) ps shown pc w n) -> sig_lawful g ->
  pc <> TPanic
  /\ (pc = TIdle -> w = false -> ready (sh s) = true -> exists y, latest_of shown = Some y /\ sig_shows of_map_shows key_shows g (contents (sh s)) y)
  /\ (asks_empty g = false -> pc = TIdle -> w = false -> 0 < owners (sh s))
  /\ (pc = TDone -> owners (sh s) = 0 /\ exists y, latest_of shown = Some y /\ sig_shows of_map_shows key_shows g (contents (sh s)) y).
Proof.
  intros Ht HL. split; [|split; [|split]].
  - apply (map_task_safe i _ _ ps shown _ _ n Ht _ _ _ _ (map_signal_den g HL)).
  - intros H1 H2 H3. destruct (map_task_shows i _ _ ps shown _ _ n Ht _ _ _ _ (map_signal_den g HL) H1 H2 H3) as (y & Z1 & Z2). exists y. split; [apply latest_val; exact Z1|exact Z2].
  - intros He. exact (map_task_ends i _ _ ps shown _ _ n Ht _ _ _ _ (map_signal_den g HL) (proj2 (sig_prompt (of_map_pipe cmp) (key_pipe key_eq) of_map_prompt key_pipe_prompt g) He)).
  - intros H1. destruct (map_task_done i _ _ ps shown _ _ n Ht _ _ _ _ (map_signal_den g HL) H1) as (Y1 & y & Z1 & Z2). split; [exact Y1|]. exists y. split; [apply latest_val; exact Z1|exact Z2].
Qed.
End State.
End Map.

(** ** For the examples: run, and look at the state *)
(** The parts of the state are computed one by one; what is compared is small. *)
Lemma by_run {S M X} (f : S -> M -> option S) i a s (g : S -> X) r : exec f i a = Some s -> option_map g (exec f i a) = Some r -> g s = r.
Proof. intros ->. cbn. intros E. injection E as E. exact E. Qed.
Lemma has_run {S M} (f : S -> M -> option S) i a : option_map (fun _ => tt) (exec f i a) = Some tt -> exists s, exec f i a = Some s.
Proof. destruct (exec f i a) as [s|]; [eauto|discriminate]. Qed.

Definition view_of {D} (t : task D) := (existT (fun B => (pipe D B * list (poll (option B)))%type) (tout t) (tpipe t, tshown t), tat t, twoken t).
Lemma see_view {D} (l : list (task D)) i y pc w : option_map view_of (nth_error l i) = Some (y, pc, w) ->
  exists ps n, nth_error l i = Some (mkTask (projT1 y) (fst (projT2 y)) ps (snd (projT2 y)) pc w n).
Proof.
  destruct (nth_error l i) as [t|]; [|discriminate]. intros E. injection E as E <- <-. subst y. destruct t as [B0 p0 st0 sh0 pc0 w0 n0]. exists st0, n0. reflexivity.
Qed.
Lemma see_task {D} (l : list (task D)) i B p shown pc w :
  option_map view_of (nth_error l i) = Some (existT (fun B => (pipe D B * list (poll (option B)))%type) B (p, shown), pc, w) ->
  exists ps n, nth_error l i = Some (mkTask B p ps shown pc w n).
Proof. exact (see_view l i (existT _ B (p, shown)) pc w). Qed.

Ltac run_ex := match goal with |- exists s, exec ?f ?i ?a = Some s /\ _ =>
  let s := fresh "s" in let E := fresh "E" in
  destruct (has_run f i a) as [s E]; [match goal with |- _ = ?r => vm_cast_no_check (eq_refl r) end|]; exists s; split; [exact E|] end.
Ltac see_eq := match goal with E : exec ?f ?i ?a = Some ?s |- ?l = ?r =>
  let h := eval pattern s in l in match h with ?g s => refine (by_run f i a s g r E _); match goal with |- _ = ?r' => vm_cast_no_check (eq_refl r') end end end.
Ltac see_ex := match goal with
  | |- _ /\ _ => split; see_ex
  | |- exists ps n, nth_error ?ts ?i = Some (mkTask ?B ?p ps ?shown ?pc ?w n) /\ _ =>
      let ps := fresh "ps" in let n := fresh "n" in let H := fresh "H" in
      destruct (see_task ts i B p shown pc w) as (ps & n & H); [see_eq|exists ps, n; split; [exact H|see_ex]]
  | _ => see_eq
  end.

(** ** Two views that fail *)
Definition backward_acts : list (xact (vecdiff nat) (op nat)) :=
  XSpawn (vec_pipe of_vec_pipe (VFilter Nat.odd (VRoot RVec))) :: XStart 0 :: repeat (XStep 0) 4
  ++ XDo (ALock 7) :: XDo (AOp 7 (OMove 2 0)) :: repeat (XDo (ASend 7)) 3 ++ XDo (AUnlock 7 false) :: XStart 0 :: repeat (XStep 0) 4.
Definition unended_acts : list (xact (vecdiff nat) (op nat)) :=
  XSpawn (sig_pipe of_vec_pipe nothing_pipe (SIsEmpty (VRoot RVec))) :: XStart 0 :: repeat (XStep 0) 5
  ++ XDo (ALock 7) :: XDo (AOp 7 (OPush 2)) :: repeat (XDo (ASend 7)) 3 ++ XDo (AUnlock 7 false) :: XDo ADrop :: XStart 0 :: repeat (XStep 0) 3.

Lemma filter_shows_wrong : exists s, exec (sys_step vec_run vec_first) (sys_init [1; 2; 5]) backward_acts = Some s /\ exists ps n,
  nth_error (tasks s) 0 = Some (mkTask _ (vec_pipe of_vec_pipe (VFilter Nat.odd (VRoot RVec))) ps [Ready (Some (Replace [1; 5])); Pending; Ready (Some (Move 2 0)); Pending] TIdle false n)
  /\ ready (sh s) = true /\ failing (sh s) = false /\ poisoned (sh s) = false /\ contents (sh s) = [5; 1; 2].
Proof. run_ex. see_ex. Qed.

Lemma is_empty_sleeps : exists s, exec (sys_step vec_run vec_first) (sys_init [1]) unended_acts = Some s /\ exists ps n,
  nth_error (tasks s) 0 = Some (mkTask _ (sig_pipe of_vec_pipe nothing_pipe (SIsEmpty (VRoot RVec))) ps [Ready (Some false); Pending; Pending] TIdle false n)
  /\ owners (sh s) = 0.
Proof. run_ex. see_ex. Qed.
