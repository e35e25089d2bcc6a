(** Proofs for Compose.v. *)
From Coq Require Import Permutation.
From Verif Require Import Base Conc Spec BaseFacts LoopFacts Mpsc Slot SlotFacts VecDiff VecSpec VecFacts MapDiff MapSpec MapFacts SortSpec Shared SharedFacts
  Mutable MutableFacts MutableFacts5 MutableFacts7 MutableFacts8 MutableEx Broadcaster BroadcasterFacts BroadcasterUse Sig SigFacts SigSlots SigFlatFacts VecToSignal VecToSignalFacts VecSimple VecSimpleFacts
  Sort SortFacts Chain ChainFacts ElemSignal ElemSignalFacts Flatten FlattenFacts SwitchVec SwitchVecFacts MapComb MapCombFacts MapValueSignalFacts
  VecExecFacts MapViewFacts SigFutFacts Views ViewsFacts ViewsEnd ViewsMach ViewsAll FlattenSpec FlattenStep FilterSignalSpec FilterSignalStep FilterSince Compose.

Lemma listening_caught {X} (a b : src (option X)) : listening a b -> caught_up (past b).
Proof. intros [H|(p & H)]; [right; exact H|left]. exists (past a ++ p). rewrite H, app_assoc. reflexivity. Qed.
Lemma ended_caught {X} (b : src (option X)) : ended b -> caught_up (past b).
Proof. intros H. right. exact H. Qed.
Lemma awaits_caught {X} (b : src (option X)) : awaits b \/ ended b -> caught_up (past b).
Proof. intros [H|H]; [left|right]; exact H. Qed.

(** The last poll of a run. *)
Lemma run_last {S O} (m : S -> option (S * poll (option O))) n : forall s s' outs q o, run m n s = Some (s', outs) -> outs = q ++ [o] ->
  exists n1 s1, run m n1 s = Some (s1, q) /\ m s1 = Some (s', o) /\ ~ In (Ready None) q.
Proof.
  induction n as [|n IH]; intros s s' outs q o H E; cbn [run] in H.
  - injection H as <- <-. destruct q; discriminate.
  - destruct (m s) as [[s1 r]|] eqn:Em; [|discriminate]. destruct q as [|r0 q].
    + cbn in E. exists 0, s. split; [reflexivity|]. split; [|auto]. rewrite Em. destruct r as [|[x|]].
      3:{ injection H as <- <-. injection E as <-. reflexivity. }
      all: destruct (run m n s1) as [[s2 os]|] eqn:Er; [|discriminate]; injection H as <- <-; injection E as <- ->;
           destruct n; cbn [run] in Er; [injection Er as <-; reflexivity|exfalso]; destruct (m s1) as [[? [|[]]]|]; try discriminate;
           destruct (run m n _) as [[]|]; discriminate.
    + destruct r as [|[x|]].
      3:{ injection H as <- <-. destruct q; discriminate. }
      all: destruct (run m n s1) as [[s2 os]|] eqn:Er; [|discriminate]; injection H as <- <-; injection E as <- E;
           destruct (IH _ _ _ _ _ Er E) as (n1 & t & H1 & H2 & H3); exists (Datatypes.S n1), t; cbn [run]; rewrite Em, H1;
           (split; [reflexivity|]); (split; [exact H2|]); intros [|]; [discriminate|auto].
Qed.

Lemma run_end {S O} (m : S -> option (S * poll (option O))) n : forall s s' outs, run m n s = Some (s', outs) -> In (Ready None) outs -> last_out outs (Ready None).
Proof.
  induction n as [|n IH]; intros s s' outs H Hi; cbn [run] in H; [injection H as _ <-; destruct Hi|].
  destruct (m s) as [[s1 [|[x|]]]|]; [| | |discriminate].
  3:{ injection H as _ <-. exists []. reflexivity. }
  all: destruct (run m n s1) as [[s2 os]|] eqn:E; [|discriminate]; injection H as _ <-; destruct Hi as [Hi|Hi]; [discriminate|];
       destruct (IH _ _ _ E Hi) as (p & ->); eexists (_ :: p); reflexivity.
Qed.

(** How a run that has caught up ended. *)
Lemma caught_cases {S O} (m : S -> option (S * poll (option O))) n s s' outs : run m n s = Some (s', outs) -> caught_up outs ->
  last_out outs (Ready None) \/ exists n1 s1 q, run m n1 s = Some (s1, q) /\ ~ In (Ready None) q /\ m s1 = Some (s', Pending) /\ outs = q ++ [Pending].
Proof.
  intros H [(q & E)|Hi]; [right|left; exact (run_end m n _ _ _ H Hi)]. destruct (run_last m n _ _ _ _ _ H E) as (n1 & s1 & H1 & H2 & H3).
  exists n1, s1, q. auto.
Qed.

Lemma last_caught {X} (outs : list (poll (option X))) : last_out outs Pending \/ last_out outs (Ready None) -> caught_up outs.
Proof. intros [H|(p & ->)]; [left; exact H|right; apply in_or_app; right; left; reflexivity]. Qed.
Lemma caught_last {S O} (m : S -> option (S * poll (option O))) n s s' outs : run m n s = Some (s', outs) -> caught_up outs ->
  last_out outs Pending \/ last_out outs (Ready None).
Proof. intros H [Hl|Hi]; [left; exact Hl|right; exact (run_end m n _ _ _ H Hi)]. Qed.

(** ** Combinators with one input *)
Definition keeps (a b : kind) (m : mach (item a) (item b)) (pre : list (item a) -> Prop) (Rm : shown a -> shown b -> Prop) : Prop :=
  listens m /\ ends m /\ forall script, valid a (yielded script) -> pre (yielded script) -> forall n, exists st sr outs,
    run (mpoll m) n (minit m, fresh script) = Some ((st, sr), outs) /\ valid b (yielded outs)
    /\ (caught_up outs -> forall x, says a (yielded (past sr)) x -> exists y, says b (yielded outs) y /\ Rm x y).

Lemma mirrors_sig {A B} (m : mach A B) Rm : listens m -> ends m -> mirrors m sig_ok sig_val sig_ok sig_val Rm -> keeps (KSig A) (KSig B) m any Rm.
Proof. intros H1 H2 H. split; [exact H1|]. split; [exact H2|]. intros script _ _. exact (H script I). Qed.
Lemma mirrors_vec_sig {A B} (m : mach (vecdiff A) B) Rm : listens m -> ends m -> mirrors m (vec_ok false) vec_val sig_ok sig_val Rm -> keeps (KVec A) (KSig B) m any Rm.
Proof.
  intros H1 H2 H. split; [exact H1|]. split; [exact H2|]. intros script Hv _. apply (H script). split; [exact Hv|discriminate].
Qed.
Lemma mirrors_vec {A B} (m : mach (vecdiff A) (vecdiff B)) Rm : listens m -> ends m -> mirrors m (vec_ok false) vec_val (vec_ok false) vec_val Rm -> keeps (KVec A) (KVec B) m any Rm.
Proof.
  intros H1 H2 H. split; [exact H1|]. split; [exact H2|]. intros script Hv _ n. destruct (H script) with (n := n) as (st & sr & outs & R1 & [R2 _] & R3); [split; [exact Hv|discriminate]|].
  exists st, sr, outs. auto.
Qed.
Lemma mirrors_map_vec {K A B} (cmp : K -> K -> comparison) (m : mach (mapdiff K A) (vecdiff B)) Rm : listens m -> ends m ->
  mirrors m (map_ok cmp) (map_val cmp) (vec_ok false) vec_val Rm -> keeps (KMap cmp A) (KVec B) m any Rm.
Proof.
  intros H1 H2 H. split; [exact H1|]. split; [exact H2|]. intros script Hv _ n. destruct (H script Hv n) as (st & sr & outs & R1 & [R2 _] & R3).
  exists st, sr, outs. auto.
Qed.

Lemma latest_says {A} (outs : list (poll (option A))) a : latest_of outs = Some a <-> says (KSig A) (yielded outs) a.
Proof. exact (latest_val outs a). Qed.

Lemma comb_keeps a b m pre Rm : comb a b m pre Rm -> keeps a b m pre Rm.
Proof.
  intros H. destruct H.
  - apply mirrors_sig; [apply (emit_listens (map_mach f) _ (fun _ => eq_refl))|apply (emit_ends (map_mach f) _ (fun _ => eq_refl))|apply map_mirrors].
  - split; [apply (emit_listens inspect_mach _ (fun _ => eq_refl))|]. split; [apply (emit_ends inspect_mach _ (fun _ => eq_refl))|].
    intros script _ _ n. destruct (inspect_mirror script n) as (calls & sr & Hr & Hc).
    exists calls, sr, (past sr). split; [exact Hr|]. split; [exact I|]. intros _ x Hx. exists x. auto.
  - split; [apply (emit_listens (eq_mach eqb v) _ (fun _ => eq_refl))|]. split; [apply (emit_ends (eq_mach eqb v) _ (fun _ => eq_refl))|].
    intros script _ _ n. destruct (eq_run eqb v script n) as (s & sr & outs & Hr & _ & Hl & _).
    exists s, sr, outs. split; [exact Hr|]. split; [exact I|]. intros _ x Hx. exists (eqb x v). split; [|reflexivity].
    apply latest_says in Hx. apply latest_says. cbn [item] in *. rewrite Hl. unfold latest. rewrite Hx. reflexivity.
  - split; [apply (emit_listens (neq_mach eqb v) _ (fun _ => eq_refl))|]. split; [apply (emit_ends (neq_mach eqb v) _ (fun _ => eq_refl))|].
    intros script _ _ n. destruct (neq_run eqb v script n) as (s & sr & outs & Hr & _ & Hl & _).
    exists s, sr, outs. split; [exact Hr|]. split; [exact I|]. intros _ x Hx. exists (negb (eqb x v)). split; [|reflexivity].
    apply latest_says in Hx. apply latest_says. cbn [item] in *. rewrite Hl. unfold latest. rewrite Hx. reflexivity.
  - apply mirrors_sig; [apply (emit_listens (dedupe_mach eqb) _ (fun _ => eq_refl))|apply (emit_ends (dedupe_mach eqb) _ (fun _ => eq_refl))|apply dedupe_mirrors; assumption].
  - split; [apply (emit_listens to_vec_mach _ (fun _ => eq_refl))|]. split; [apply (emit_ends to_vec_mach _ (fun _ => eq_refl))|].
    intros script _ _ n. destruct (to_signal_vec_mirror script n) as (s & sr & outs & Hr & _ & Ho).
    exists s, sr, outs. split; [exact Hr|]. split; [cbn; rewrite Ho; discriminate|]. intros _ x Hx. exists x. split; [|reflexivity].
    apply latest_says in Hx. cbn [item says] in *. rewrite Ho. unfold latest. rewrite Hx. reflexivity.
  - apply mirrors_vec; [apply (emit_listens (vmap_mach f) _ (fun _ => eq_refl))|apply (emit_ends (vmap_mach f) _ (fun _ => eq_refl))|apply vmap_mirrors].
  - apply mirrors_vec; [apply (emit_listens debug_mach _ (fun _ => eq_refl))|apply (emit_ends debug_mach _ (fun _ => eq_refl))|apply debug_mirrors].
  - split; [apply (emit_listens (filter_mach p) _ (fun _ => eq_refl))|]. split; [apply (emit_ends (filter_mach p) _ (fun _ => eq_refl))|].
    intros script Hg Hb n. destruct (filter_mirror p script Hg Hb n) as (st & sr & outs & l & Hr & Hc & Ho & _).
    exists st, sr, outs. split; [exact Hr|]. split; [cbn; rewrite Ho; discriminate|]. intros _ x Hx. exists (filter p x). cbn in *. unfold conveyed in Hc. split; [congruence|reflexivity].
  - split; [apply (emit_listens (filter_map_mach f) _ (fun _ => eq_refl))|]. split; [apply (emit_ends (filter_map_mach f) _ (fun _ => eq_refl))|].
    intros script Hg Hb n. destruct (filter_map_mirror f script Hg Hb n) as (st & sr & outs & l & Hr & Hc & Ho & _).
    exists st, sr, outs. split; [exact Hr|]. split; [cbn; rewrite Ho; discriminate|]. intros _ x Hx. eexists. split; [|reflexivity]. cbn in *. unfold conveyed in Hc.
    rewrite Ho. rewrite Hc in Hx. injection Hx as <-. reflexivity.
  - apply mirrors_vec; [apply sort_listens|apply sort_ends|apply sort_mirrors; assumption].
  - apply mirrors_vec_sig; [apply (slot_listens (to_signal_mach f) _ tsm_lv eq_refl (tsm_slot f))|apply (slot_ends (to_signal_mach f) _ tsm_lv eq_refl (tsm_slot f))|apply tsm_mirrors].
  - apply mirrors_vec_sig; [apply (slot_listens (sum_mach sum) _ tsm_lv eq_refl (sum_slot sum))|apply (slot_ends (sum_mach sum) _ tsm_lv eq_refl (sum_slot sum))|apply sum_mirrors; assumption].
  - apply mirrors_vec_sig; [apply (slot_listens len_mach _ len_lv eq_refl len_slot)|apply (slot_ends len_mach _ len_lv eq_refl len_slot)|apply len_mirrors].
  - apply mirrors_vec_sig; [apply (slot_listens is_empty_mach _ ie_lv eq_refl ie_slot)|apply (slot_ends is_empty_mach _ ie_lv eq_refl ie_slot)|apply ie_mirrors].
  - split; [apply (emit_listens (map_value_mach f) _ (fun _ => eq_refl))|]. split; [apply (emit_ends (map_value_mach f) _ (fun _ => eq_refl))|].
    intros script Hv _. exact (map_value_mirrors cmp f script Hv).
  - apply mirrors_map_vec; [apply (emit_listens (keys_mach cmp) _ (fun _ => eq_refl))|apply (emit_ends (keys_mach cmp) _ (fun _ => eq_refl))|apply keys_mirrors; assumption].
  - apply mirrors_map_vec; [apply (emit_listens (entries_mach cmp) _ (fun _ => eq_refl))|apply (emit_ends (entries_mach cmp) _ (fun _ => eq_refl))|apply entries_mirrors; assumption].
  - split; [apply key_listens|]. split; [apply key_ends|]. intros script Hv _. eapply key_mirrors; eassumption.
Qed.

(** ** The sources *)
Lemma vec_leaf {A} (v : list A) acts st id s : exec vec_step (sh_init v) acts = Some st -> nth_error (chans st) id = Some s -> calive s = true ->
  ready st = true -> failing st = false -> poisoned st = false -> cwoken s = false ->
  replay (yielded (cgot s)) <> None /\ (caught_up (cgot s) -> replay (yielded (cgot s)) = Some (contents st)).
Proof.
  intros Hx Hn Ha Hr Hf Hp Hw. split.
  - destruct (vec_order _ _ _ _ _ Hx Hn) as (l1 & ds1 & v0 & l2 & ds2 & v' & _ & _ & _ & _ & (x & E) & _). unfold replay. rewrite E. discriminate.
  - intros [Hl|Hi].
    + pose proof (vec_quiet _ _ _ _ _ Hx Hn Ha Hr Hf Hp) as Q. pose proof (vec_wakes _ _ _ _ _ Hx Hn Ha Hl) as W. unfold ctotal in Q.
      destruct (cqueue s) as [|d q]; [rewrite app_nil_r in Q; exact Q|]. exfalso. rewrite Hw in W.
      assert (X : false = true) by (apply W; left; discriminate). discriminate.
    + destruct (vec_ends _ _ _ _ _ Hx Hn Ha Hi) as (_ & v' & E1 & E2). rewrite (E2 Hp). exact E1.
Qed.

Section MapLeaf.
  Context {K A : Type} (cmp : K -> K -> comparison) (TO : total_order cmp).
  Lemma map_leaf (m : list (K * A)) acts st id s : is_map cmp m -> exec (Shared.map_step cmp) (sh_init m) acts = Some st ->
    nth_error (chans st) id = Some s -> calive s = true -> ready st = true -> cwoken s = false ->
    (mreplay cmp (yielded (cgot s)) <> None) /\ (caught_up (cgot s) -> mreplay cmp (yielded (cgot s)) = Some (contents st)).
  Proof.
    intros Hm Hx Hn Ha Hr Hw. split.
    - destruct (map_order cmp TO _ _ _ _ _ Hm Hx Hn) as (l1 & ds1 & v0 & l2 & ds2 & _ & _ & _ & _ & (x & E) & _). unfold mreplay. rewrite E. discriminate.
    - intros [Hl|Hi].
      + pose proof (map_quiet cmp TO _ _ _ _ _ Hm Hx Hn Ha Hr) as Q. pose proof (map_wakes cmp TO _ _ _ _ _ Hm Hx Hn Ha Hl) as W. unfold ctotal in Q.
        destruct (cqueue s) as [|d q]; [rewrite app_nil_r in Q; exact Q|]. exfalso. rewrite Hw in W.
        assert (X : false = true) by (apply W; left; discriminate). discriminate.
      + destruct (map_ends cmp TO _ _ _ _ _ Hm Hx Hn Ha Hi) as (_ & E1). exact E1.
  Qed.
  Lemma map_leaf_asc (m : list (K * A)) acts st id s : is_map cmp m -> exec (Shared.map_step cmp) (sh_init m) acts = Some st ->
    nth_error (chans st) id = Some s -> ascending_entries cmp (yielded (cgot s)).
  Proof.
    intros Hm Hx Hn es Hi.
    pose proof (got_Q (map_run (V := A) cmp) map_first (apply_to_map cmp) [] (is_map cmp) map_means (fun _ _ => False) (map_run_means cmp TO) (map_run_panics cmp TO) (map_first_ok cmp TO)
      (asc_diff cmp) (run_asc cmp TO)) as G.
    assert (F : forall c, is_map cmp c -> Forall (asc_diff cmp) (@map_first K A c)).
    { intros [|e l] H; cbn [map_first]; [constructor|]. constructor; [|constructor]. intros es' E. injection E as <-. exact H. }
    specialize (G F m acts st id s Hm Hx Hn). rewrite Forall_forall in G. exact (G _ Hi es eq_refl).
  Qed.
End MapLeaf.

Section MutLeaf.
  Context {A : Type}.
  Definition born_ok (g : sig A) : Prop := match g_pc g with
    | GNew | GPushAcq | GPushDo => g_ans g = []
    | GIdle => last_out (g_ans g) Pending -> g_waiting g = true
    | _ => True end.
  Lemma mu_waits (d : A) l s k1 : exec mu_step (mu_init d) l = Some s -> g_pc (m_sig s k1) = GIdle -> last_out (g_ans (m_sig s k1)) Pending ->
    g_waiting (m_sig s k1) = true.
  Proof.
    intros E. assert (X : born_ok (m_sig s k1)).
    { refine (exec_inv mu_step (fun s => born_ok (m_sig s k1)) _ l _ s _ E).
      2:{ cbn. first [reflexivity|exact I|intros H; exfalso; exact (last_out_nil _ H)]. }
      clear. intros s mv s' IH E. mu_cases E; fu; frame; auto.
      all: match goal with |- context [fupd ?j _ _ ?q] => destruct (Nat.eq_dec q j) as [->|N]; [rewrite fupd_same|rewrite fupd_other by auto; auto] end; cbn; try discriminate; auto.
      all: unfold born_ok in *; cbn; try (rewrite last_out_snoc; discriminate); auto.
      all: try (rewrite Hg in IH; try rewrite IH; auto; intros Hl; exfalso; exact (last_out_nil _ Hl)). }
    unfold born_ok in X. intros P. rewrite P in X. exact X.
  Qed.

  Lemma mu_leaf (d : A) l s k : exec mu_step (mu_init d) l = Some s -> mu_quiet s -> k < m_nsig s -> g_pc (m_sig s k) = GIdle -> g_raced (m_sig s k) = false ->
    ~ In (k, g_polls (m_sig s k)) (m_woken s) -> (In (Ready None) (g_ans (m_sig s k)) -> g_changed (m_sig s k) = false) ->
    caught_up (g_ans (m_sig s k)) -> latest_of (g_ans (m_sig s k)) = Some (val_of s k).
  Proof.
    intros E Q Hk P Hr Hw He Hc. apply (mu_current d l); auto. destruct Hc as [Hl|Hi]; [|auto].
    destruct (g_changed (m_sig s k)) eqn:Ec; [exfalso|reflexivity].
    destruct (mu_woken d l s k E Hk P (mu_waits d l s k E P Hl) Hr Ec) as [X|X]; [auto|exact (quiet_no_notify s k Q X)].
  Qed.
End MutLeaf.

(** ** map_value_signal passes ascending entries on *)
Section Ascend.
  Context {K V B : Type} (cmp : K -> K -> comparison) (inner_of : V -> list (poll (option B))).
  Lemma mvs_replace_keys es : forall acc r polls, mvs_replace cmp inner_of acc es = Some (r, polls) -> map fst polls = map fst es.
  Proof.
    induction es as [|[k v] es IH]; intros acc r polls H; cbn [mvs_replace] in H; [injection H as _ <-; reflexivity|].
    destruct (ms_new inner_of v) as [[m b]|]; [|discriminate]. destruct (mvs_replace cmp inner_of _ es) as [[r1 p1]|] eqn:E; [|discriminate].
    injection H as _ <-. cbn. rewrite (IH _ _ _ E). reflexivity.
  Qed.
  Notation asc := (ascending_entries cmp).
  Lemma asc_app {X} (a b : list (mapdiff K X)) : asc (a ++ b) <-> asc a /\ asc b.
  Proof.
    split.
    - intros H. split; intros es Hi; apply H; apply in_or_app; auto.
    - intros [H1 H2] es Hi. apply in_app_or in Hi. destruct Hi; auto.
  Qed.
  Lemma asc_one {X} (d : mapdiff K X) : (forall es, d <> MReplace es) -> asc [d].
  Proof. intros H es [E|[]]. destruct (H _ E). Qed.
  Lemma mvs_step_asc ms pend d ms' pend' : mvs_step cmp inner_of (ms, pend) d = Some (ms', pend') -> asc pend -> asc [d] -> asc pend'.
  Proof.
    intros H Hp Hd. destruct d as [es|k v|k v|k|]; cbn [mvs_step] in H.
    - destruct (mvs_replace cmp inner_of [] es) as [[r polls]|] eqn:E; [|discriminate]. injection H as _ <-. apply asc_app. split; [exact Hp|].
      intros es' [Ee|[]]. injection Ee as <-. unfold is_map. rewrite (mvs_replace_keys _ _ _ _ E). apply (Hd es). left. reflexivity.
    - destruct (ms_new inner_of v) as [[m b]|]; [|discriminate]. injection H as _ <-. apply asc_app. split; [exact Hp|]. apply asc_one. discriminate.
    - destruct (ms_new inner_of v) as [[m b]|]; [|discriminate]. destruct (bt_get cmp k ms); [|discriminate]. injection H as _ <-. apply asc_app. split; [exact Hp|]. apply asc_one. discriminate.
    - injection H as _ <-. apply asc_app. split; [exact Hp|]. apply asc_one. discriminate.
    - injection H as _ <-. apply asc_app. split; [exact Hp|]. apply asc_one. discriminate.
  Qed.
  Lemma mvs_signals_asc ms : forall pend ms' pend' has, mvs_poll_signals (K := K) (V := V) (B := B) pend ms = (ms', pend', has) -> asc pend -> asc pend'.
  Proof.
    induction ms as [|[k m] ms IH]; intros pend ms' pend' has H Hp; cbn [mvs_poll_signals] in H; [injection H as _ <- _; exact Hp|].
    destruct (poll_slot (ms_signal m)) as [[[|[v|]]|] sl]; destruct (mvs_poll_signals _ ms) as [[a b] c] eqn:E; injection H as _ <- _; apply (IH _ _ _ _ E); auto.
    apply asc_app. split; [exact Hp|]. apply asc_one. discriminate.
  Qed.
  Lemma mvs_drain_asc td : forall x pst x' sr done, loop_drain (mvs_step cmp inner_of) x pst td = Some (x', sr, done) -> asc (snd x) -> asc (yielded td) ->
    asc (snd x') /\ asc (yielded (todo sr)).
  Proof.
    induction td as [|r td IH]; intros x pst x' sr done H Hx Ht; cbn [loop_drain] in H; [injection H as <- <- _; split; [exact Hx|intros es []]|].
    destruct r as [|[d|]].
    - injection H as <- <- _. split; [exact Hx|exact Ht].
    - destruct (mvs_step cmp inner_of x d) as [x1|] eqn:E; [|discriminate]. cbn [yielded] in Ht. change (d :: yielded td) with ([d] ++ yielded td) in Ht. apply asc_app in Ht as [H1 H2].
      apply (IH _ _ _ _ _ H); [|exact H2]. destruct x as [ms pend], x1 as [ms1 pend1]. exact (mvs_step_asc _ _ _ _ _ E Hx H1).
    - injection H as <- <- _. split; [exact Hx|exact Ht].
  Qed.
  Lemma mvs_asc source n st outs : run (mvs_poll cmp inner_of) n (mvs_init source) = Some (st, outs) -> asc (yielded source) -> asc (yielded outs).
  Proof.
    intros H Hs.
    assert (X : asc (yielded (todo (snd (mvs_signal st)))) /\ asc (mvs_pending st) /\ asc (yielded outs)); [|apply X].
    revert H. apply (run_inv_partial0 (mvs_poll cmp inner_of) (fun st outs => asc (yielded (todo (snd (mvs_signal st)))) /\ asc (mvs_pending st) /\ asc (yielded outs))).
    - split; [exact Hs|]. split; intros es [].
    - clear - cmp. intros st outs st' o (H1 & H2 & H3) _ H. rewrite yielded_app. unfold mvs_poll in H. destruct (mvs_pending st) as [|d rest].
      2:{ injection H as <- <-. cbn. change (d :: rest) with ([d] ++ rest) in H2. apply asc_app in H2 as [H2 H4]. split; [exact H1|]. split; [exact H4|]. apply asc_app. auto. }
      destruct (drain_slot (mvs_step cmp inner_of) (mvs_signals st, []) (mvs_signal st)) as [[[[ms pend] sl] done]|] eqn:E; [|discriminate].
      assert (X : asc pend /\ asc (yielded (todo (snd sl)))).
      { unfold drain_slot in E. destruct (mvs_signal st) as [[|] sr]; cbn [fst snd] in *.
        - destruct (loop_drain _ _ (past sr) (todo sr)) as [[[x1 sr1] d1]|] eqn:El; [|discriminate]. injection E as -> <- _.
          destruct (mvs_drain_asc _ _ _ _ _ _ El) as [X1 X2]; [intros es []|exact H1|]. auto.
        - injection E as _ <- <- _. split; [intros es []|exact H1]. }
      destruct X as [X1 X2]. destruct (mvs_poll_signals pend ms) as [[ms2 pend2] has] eqn:E2. pose proof (mvs_signals_asc _ _ _ _ _ E2 X1) as X3.
      destruct pend2 as [|d rest].
      + destruct (done && negb has); injection H as <- <-; cbn; rewrite app_nil_r; auto.
      + injection H as <- <-. cbn. change (d :: rest) with ([d] ++ rest) in X3. apply asc_app in X3 as [X3 X4]. split; [exact X2|]. split; [exact X4|]. apply asc_app. auto.
  Qed.
End Ascend.

(** ** Every signal shows what it is meant to show *)
(** ** Broadcaster *)
Section BcLeaf.
  Context {A B : Type}.
  (** The input was asked until it had no more to say, or it is being asked. *)
  Definition asked_out (s : bc_st A B) : Prop :=
    (b_log s = [] /\ b_dirty s = true) \/ caught_up (b_log s) \/ exists i c, i < b_n s /\ k_pc (b_kids s i) = KIn c.

  Lemma asked_out_step (s : bc_st A B) m s' : asked_out s -> bc_step s m = Some s' -> asked_out s'.
  Proof.
    unfold asked_out. intros H E. bc_split s E.
    all: try (right; left; left; eexists; reflexivity).
    all: try (right; left; right; apply in_or_app; right; left; reflexivity).
    all: try (right; right; eexists i, _; split; [assumption|unfold fupd; rewrite Nat.eqb_refl; reflexivity]).
    all: destruct H as [[Hd1 Hd2]|[H|(j0 & c0 & Hj & Hc)]]; [left; split; auto; fail|right; left; exact H|right; right; exists j0, c0; split; [lia|]].
    all: try exact Hc.
    all: at_kid j0; try (k_simp; congruence); try lia; auto.
  Qed.

  Lemma bc_asked f0 l (s : bc_st A B) : exec bc_step (bc_init f0) l = Some s -> asked_out s.
  Proof.
    intros E. refine (exec_inv bc_step asked_out _ l _ s _ E); [|left; split; reflexivity]. intros t m t' H1 H2. exact (asked_out_step t m t' H1 H2).
  Qed.

  Lemma bc_leaf f0 l (s : bc_st A B) i : exec bc_step (bc_init f0) l = Some s -> bc_idle s -> i < b_n s -> k_alive (b_kids s i) = true ->
    k_raced (b_kids s i) = false -> k_woken (b_kids s i) = false -> caught_up (k_ans (b_kids s i)) ->
    caught_up (b_log s) /\ latest_of (k_ans (b_kids s i)) = option_map (k_fn (b_kids s i)) (latest_of (b_log s)).
  Proof.
    intros E Q Hi Ha Hr Hw [Hp|Hn].
    - destruct Hp as (q & Hq). destruct (bc_woken_race f0 l s i E Q Ha) as (H1 & H2 & H3); auto.
      { split; [exact (proj1 Q i Hi)|]. exists q. exact Hq. }
      split; [|exact H3]. destruct (bc_asked f0 l s E) as [[_ H]|[H|(j & c & Hj & H)]]; [congruence|exact H|].
      rewrite (proj1 Q j Hj) in H. discriminate.
    - assert (X : exists h n h', k_hist (b_kids s i) = h ++ (n, Ready None) :: h').
      { unfold k_ans in Hn. apply in_map_iff in Hn as ([n r] & Hr1 & Hn). cbn in Hr1. subst r. apply in_split in Hn as (h & h' & Hh). eauto. }
      destruct X as (h & n & h' & Hh). destruct (bc_answer f0 l s i h n _ h' E Hh) as [Hle He]. cbn beta iota in He.
      pose proof (ended_all n (b_log s) (bc_obeys_end f0 l s E) He) as Ha1.
      split; [right; apply has_end_in; rewrite <- Ha1; exact He|].
      pose proof (bc_latest f0 l s i h n _ h' E Hh) as Hl. rewrite Ha1 in Hl. rewrite <- Hl.
      pose proof (bc_ended f0 l s i h n h' E Hh) as Hf. unfold k_ans. rewrite Hh, map_app. cbn [map snd].
      change (map snd h ++ Ready None :: map snd h') with (map snd h ++ [Ready None] ++ map snd h'). rewrite app_assoc.
      clear - Hf. revert Hf. generalize (map snd h ++ [Ready None]) as p. induction h' as [|[m r] h' IH]; intros p Hf; [cbn; rewrite app_nil_r; reflexivity|].
      inversion Hf as [|? ? H1 H2]; subst. cbn in H1. subst r. cbn [map snd].
      change (p ++ Ready None :: map snd h') with (p ++ [Ready None] ++ map snd h'). rewrite app_assoc, IH by exact H2.
      unfold latest_of. rewrite yielded_app. cbn. rewrite app_nil_r. reflexivity.
  Qed.
End BcLeaf.

Lemma compose_shows k outs R : gives k outs R -> valid k (yielded outs) /\ (caught_up outs -> exists x, says k (yielded outs) x /\ R x).
Proof.
  induction 1 as [A v acts st id s H1 H2 H3 H4 H5 H6 H7|K cmp A m acts st id s TO Hm H1 H2 H3 H4 H5|A d l s k H1 H2 H3 H4 H5 H6 H7|k outs R H1 H2
    |a b m pre Rm inp n st outs R Hc _ [IH1 IH2] Hp Hr|A B f0 l s i R H1 H2 H3 H4 H5 H6 _ [_ IH]|A B f inps n is outs R Hne Hi _ IH Hr He|A B inner_of inp n st outs R Q _ [_ IH] Hi Hr He _ IHi
    |A left right n st outs R1 R2 _ [IHl1 IHl2] _ [IHr1 IHr2] Nl Nr Hr El Er|K B inner_of inp n st outs R Q _ [IH1 IH2] Hi Hr He _ IHi
    |K inner_of inp n st outs R Q _ [IH1 IH2] Hi Hb Hr He _ IHi|K A inner_of inp n st outs R Q _ [IH1 IH2] Hi Ht Hr He _ IHi
    |A B inner_of inp n st outs R Q _ [_ IH] Hi Hr He Hin _ IHi|K cmp V B inner_of inp n st outs R Q TO _ [[IH1 IHa] IH2] Hi Hr He _ IHi].
  - destruct (vec_leaf v acts st id s H1 H2 H3 H4 H5 H6 H7) as [X1 X2]. split; [exact X1|]. intros Hc. exists (contents st). split; [exact (X2 Hc)|reflexivity].
  - destruct (map_leaf cmp TO m acts st id s Hm H1 H2 H3 H4 H5) as [X1 X2]. split; [split; [exact X1|exact (map_leaf_asc cmp TO m acts st id s Hm H1 H2)]|].
    intros Hc. exists (contents st). split; [exact (X2 Hc)|reflexivity].
  - split; [exact I|]. intros Hc. exists (val_of s k). split; [|reflexivity]. apply latest_says. exact (mu_leaf d l s k H1 H2 H3 H4 H5 H6 H7 Hc).
  - auto.
  - destruct (comb_keeps _ _ _ _ _ Hc) as (K1 & K2 & K3). destruct (K3 inp IH1 Hp n) as (st1 & sr1 & outs1 & Hr1 & V1 & V2).
    rewrite Hr in Hr1. injection Hr1 as <- <- <-. cbn [past] in V2. split; [exact V1|]. intros Hcu.
    assert (X : caught_up inp).
    { destruct (caught_cases _ _ _ _ _ Hr Hcu) as [Hl|(n1 & [s1 sr1] & q & E1 & E2 & E3 & _)].
      - pose proof (ended_caught _ (K2 _ _ _ _ _ Hr Hl)) as X. exact X.
      - pose proof (listening_caught _ _ (K1 _ _ _ _ _ _ _ E1 E2 E3)) as X. exact X. }
    destruct (IH2 X) as (x & X1 & X2). destruct (V2 Hcu x X1) as (y & Y1 & Y2). exists y. split; [exact Y1|]. exists x. auto.
  - split; [exact I|]. intros Hc. destruct (bc_leaf f0 l s i H1 H2 H3 H4 H5 H6 Hc) as [X1 X2]. destruct (IH X1) as (a & Y1 & Y2).
    exists (k_fn (b_kids s i) a). split; [|exists a; auto]. apply latest_says. cbn [item] in *. rewrite X2. apply latest_says in Y1. rewrite Y1. reflexivity.
  - split; [exact I|]. intros Hcu. destruct (map_ref_run f inps n Hne Hi) as (is1 & outs1 & Hr1 & Hlen & _ & Hv & _ & Hpe & Hen & _).
    cbn [item] in *. rewrite Hr in Hr1. injection Hr1 as <- <-. cbv zeta in *.
    destruct (Hv (complete_ne outs Hcu)) as (vs & Hvs & Hl). exists (f vs). split; [apply latest_says; exact Hl|]. exists vs.
    assert (Hall : Forall (fun i => caught_up (past i)) (map (fun i => snd (mr_signal i)) is)).
    { destruct (caught_last _ _ _ _ _ Hr Hcu) as [X|X].
      - destruct (Hpe X) as [Y _]. eapply Forall_impl; [|exact Y]. intros i. apply awaits_caught.
      - eapply Forall_impl; [|exact (Hen X)]. intros i. apply ended_caught. }
    assert (Hll : length vs = length inps) by (rewrite <- Hlen; apply (f_equal (@length _)) in Hvs; rewrite !map_length in *; auto).
    split; [exact Hll|]. split; [|reflexivity]. intros i v Hn.
    assert (Hx : exists x, nth_error is i = Some x).
    { destruct (nth_error is i) eqn:E; [eauto|]. apply nth_error_None in E. rewrite map_length in Hlen. assert (i < length vs) by (apply nth_error_Some; congruence). lia. }
    destruct Hx as (x & Hx).
    assert (Hp : nth_error inps i = Some (past (snd (mr_signal x)))) by (rewrite <- He; exact (map_nth_error _ _ _ Hx)).
    destruct (IH i _ Hp) as [_ IHx].
    assert (Hcx : caught_up (past (snd (mr_signal x)))).
    { rewrite Forall_forall in Hall. apply Hall. apply in_map_iff. exists x. split; [reflexivity|]. exact (nth_error_In _ _ Hx). }
    destruct (IHx Hcx) as (y & Y1 & Y2). apply latest_says in Y1.
    assert (Ev : nth_error (map latest (map (fun i => snd (mr_signal i)) is)) i = Some (Some v)) by (rewrite Hvs; exact (map_nth_error _ _ _ Hn)).
    rewrite map_map in Ev. rewrite (map_nth_error _ _ _ Hx) in Ev. injection Ev as Ev. unfold latest in Ev. cbn [item] in *. rewrite Y1 in Ev. injection Ev as <-. exact Y2.
  - split; [exact I|]. intros Hcu. destruct (switch_run inner_of inp n Hi) as (st1 & outs1 & Hr1 & Hf & _ & Hl & Hpe & Hen & _).
    cbn [item] in *. rewrite Hr in Hr1. injection Hr1 as <- <-. cbv zeta in *.
    assert (Ho : caught_up inp).
    { rewrite <- He. destruct (caught_last _ _ _ _ _ Hr Hcu) as [X|X]; [exact (awaits_caught _ (proj1 (Hpe X)))|exact (ended_caught _ (proj1 (Hen X)))]. }
    destruct (IH Ho) as (a & A1 & A2). apply latest_says in A1. cbn [item] in *.
    destruct (snoc_cases (made (fl_inner st))) as [Hz|(older & [a1 f1] & Hz)].
    { rewrite Hz in Hf. cbn in Hf. rewrite He in Hf. unfold latest_of in A1. rewrite <- Hf in A1. discriminate. }
    destruct (Hl _ _ _ Hz) as (L1 & _ & L3). unfold latest in L1. rewrite He, A1 in L1. injection L1 as <-.
    assert (Hcf : caught_up (past f1)).
    { destruct (caught_last _ _ _ _ _ Hr Hcu) as [X|X]; [exact (awaits_caught _ (proj1 (proj2 (Hpe X)) _ _ _ Hz))|exact (ended_caught _ (proj2 (Hen X) _ _ _ Hz))]. }
    destruct (IHi _ _ _ Hz) as [_ IHf]. destruct (IHf Hcf) as (b & B1 & B2). exists b. split; [|eauto]. apply latest_says. apply latest_says in B1. cbn [item] in *. rewrite L3. exact B1.
  - destruct (chain_mirror left right IHl1 IHr1 n) as (st1 & outs1 & L & R & shown & Hr1 & CL & CR & Hs & Hsh & _ & _ & _ & Hen & _).
    cbn [item] in *. rewrite Hr in Hr1. injection Hr1 as <- <-. split; [cbn; rewrite Hs; discriminate|]. intros Hcu.
    assert (Hall : caught_up left /\ caught_up right).
    { destruct (caught_cases _ _ _ _ _ Hr Hcu) as [Hl|(n1 & s1 & q & E1 & E2 & E3 & _)].
      - destruct (Hen Hl) as [X1 X2]. rewrite <- El, <- Er. split; apply ended_caught; assumption.
      - destruct (chain_wakes left right IHl1 IHr1 Nl Nr _ _ _ _ E1 E2 E3) as [X1 X2]. rewrite <- El, <- Er. split; eapply listening_caught; eassumption. }
    destruct (IHl2 (proj1 Hall)) as (l1 & L1 & L2). destruct (IHr2 (proj2 Hall)) as (r1 & S1 & S2). cbn [says item] in *.
    unfold conveyed in *. rewrite El, L1 in CL. rewrite Er, S1 in CR. injection CL as <-. injection CR as <-.
    exists (l1 ++ r1). split; [rewrite Hs, (Hsh (caught_last _ _ _ _ _ Hr Hcu)); reflexivity|]. exists l1, r1. auto.
  - destruct (map_signal_mirror inner_of inp Hi IH1 n) as (st1 & outs1 & vs & shown & Hr1 & Hc & HF & Hs & Hsh & _).
    cbn [item] in *. rewrite Hr in Hr1. injection Hr1 as <- <-. split; [cbn; rewrite Hs; discriminate|]. intros Hcu.
    assert (Hall : caught_up inp /\ Forall (fun m => caught_up (past (snd (ms_signal m)))) (mas_signals st)).
    { destruct (caught_cases _ _ _ _ _ Hr Hcu) as [Hl|(n1 & s1 & q & E1 & E2 & E3 & _)].
      - destruct (map_signal_ends inner_of inp Hi IH1 n _ _ Hr) as (_ & _ & X & _). destruct (X Hl) as [X1 X2]. rewrite <- He. split; [apply ended_caught; exact X1|].
        eapply Forall_impl; [|exact X2]. intros m. apply ended_caught.
      - destruct (map_signal_wakes inner_of inp Hi IH1 _ _ _ _ E1 E2 E3) as [X1 X2]. rewrite <- He. split; [eapply listening_caught; exact X1|].
        clear - X2. induction X2; constructor; [eapply listening_caught; eassumption|assumption]. }
    destruct Hall as [C1 C2]. destruct (IH2 C1) as (ks & K1 & K2). cbn [says item Compose.shown] in *. unfold conveyed in Hc. rewrite He, K1 in Hc. injection Hc as ->.
    exists vs. split; [rewrite Hs, (Hsh (caught_last _ _ _ _ _ Hr Hcu)); reflexivity|]. exists (map ms_origin (mas_signals st)). split; [exact K2|].
    clear - HF C2 IHi. revert C2 IHi. induction HF as [|m v ms vs [_ Hv] _ IH]; intros C2 IHi; constructor.
    + inversion C2; subst. destruct (IHi m (or_introl eq_refl)) as [_ IHm]. destruct (IHm H1) as (b & B1 & B2). apply latest_says in B1. unfold latest in Hv. cbn [item] in *. rewrite Hv in B1. injection B1 as ->. exact B2.
    + inversion C2; subst. apply IH; [assumption|]. intros m0 Hm0. apply IHi. right. exact Hm0.
  - destruct (filter_fine_mirror inner_of inp Hi IH1 n Hb) as (st1 & outs1 & shown & Hr1 & Hc & Hs & Hsh).
    cbn [item] in *. rewrite Hr in Hr1. injection Hr1 as <- <-. split; [cbn; rewrite Hs; discriminate|]. intros Hcu.
    assert (Hall : caught_up inp /\ Forall (fun f => caught_up (past (snd (fs_signal f)))) (fis_signals st)).
    { destruct (caught_cases _ _ _ _ _ Hr Hcu) as [Hl|(n1 & s1 & q & E1 & E2 & E3 & _)].
      - destruct (filter_signal_ends inner_of inp Hi IH1 n) as (st2 & outs2 & Hr2 & _ & _ & _ & X & _). rewrite Hr in Hr2. injection Hr2 as <- <-.
        destruct (X Hl) as [X1 X2]. rewrite <- He. split; [apply ended_caught; exact X1|]. eapply Forall_impl; [|exact X2]. intros f. apply ended_caught.
      - destruct (filter_signal_wakes inner_of inp Hi IH1 _ _ _ _ E1 E2 E3) as [X1 (new & before & _ & _ & X2)]. rewrite <- He. split; [eapply listening_caught; exact X1|].
        clear - X2. remember (map (fun f => snd (fs_signal f)) (fis_signals st)) as l eqn:El. revert El. generalize (fis_signals st). induction X2; intros [|f fs] El; try discriminate; constructor.
        + injection El as -> _. eapply listening_caught; eassumption.
        + injection El as _ El. apply IHX2. exact El. }
    destruct Hall as [C1 C2]. destruct (IH2 C1) as (ks & K1 & K2). cbn [says item Compose.shown] in *. unfold conveyed in Hc. rewrite He, K1 in Hc. injection Hc as ->.
    set (bs := map (fun f => match latest (snd (fs_signal f)) with Some b => b | None => false end) (fis_signals st)).
    exists (map fs_value (filter (fun f => match latest (snd (fs_signal f)) with Some b => b | None => false end) (fis_signals st))).
    split; [rewrite Hs, (Hsh (caught_last _ _ _ _ _ Hr Hcu)); reflexivity|]. exists (map fs_value (fis_signals st)), bs. split; [exact K2|]. subst bs. split.
    + clear - C2 IHi. revert C2 IHi. induction (fis_signals st) as [|f fs IH]; intros C2 IHi; cbn [map]; constructor.
      * inversion C2; subst. destruct (IHi f (or_introl eq_refl)) as [_ IHm]. destruct (IHm H1) as (b & B1 & B2). apply latest_says in B1. unfold latest. cbn [item] in *. rewrite B1. exact B2.
      * inversion C2; subst. apply IH; [assumption|]. intros f0 Hf0. apply IHi. right. exact Hf0.
    + clear. induction (fis_signals st) as [|f fs IH]; [reflexivity|]. cbn [map combine filter snd]. destruct (latest (snd (fs_signal f))) as [[|]|]; cbn [map fst]; rewrite IH; reflexivity.
  - assert (Hg : forall k, good_vec_script (inner_of k)) by exact Hi.
    destruct (flatten_fine_mirror inner_of inp Hg IH1 n Ht) as (st1 & outs1 & ls & shown & Hr1 & Hc & HF & Hs & Hsh).
    cbn [item] in *. rewrite Hr in Hr1. injection Hr1 as <- <-. split; [cbn; rewrite Hs; discriminate|]. intros Hcu.
    assert (Hall : caught_up inp /\ Forall (fun f => caught_up (past (snd (fv_signal_vec f)))) (fla_inner st)).
    { destruct (caught_cases _ _ _ _ _ Hr Hcu) as [Hl|(n1 & s1 & q & E1 & E2 & E3 & _)].
      - destruct (flatten_ends inner_of inp Hg IH1 n) as (st2 & outs2 & Hr2 & _ & _ & _ & _ & X & _). rewrite Hr in Hr2. injection Hr2 as <- <-.
        destruct (X Hl) as [X1 X2]. rewrite <- He. split; [apply ended_caught; exact X1|]. eapply Forall_impl; [|exact X2]. intros f. apply ended_caught.
      - destruct (flatten_wakes inner_of inp Hg IH1 _ _ _ _ E1 E2 E3) as [X1 (new & before & _ & _ & X2)]. rewrite <- He. split; [eapply listening_caught; exact X1|].
        clear - X2. remember (map (fun f => snd (fv_signal_vec f)) (fla_inner st)) as l eqn:El. revert El. generalize (fla_inner st). induction X2; intros [|f fs] El; try discriminate; constructor.
        + injection El as -> _. eapply listening_caught; eassumption.
        + injection El as _ El. apply IHX2. exact El. }
    destruct Hall as [C1 C2]. destruct (IH2 C1) as (ks & K1 & K2). cbn [says item Compose.shown] in *. unfold conveyed in Hc. rewrite He, K1 in Hc. injection Hc as ->.
    exists (concat ls). split; [rewrite Hs, (Hsh (caught_last _ _ _ _ _ Hr Hcu)); reflexivity|]. exists (map fv_origin (fla_inner st)), ls. split; [exact K2|]. split; [|reflexivity].
    clear - HF C2 IHi. revert C2 IHi. induction HF as [|m v ms vs Hv _ IH]; intros C2 IHi; constructor.
    + inversion C2; subst. destruct (IHi m (or_introl eq_refl)) as [_ IHm]. destruct (IHm H1) as (b & B1 & B2). cbn [says item] in *. unfold holds, conveyed in Hv. rewrite Hv in B1. injection B1 as ->. exact B2.
    + inversion C2; subst. apply IH; [assumption|]. intros m0 Hm0. apply IHi. right. exact Hm0.
  - destruct (switch_vec_mirror inner_of inp Hi n) as (st1 & outs1 & shown & Hr1 & Hs & Hz & Hm).
    cbn [item] in *. rewrite Hr in Hr1. injection Hr1 as <- <-. split; [cbn; rewrite Hs; discriminate|]. intros Hcu.
    assert (Hall : caught_up inp /\ forall older a f, made (swv_inner st) = older ++ [(a, f)] -> caught_up (past f)).
    { rewrite <- He. destruct (caught_cases _ _ _ _ _ Hr Hcu) as [Hl|(n1 & s1 & q & E1 & E2 & E3 & _)].
      - destruct (switch_vec_ends inner_of inp Hi n _ _ Hr) as (_ & _ & X & _). destruct (X Hl) as [X1 X2]. split; [apply ended_caught; exact X1|]. intros older a f Hf. apply ended_caught. exact (X2 _ _ _ Hf).
      - destruct (switch_vec_wakes inner_of inp Hi _ _ _ _ E1 E2 E3) as [X1 X2]. split; [eapply listening_caught; exact X1|]. intros older a f Hf. eapply listening_caught. exact (X2 _ _ _ Hf). }
    destruct Hall as [C1 C2]. destruct (IH C1) as (a & A1 & A2). apply latest_says in A1. cbn [item] in *.
    destruct (snoc_cases (made (swv_inner st))) as [Hn|(older & [a1 f1] & Hn)].
    { destruct (Hz Hn) as [X _]. rewrite He in X. unfold latest_of in A1. rewrite X in A1. discriminate. }
    destruct (Hm _ _ _ Hn) as (M1 & _ & M3). pose proof (Hin _ _ _ Hn) as Hne. unfold latest in M1. rewrite He, A1 in M1. injection M1 as <-.
    destruct (IHi _ _ _ Hn) as [_ IHf]. destruct (IHf (C2 _ _ _ Hn)) as (l & L1 & L2). cbn [says item Compose.shown] in *. unfold conveyed in M3. rewrite (M3 (fun _ => Hne)) in L1. injection L1 as <-.
    exists shown. split; [exact Hs|]. eauto.
  - destruct (map_value_signal_mirror cmp TO inner_of Hi inp IH1 n) as (st1 & outs1 & vs & shown & Hr1 & Hc & HF & Hs & Hsh & _).
    cbn [item] in *. rewrite Hr in Hr1. injection Hr1 as <- <-. split; [split; [rewrite Hs; discriminate|exact (mvs_asc cmp inner_of inp n st outs Hr IHa)]|]. intros Hcu.
    assert (Hall : caught_up inp /\ Forall (fun e => caught_up (past (snd (ms_signal (snd e))))) (mvs_signals st)).
    { destruct (caught_cases _ _ _ _ _ Hr Hcu) as [Hl|(n1 & s1 & q & E1 & E2 & E3 & _)].
      - destruct (map_value_signal_ends cmp TO inner_of Hi inp IH1 n _ _ Hr) as (_ & _ & X & _). destruct (X Hl) as [X1 X2]. rewrite <- He. split; [apply ended_caught; exact X1|].
        eapply Forall_impl; [|exact X2]. intros m. apply ended_caught.
      - destruct (map_value_signal_wakes cmp TO inner_of Hi inp IH1 _ _ _ _ E1 E2 E3) as [X1 X2]. rewrite <- He. split; [eapply listening_caught; exact X1|].
        clear - X2. induction X2; constructor; [eapply listening_caught; eassumption|assumption]. }
    destruct Hall as [C1 C2]. destruct (IH2 C1) as (es & K1 & K2). cbn [says item Compose.shown] in *. unfold mconveyed in Hc. rewrite He, K1 in Hc. injection Hc as ->.
    exists vs. split; [rewrite Hs, (Hsh (caught_last _ _ _ _ _ Hr Hcu)); reflexivity|]. eexists. split; [exact K2|].
    clear - HF C2 IHi. revert C2 IHi. induction HF as [|[k m] v ms vs (Hk & _ & Hv) _ IH]; intros C2 IHi; cbn [map]; constructor.
    + inversion C2; subst. destruct (IHi (k, m) (or_introl eq_refl)) as [_ IHm]. cbn [fst snd] in *. destruct (IHm H1) as (b & B1 & B2). apply latest_says in B1. unfold latest in Hv. cbn [item] in *. rewrite Hv in B1. injection B1 as ->. auto.
    + inversion C2; subst. apply IH; [assumption|]. intros m0 Hm0. apply IHi. right. exact Hm0.
Qed.

Lemma comb_runs a b m pre Rm n : comb a b m pre Rm -> forall inp, valid a (yielded inp) -> run (mpoll m) n (minit m, fresh inp) <> None.
Proof.
  intros Hc. pose proof (comb_keeps _ _ _ _ _ Hc) as (_ & _ & K). destruct Hc; intros inp V.
  all: try (destruct (K inp V I n) as (st & sr & outs & E & _); rewrite E; discriminate).
  - destruct (filter_since p inp V n) as (st & sr & outs & l & E & _). cbn in *. rewrite E. discriminate.
  - destruct (filter_map_since f inp V n) as (st & sr & outs & l & E & _). cbn in *. rewrite E. discriminate.
Qed.
Lemma comb_no_panic a b m pre Rm inp R n : comb a b m pre Rm -> gives a inp R -> run (mpoll m) n (minit m, fresh inp) <> None.
Proof. intros Hc Hg. exact (comb_runs a b m pre Rm n Hc inp (proj1 (compose_shows _ _ _ Hg))). Qed.
Lemma map_ref_no_panic A B (f : list A -> B) inps n : inps <> [] -> Forall has_initial inps -> run (map_ref_poll f) n (map_mut_init inps) <> None.
Proof. intros H1 H2. destruct (map_ref_run f inps n H1 H2) as (is & outs & E & _). rewrite E. discriminate. Qed.
Lemma switch_no_panic A B (inner_of : nat -> A -> list (poll (option B))) inp n : (forall k a, has_initial (inner_of k a)) ->
  run (switch_poll inner_of) n (switch_init inp) <> None.
Proof. intros H. destruct (switch_run inner_of inp n H) as (st & outs & E & _). rewrite E. discriminate. Qed.
Lemma chain_no_panic A left right (R1 R2 : list A -> Prop) n : gives (KVec A) left R1 -> gives (KVec A) right R2 ->
  run chain_poll n (chain_init left right) <> None.
Proof.
  intros G1 G2. destruct (compose_shows _ _ _ G1) as [V1 _], (compose_shows _ _ _ G2) as [V2 _].
  destruct (chain_mirror left right V1 V2 n) as (st & outs & L & R & sh & E & _). cbn [item] in *. rewrite E. discriminate.
Qed.
Lemma map_signal_no_panic K B (inner_of : K -> list (poll (option B))) inp (R : list K -> Prop) n : gives (KVec K) inp R ->
  (forall k, has_initial (inner_of k)) -> run (map_signal_poll inner_of) n (map_signal_init inp) <> None.
Proof.
  intros G H. destruct (compose_shows _ _ _ G) as [V _]. destruct (map_signal_mirror inner_of inp H V n) as (st & outs & vs & sh & E & _). cbn [item] in *. rewrite E. discriminate.
Qed.
Lemma filter_signal_no_panic K (inner_of : K -> list (poll (option bool))) inp (R : list K -> Prop) n : gives (KVec K) inp R ->
  (forall k, has_initial (inner_of k)) -> run (filter_signal_poll inner_of) n (filter_signal_init inp) <> None.
Proof.
  intros G H. destruct (compose_shows _ _ _ G) as [V _]. destruct (filter_signal_ends inner_of inp H V n) as (st & outs & E & _). cbn [item] in *. rewrite E. discriminate.
Qed.
Lemma flatten_no_panic K A (inner_of : K -> list (poll (option (vecdiff A)))) inp (R : list K -> Prop) n : gives (KVec K) inp R ->
  (forall k, exists S, gives (KVec A) (inner_of k) S) -> run (flatten_vec_poll inner_of) n (flatten_vec_init inp) <> None.
Proof.
  intros G H. destruct (compose_shows _ _ _ G) as [V _].
  assert (H1 : forall k, good_vec_script (inner_of k)) by (intros k; destruct (H k) as [S HS]; exact (proj1 (compose_shows _ _ _ HS))).
  destruct (flatten_ends inner_of inp H1 V n) as (st & outs & E & _). cbn [item] in *. rewrite E. discriminate.
Qed.
Lemma switch_vec_no_panic A B (inner_of : nat -> A -> list (poll (option (vecdiff B)))) inp n :
  (forall k a, exists S, gives (KVec B) (inner_of k a) S) -> run (switch_vec_poll inner_of) n (switch_vec_init inp) <> None.
Proof.
  intros H. assert (H1 : forall k a, good_vec_script (inner_of k a)) by (intros k a; destruct (H k a) as [S HS]; exact (proj1 (compose_shows _ _ _ HS))).
  destruct (switch_vec_mirror inner_of inp H1 n) as (st & outs & sh & E & _). rewrite E. discriminate.
Qed.
Lemma map_value_signal_no_panic K (cmp : K -> K -> comparison) V B (inner_of : V -> list (poll (option B))) inp (R : list (K * V) -> Prop) n :
  total_order cmp -> gives (KMap cmp V) inp R -> (forall v, has_initial (inner_of v)) -> run (mvs_poll cmp inner_of) n (mvs_init inp) <> None.
Proof.
  intros TO G H. destruct (compose_shows _ _ _ G) as [[V1 _] _]. destruct (map_value_signal_mirror cmp TO inner_of H inp V1 n) as (st & outs & vs & sh & E & _).
  cbn [item] in *. rewrite E. discriminate.
Qed.

(** ** For the examples: the premises of the rules, computed *)
Lemma vec_ex {A} (v : list A) acts id outs c :
  match exec vec_step (sh_init v) acts with
  | Some st => match nth_error (chans st) id with
               | Some s => contents st = c /\ cgot s = outs /\ (calive s && ready st && negb (failing st) && negb (poisoned st) && negb (cwoken s)) = true
               | None => False
               end
  | None => False
  end -> exists st, exec vec_step (sh_init v) acts = Some st /\ contents st = c /\ gives (KVec A) outs (fun l => l = contents st).
Proof.
  destruct (exec vec_step (sh_init v) acts) as [st|] eqn:E; [|contradiction]. destruct (nth_error (chans st) id) as [s|] eqn:Es; [|contradiction].
  intros (C & <- & H). rewrite !andb_true_iff, !negb_true_iff in H. destruct H as ((((H1 & H2) & H3) & H4) & H5). exists st. split; [reflexivity|]. split; [exact C|].
  exact (g_mutable_vec A v acts st id s E Es H1 H2 H3 H4 H5).
Qed.

Lemma map_ex {A} (m : list (nat * A)) acts id outs c : is_map Nat.compare m ->
  match exec (Shared.map_step Nat.compare) (sh_init m) acts with
  | Some st => match nth_error (chans st) id with
               | Some s => contents st = c /\ cgot s = outs /\ (calive s && ready st && negb (cwoken s)) = true
               | None => False
               end
  | None => False
  end -> exists st, exec (Shared.map_step Nat.compare) (sh_init m) acts = Some st /\ contents st = c /\ gives (KMap Nat.compare A) outs (fun l => l = contents st).
Proof.
  intros Hm. destruct (exec (Shared.map_step Nat.compare) (sh_init m) acts) as [st|] eqn:E; [|contradiction]. destruct (nth_error (chans st) id) as [s|] eqn:Es; [|contradiction].
  intros (C & <- & H). rewrite !andb_true_iff, !negb_true_iff in H. destruct H as ((H1 & H2) & H3). exists st. split; [reflexivity|]. split; [exact C|].
  exact (g_mutable_map nat Nat.compare A m acts st id s nat_order Hm E Es H1 H2 H3).
Qed.

Definition mu_restsb {A} (s : mu_st A) k : bool :=
  (k <? m_nsig s) && (match g_pc (m_sig s k) with GIdle => true | _ => false end) && negb (g_raced (m_sig s k))
  && negb (existsb (fun w => (fst w =? k) && (snd w =? g_polls (m_sig s k))) (m_woken s)) && negb (g_changed (m_sig s k)).
Lemma mu_gives {A} (d : A) l s k : exec mu_step (mu_init d) l = Some s -> quietb s = true -> mu_restsb s k = true ->
  gives (KSig A) (g_ans (m_sig s k)) (fun v => v = val_of s k).
Proof.
  intros E Q H. unfold mu_restsb in H. rewrite !andb_true_iff, !negb_true_iff in H. destruct H as ((((H1 & H2) & H3) & H4) & H5). apply Nat.ltb_lt in H1.
  refine (g_mutable A d l s k E (quietb_spec s Q) H1 _ H3 _ (fun _ => H5)).
  - destruct (g_pc (m_sig s k)); congruence.
  - intros Hi. rewrite <- not_true_iff_false in H4. apply H4. apply existsb_exists. eexists. split; [exact Hi|]. cbn. rewrite !Nat.eqb_refl. reflexivity.
Qed.
Lemma mu_ex {A} (d : A) l i j oi oj vi vj :
  match exec mu_step (mu_init d) l with
  | Some s => val_of s i = vi /\ val_of s j = vj /\ g_ans (m_sig s i) = oi /\ g_ans (m_sig s j) = oj /\ (quietb s && mu_restsb s i && mu_restsb s j) = true
  | None => False
  end -> exists s, exec mu_step (mu_init d) l = Some s /\ val_of s i = vi /\ val_of s j = vj
    /\ gives (KSig A) oi (fun v => v = val_of s i) /\ gives (KSig A) oj (fun v => v = val_of s j).
Proof.
  destruct (exec mu_step (mu_init d) l) as [s|] eqn:E; [|contradiction]. intros (V1 & V2 & <- & <- & H). rewrite !andb_true_iff in H. destruct H as ((H1 & H2) & H3).
  exists s. repeat (split; [assumption||reflexivity|]). split; apply (mu_gives d l); assumption.
Qed.

Lemma bc_ex {A B} (f0 : A -> B) l i log outs f R : gives (KSig A) log R ->
  match exec bc_step (bc_init f0) l with
  | Some s => b_log s = log /\ k_ans (b_kids s i) = outs /\ k_fn (b_kids s i) = f
      /\ (bc_idleb s && (i <? b_n s) && k_alive (b_kids s i) && negb (k_raced (b_kids s i)) && negb (k_woken (b_kids s i))) = true
  | None => False
  end -> exists s, exec bc_step (bc_init f0) l = Some s /\ gives (KSig B) outs (fun b => exists a, R a /\ b = f a).
Proof.
  intros G. destruct (exec bc_step (bc_init f0) l) as [s|] eqn:E; [|contradiction]. intros (<- & <- & <- & H). rewrite !andb_true_iff, !negb_true_iff in H.
  destruct H as ((((Q & H1) & H2) & H3) & H4). apply Nat.ltb_lt in H1. exists s. split; [reflexivity|].
  exact (g_broadcaster A B f0 l s i R E (proj1 (bc_idleb_spec s) Q) H1 H2 H3 H4 G).
Qed.
