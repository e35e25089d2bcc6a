(** A poll of a task comes to an end (Views.v). *)
From Verif Require Import Base Conc Spec BaseFacts LoopFacts Mpsc Shared SharedFacts Views ViewsSpec ViewsFacts ViewsRun.

Section Machine.
  Context {A B : Type} (m : mach A B).

  (** It answers with few values, in relation to those that it reads. *)
  Definition frugal : Prop := exists w : mst m -> nat, forall st pst used st' r,
    mpoll m (st, mkSrc pst used) = Some ((st', mkSrc (pst ++ used) []), r) ->
    w st' + (match r with Ready (Some _) => 1 | _ => 0 end) <= w st + 2 * length (yielded used).
  (** It does not ask for more after Pending or the end. *)
  Definition stops : Prop := forall st log known x, x = Pending \/ x = Ready None -> ~ starved m st log (known ++ [x]).
End Machine.

Fixpoint prompt {D B} (p : pipe D B) : Prop :=
  match p with PSource => True | POn m p => on_demand m /\ frugal m /\ stops m /\ prompt p end.

(** The result of some steps: the poll has panicked, or is over. *)
Inductive reaches {D B} (closed : bool) (p : pipe D B) : pstate p -> chan D -> option (pstate p * chan D * poll (option B)) -> Prop :=
| r_panic ps c : advance closed p ps c = None -> reaches closed p ps c None
| r_answer ps c ps' c' r : advance closed p ps c = Some (ps', c', Some r) -> reaches closed p ps c (Some (ps', c', r))
| r_step ps c ps' c' x : advance closed p ps c = Some (ps', c', None) -> reaches closed p ps' c' x -> reaches closed p ps c x.

Definition counts {X} (r : poll (option X)) : nat := match r with Ready (Some _) => 1 | _ => 0 end.

Lemma yielded_one {X} (x : poll (option X)) : length (yielded [x]) = counts x.
Proof. destruct x as [|[]]; reflexivity. Qed.

Lemma poll_ends {D B} (p : pipe D B) : prompt p -> exists N : pstate p -> chan D -> nat, forall closed ps c, exists x, reaches closed p ps c x
  /\ match x with Some (ps', c', r) => N ps' c' + counts r <= N ps c | None => True end.
Proof.
  induction p as [|A B m p IH]; intros Hp; cbn [prompt pstate] in *.
  - exists (fun _ c => length (cqueue c)). intros closed [] c. destruct (cpoll closed c) as [c' r] eqn:E. exists (Some (tt, c', r)). split.
    + apply r_answer. cbn [advance]. rewrite E. reflexivity.
    + unfold cpoll in E. destruct (cqueue c) as [|d q] eqn:Eq; [destruct closed|]; injection E as <- <-; cbn; rewrite ?Eq; cbn; lia.
  - destruct Hp as (Hd & (w & Hw) & Hs & Hp). destruct (IH Hp) as (N & HN). clear IH Hp.
    exists (fun ps c => let '(st, log, known, below) := ps in w st + 2 * (length (yielded known) + N below c)). intros closed [[[st log] known] below] c.
    (* what happens when the combinator has enough *)
    assert (Answer : forall known below c, ~ starved m st log known ->
      exists x, reaches closed (POn m p) (st, log, known, below) c x
        /\ match x with Some (ps', c', r) => (let '(st, log, known, below) := ps' in w st + 2 * (length (yielded known) + N below c')) + counts r <= w st + 2 * (length (yielded known) + N below c) | None => True end).
    { clear known below c. intros known below c Hns. destruct (mpoll m (st, mkSrc log known)) as [[[st' after] r]|] eqn:Em.
      2:{ exists None. split; [|exact I]. apply (r_panic closed (POn m p)). cbn [advance]. rewrite Em. reflexivity. }
      destruct (Nat.ltb_spec (length log + length known) (length (past after))) as [Hl|Hl]; [exfalso; apply Hns; exists st', after, r; auto|].
      exists (Some ((st', past after, [], below), c, r)). split.
      - apply (r_answer closed (POn m p) (st, log, known, below) c (st', past after, [], below)). cbn [advance]. rewrite Em. destruct (Nat.ltb_spec (length log + length known) (length (past after))); [lia|reflexivity].
      - destruct (Hd _ _ _ _ _ _ Em) as [(u & E1 & E2 & E3)|(q & E2)]; [|rewrite E2, !app_length in Hl; simpl in Hl; lia].
        specialize (E3 []). rewrite app_nil_r in E3. apply Hw in E3. rewrite E1, yielded_app, app_length. unfold counts. cbn [yielded length]. lia. }
    assert (Go : forall n known below c, N below c <= n -> exists x, reaches closed (POn m p) (st, log, known, below) c x
        /\ match x with Some (ps', c', r) => (let '(st, log, known, below) := ps' in w st + 2 * (length (yielded known) + N below c')) + counts r <= w st + 2 * (length (yielded known) + N below c) | None => True end).
    { clear known below c. induction n as [n IHn] using lt_wf_ind. intros known below c Hn.
      destruct (mpoll m (st, mkSrc log known)) as [[[st' after] r]|] eqn:Em.
      2:{ exists None. split; [|exact I]. apply (r_panic closed (POn m p)). cbn [advance]. rewrite Em. reflexivity. }
      destruct (Nat.ltb_spec (length log + length known) (length (past after))) as [Hl|Hl].
      2:{ apply Answer. intros (s1 & a1 & r1 & F1 & F2). rewrite Em in F1. injection F1 as _ <- _. lia. }
      (* it asks *)
      destruct (HN closed below c) as (x & Hx & Hle). clear HN.
      assert (Lift : forall below c x, reaches closed p below c x ->
        match x with
        | None => reaches closed (POn m p) (st, log, known, below) c None
        | Some (below', c', a) => forall y, reaches closed (POn m p) (st, log, known ++ [a], below') c' y -> reaches closed (POn m p) (st, log, known, below) c y
        end).
      { clear - Em Hl. induction 1 as [ps c E|ps c ps' c' a E|ps c ps' c' x E _ IH].
        - apply (r_panic closed (POn m p)). cbn [advance]. rewrite Em. destruct (Nat.ltb_spec (length log + length known) (length (past after))); [|lia]. rewrite E. reflexivity.
        - intros y Hy. apply (r_step closed (POn m p) (st, log, known, ps) c (st, log, known ++ [a], ps') c' y); [|exact Hy]. cbn [advance]. rewrite Em. destruct (Nat.ltb_spec (length log + length known) (length (past after))); [|lia]. rewrite E. reflexivity.
        - assert (S1 : advance closed (POn m p) (st, log, known, ps) c = Some ((st, log, known, ps'), c', None)).
          { cbn [advance]. rewrite Em. destruct (Nat.ltb_spec (length log + length known) (length (past after))); [|lia]. rewrite E. reflexivity. }
          destruct x as [[[below' c''] a]|]; [intros y Hy; apply (r_step closed (POn m p) _ _ _ _ _ S1); auto|]. exact (r_step closed (POn m p) _ _ _ _ _ S1 IH). }
      specialize (Lift _ _ _ Hx). destruct x as [[[below' c'] a]|]; [|exists None; auto].
      assert (Hk : length (yielded (known ++ [a])) + N below' c' <= length (yielded known) + N below c).
      { rewrite yielded_app, app_length, yielded_one. lia. }
      assert (Next : exists x, reaches closed (POn m p) (st, log, known ++ [a], below') c' x
        /\ match x with Some (ps', c'', r) => (let '(st, log, known, below) := ps' in w st + 2 * (length (yielded known) + N below c'')) + counts r <= w st + 2 * (length (yielded (known ++ [a])) + N below' c') | None => True end).
      { destruct a as [|[a|]].
        - apply Answer. apply Hs. auto.
        - cbn [counts] in Hle. apply (IHn (N below' c')); lia.
        - apply Answer. apply Hs. auto. }
      destruct Next as (y & Y1 & Y2). exists y. split; [exact (Lift y Y1)|]. destruct y as [[[ps'' c''] r'']|]; [|exact I]. lia. }
    exact (Go _ known below c (le_n _)).
Qed.

(** ** Tasks *)
Section Sys.
Context {C D O R : Type} (run : O -> C -> C * list D * option R) (first : C -> list D).
Notation step := (sys_step run first).

Lemma set_chans_again sn (cs cs' : list (chan D)) (st : shared C D O R) : set_chans sn cs' (set_chans sn cs st) = set_chans sn cs' st.
Proof. reflexivity. Qed.
Lemma set_chans_id (st : shared C D O R) : set_chans (senders st) (chans st) st = st.
Proof. destruct st. reflexivity. Qed.

Lemma lupd_lupd {X} i (x y : X) : forall l, lupd i x (lupd i y l) = lupd i x l.
Proof. induction i as [|i IH]; intros [|a l]; simpl; try reflexivity. rewrite IH. reflexivity. Qed.
Lemma lupd_noop {X} i (x : X) l : nth_error l i = Some x -> lupd i x l = l.
Proof. revert i. induction l as [|a l IH]; intros [|i] H; try discriminate; simpl in *; [congruence|]. rewrite IH; auto. Qed.

(** The state in which only the task and the channel [i] differ. *)
Definition with_task (s : system C D O R) (i : nat) (t : task D) (c : chan D) : system C D O R :=
  mkSys (set_chans (senders (sh s)) (lupd i c (chans (sh s))) (sh s)) (lupd i t (tasks s)).

Lemma with_again s i t c t' c' : with_task (with_task s i t c) i t' c' = with_task s i t' c'.
Proof. unfold with_task. cbn. rewrite !lupd_lupd. reflexivity. Qed.

Definition after_answer {X} (x : poll (option X)) : tpc := match x with Pending => TIdle | Ready None => TDone | Ready (Some _) => TBusy end.

Lemma steps_reach s i {B} (p : pipe D B) shown wk fr : i < length (chans (sh s)) -> i < length (tasks s) -> forall ps c x, reaches (owners (sh s) =? 0) p ps c x ->
  exists n t' c', exec step (with_task s i (mkTask B p ps shown TBusy wk fr) c) (repeat (XStep i) n) = Some (with_task s i t' c')
    /\ match x with
       | None => exists ps', t' = mkTask B p ps' shown TPanic wk fr
       | Some (ps', c'', r) => c' = c'' /\ t' = mkTask B p ps' (shown ++ [r]) (after_answer r) wk fr
       end.
Proof.
  intros Hc Ht.
  assert (E1 : forall t c, nth_error (tasks (with_task s i t c)) i = Some t).
  { intros. destruct (nth_error (tasks s) i) eqn:E; [eapply lupd_same; eauto|apply nth_error_None in E; lia]. }
  assert (E2 : forall t c, nth_error (chans (sh (with_task s i t c))) i = Some c).
  { intros. cbn. destruct (nth_error (chans (sh s)) i) eqn:E; [eapply lupd_same; eauto|apply nth_error_None in E; lia]. }
  assert (St : forall ps c, step (with_task s i (mkTask B p ps shown TBusy wk fr) c) (XStep i) =
    Some match advance (owners (sh s) =? 0) p ps c with
    | Some (ps', c', r) => with_task s i (proceed (mkTask B p ps shown TBusy wk fr) ps' r) c'
    | None => with_task s i (mkTask B p ps shown TPanic wk fr) c
    end).
  { intros ps c. cbn [sys_step]. rewrite E1, E2. cbn [tat tpipe tstate tout]. cbn [with_task sh owners set_chans].
    destruct (advance (owners (sh s) =? 0) p ps c) as [[[ps' c'] r]|]; f_equal; unfold with_task; cbn; rewrite ?lupd_lupd; reflexivity. }
  induction 1 as [ps c E|ps c ps' c' r E|ps c ps' c' x E H IH].
  - exists 1, (mkTask B p ps shown TPanic wk fr), c. cbn [repeat exec]. rewrite St, E. eauto.
  - exists 1, (mkTask B p ps' (shown ++ [r]) (after_answer r) wk fr), c'. cbn [repeat exec]. rewrite St, E. auto.
  - destruct IH as (n & t' & c2 & H1 & H2). exists (S n), t', c2. cbn [repeat exec]. rewrite St, E. cbn [proceed]. auto.
Qed.

(** A task that is being polled: after some more steps of this poll it sleeps, or has completed (or panicked). *)
Lemma task_ends s i {B} (p : pipe D B) wk fr : i < length (chans (sh s)) -> i < length (tasks s) -> prompt p -> forall ps shown c,
  exists n t' c', exec step (with_task s i (mkTask B p ps shown TBusy wk fr) c) (repeat (XStep i) n) = Some (with_task s i t' c')
    /\ exists ps' shown' at', t' = mkTask B p ps' (shown ++ shown') at' wk fr /\ at' <> TBusy /\ at' <> TGone.
Proof.
  intros Hc Ht Hp. destruct (poll_ends p Hp) as (N & HN).
  cut (forall k ps shown c, N ps c <= k -> exists n t' c', exec step (with_task s i (mkTask B p ps shown TBusy wk fr) c) (repeat (XStep i) n) = Some (with_task s i t' c')
    /\ exists ps' shown' at', t' = mkTask B p ps' (shown ++ shown') at' wk fr /\ at' <> TBusy /\ at' <> TGone); [eauto|].
  induction k as [k IH] using lt_wf_ind. intros ps shown c Hk.
  destruct (HN (owners (sh s) =? 0) ps c) as (x & Hx & Hle). destruct (steps_reach s i p shown wk fr Hc Ht _ _ _ Hx) as (n & t' & c' & E & Hcase).
  destruct x as [[[ps' c''] r]|].
  - destruct Hcase as (-> & ->). destruct r as [|[o|]].
    + exists n, (mkTask B p ps' (shown ++ [Pending]) TIdle wk fr), c''. split; [exact E|]. exists ps', [Pending], TIdle. repeat split; discriminate.
    + cbn [counts after_answer] in *. destruct (IH (N ps' c'')) with (ps := ps') (c := c'') (shown := shown ++ [Ready (Some o)]) as (n2 & t2 & c2 & F1 & ps2 & sh2 & at2 & F2 & F3); [lia|lia|].
      exists (n + n2), t2, c2. rewrite repeat_app, exec_app, E. split; [exact F1|]. exists ps2, (Ready (Some o) :: sh2), at2. rewrite F2, <- app_assoc. auto.
    + exists n, (mkTask B p ps' (shown ++ [Ready None]) TDone wk fr), c''. split; [exact E|]. exists ps', [Ready None], TDone. repeat split; discriminate.
  - destruct Hcase as (ps' & ->). exists n, (mkTask B p ps' shown TPanic wk fr), c'. split; [exact E|]. exists ps', [], TPanic. rewrite app_nil_r. repeat split; discriminate.
Qed.

(** ** Everything comes to rest, if the users of the contents do nothing new *)

Lemma grown_refl (t : task D) : grown t t.
Proof. destruct t as [B p ps shown pc w n]. exists ps, [], pc, w, n. cbn. rewrite app_nil_r. reflexivity. Qed.
Lemma grown_trans (t1 t2 t3 : task D) : grown t1 t2 -> grown t2 t3 -> grown t1 t3.
Proof. intros (ps & x & pc & w & n & ->) (ps' & x' & pc' & w' & n' & ->). cbn. rewrite <- app_assoc. unfold grown. eauto 10. Qed.
Definition all_grown (s s' : system C D O R) : Prop := length (tasks s') = length (tasks s) /\ length (chans (sh s')) = length (chans (sh s))
  /\ forall i t', nth_error (tasks s') i = Some t' -> exists t, nth_error (tasks s) i = Some t /\ grown t t'.
Lemma all_grown_trans s1 s2 s3 : all_grown s1 s2 -> all_grown s2 s3 -> all_grown s1 s3.
Proof.
  intros (a1 & a2 & a3) (b1 & b2 & b3). split; [congruence|]. split; [congruence|]. intros i t H. destruct (b3 _ _ H) as (t2 & H2 & G2).
  destruct (a3 _ _ H2) as (t1 & H1 & G1). exists t1. split; [exact H1|]. eapply grown_trans; eauto.
Qed.
Lemma all_grown_refl s : all_grown s s.
Proof. split; [reflexivity|]. split; [reflexivity|]. intros i t H. exists t. split; [exact H|apply grown_refl]. Qed.
Lemma same_contents_trans (s1 s2 s3 : system C D O R) : same_contents s1 s2 -> same_contents s2 s3 -> same_contents s1 s3.
Proof. intros (? & ? & ? & ? & ? & ?) (? & ? & ? & ? & ? & ?). repeat split; congruence. Qed.

Lemma wake_all_inv : forall ts k before after i (t : task D), nth_error (wake_all k ts before after) i = Some t ->
  exists t0, nth_error ts i = Some t0 /\ grown t0 t.
Proof.
  induction ts as [|t0 ts IH]; intros k b a [|i] t H; try discriminate; cbn in H.
  - injection H as <-. exists t0. split; [reflexivity|]. exists (tstate t0), [], (tat t0), (twoken t0 || wakes (nth_error b k) (nth_error a k)), (tfrom t0). unfold wake. rewrite app_nil_r. reflexivity.
  - eauto.
Qed.
Lemma wake_all_len : forall ts k before after, length (wake_all k ts before after) = length (ts : list (task D)).
Proof. induction ts as [|t ts IH]; intros; cbn; congruence. Qed.

Lemma send_same (st st' : shared C D O R) t : sh_step run first st (ASend t) = Some st' -> contents st' = contents st /\ owners st' = owners st /\ writer st' = writer st
  /\ calls st' = calls st /\ failing st' = failing st /\ poisoned st' = poisoned st.
Proof.
  cbn [sh_step]. destruct (Shared.holds t st); [|discriminate]. destruct (cur st) as [[d [|id l]]|].
  - intros H. injection H as <-. auto 10.
  - destruct (csend id d (chans st)). intros H. injection H as <-. auto 10.
  - destruct (later st); [discriminate|]. intros H. injection H as <-. auto 10.
Qed.

Lemma sends_lift t : forall n s st', exec (sh_step run first) (sh s) (repeat (ASend t) n) = Some st' ->
  exists s', exec step s (repeat (XDo (ASend t)) n) = Some s' /\ sh s' = st' /\ all_grown s s' /\ same_contents s s'.
Proof.
  induction n as [|n IH]; intros s st' H; cbn [repeat exec] in *.
  - injection H as <-. exists s. split; [reflexivity|]. split; [reflexivity|]. split; [apply all_grown_refl|repeat split].
  - destruct (sh_step run first (sh s) (ASend t)) as [st1|] eqn:E; [|discriminate].
    pose proof (outside_keeps run first _ _ _ E eq_refl) as [El _].
    set (s1 := mkSys st1 (wake_all 0 (tasks s) (chans (sh s)) (chans st1))). destruct (IH s1 st' H) as (s' & H1 & H2 & H3 & H4).
    exists s'. cbn [sys_step outside]. rewrite E. split; [exact H1|]. split; [exact H2|]. split.
    + eapply all_grown_trans; [|exact H3]. split; [apply wake_all_len|]. split; [exact El|]. intros i t' Ht. exact (wake_all_inv _ _ _ _ _ _ Ht).
    + eapply same_contents_trans; [|exact H4]. exact (send_same _ _ _ E).
Qed.

Definition at_rest (t : task D) : Prop := tat t <> TBusy /\ (tat t = TIdle -> twoken t = false).

Lemma one_rests s i t : length (tasks s) = length (chans (sh s)) -> nth_error (tasks s) i = Some t -> prompt (tpipe t) ->
  exists more t' c', exec step s more = Some (with_task s i t' c') /\ Forall pending_act more /\ grown t t' /\ at_rest t'.
Proof.
  intros Hl Ht Hp. assert (Hi : i < length (tasks s)) by (apply nth_error_Some; congruence).
  destruct (nth_error (chans (sh s)) i) as [c|] eqn:Ec; [|apply nth_error_None in Ec; lia].
  assert (Hs : s = with_task s i t c) by (unfold with_task; rewrite !lupd_noop, set_chans_id by assumption; destruct s; reflexivity).
  assert (Poll : forall ps shown fr, tpipe t = tpipe t -> exists n t' c', exec step (with_task s i (mkTask (tout t) (tpipe t) ps shown TBusy false fr) c) (repeat (XStep i) n) = Some (with_task s i t' c')
    /\ exists ps' shown' at', t' = mkTask (tout t) (tpipe t) ps' (shown ++ shown') at' false fr /\ at' <> TBusy /\ at' <> TGone).
  { intros ps shown fr _. apply task_ends; [congruence|exact Hi|exact Hp]. }
  assert (Steps : forall n, Forall (@pending_act D O) (repeat (XStep i) n)) by (intros n; apply Forall_forall; intros x Hx; apply repeat_spec in Hx; subst x; exact I).
  assert (Begin : forall t1, tout t1 = tout t1 -> tat t1 = TIdle -> nth_error (tasks (with_task s i t1 c)) i = Some t1 ->
     step (with_task s i t1 c) (XStart i) = Some (with_task s i (begin t1 (length (cgot c))) c)).
  { intros t1 _ H1 H2. cbn [sys_step]. rewrite H2. unfold with_task at 1. cbn [sh chans set_chans]. rewrite (lupd_same _ _ _ _ Ec), H1. unfold with_task. cbn. rewrite lupd_lupd. reflexivity. }
  assert (Start : forall ps shown w fr, exists more t' c', exec step (with_task s i (mkTask (tout t) (tpipe t) ps shown TIdle w fr) c) more = Some (with_task s i t' c')
     /\ Forall pending_act more /\ grown (mkTask (tout t) (tpipe t) ps shown TIdle w fr) t' /\ at_rest t').
  { intros ps shown w fr. destruct (Poll ps shown (length (cgot c)) eq_refl) as (n & t' & c' & E & ps' & x & at' & -> & N1 & N2).
    exists (XStart i :: repeat (XStep i) n), (mkTask (tout t) (tpipe t) ps' (shown ++ x) at' false (length (cgot c))), c'. cbn [exec]. rewrite Begin; [|reflexivity|reflexivity|eapply lupd_same; exact Ht].
    unfold begin. cbn [tout tpipe tstate tshown]. rewrite E. split; [reflexivity|]. split; [constructor; [exact I|apply Steps]|]. split; [|split; [exact N1|reflexivity]].
    exists ps', x, at', false, (length (cgot c)). reflexivity. }
  destruct (tat t) eqn:Ea.
  - (* TIdle *) destruct (twoken t) eqn:Ew.
    + destruct t as [B p ps shown pc w fr]. cbn in Ea, Ew. subst pc w. cbn [tout tpipe] in *. destruct (Start ps shown true fr) as (more & t' & c' & H). exists more, t', c'. rewrite Hs at 1. exact H.
    + exists [], t, c. cbn [exec]. rewrite <- Hs. split; [reflexivity|]. split; [constructor|]. split; [apply grown_refl|]. split; congruence.
  - (* TBusy *) destruct t as [B p ps shown pc w fr]. cbn in Ea. subst pc. cbn [tout tpipe] in *.
    destruct (task_ends s i p w fr ltac:(lia) Hi Hp ps shown c) as (n & t' & c' & E & ps' & x & at' & -> & N1 & N2).
    destruct at' eqn:Eat; try congruence.
    + (* asleep, perhaps woken in between *) destruct w.
      * set (s1 := with_task s i (mkTask B p ps' (shown ++ x) TIdle true fr) c') in E.
        assert (Hc1 : nth_error (chans (sh s1)) i = Some c') by (exact (lupd_same _ _ _ _ Ec)). assert (Ht1 : nth_error (tasks s1) i = Some (mkTask B p ps' (shown ++ x) TIdle true fr)) by (exact (lupd_same _ _ _ _ Ht)).
        assert (S1 : step s1 (XStart i) = Some (with_task s1 i (mkTask B p ps' (shown ++ x) TBusy false (length (cgot c'))) c')).
        { cbn [sys_step]. rewrite Ht1, Hc1. cbn [tat]. unfold with_task. rewrite (lupd_noop _ _ _ Hc1), set_chans_id. reflexivity. }
        destruct (task_ends s1 i p false (length (cgot c')) ltac:(cbn; rewrite lupd_length; lia) ltac:(cbn; rewrite lupd_length; lia) Hp ps' (shown ++ x) c') as (n2 & t2 & c2 & E2 & ps2 & x2 & at2 & -> & N3 & N4).
        exists (repeat (XStep i) n ++ XStart i :: repeat (XStep i) n2), (mkTask B p ps2 ((shown ++ x) ++ x2) at2 false (length (cgot c'))), c2.
        rewrite exec_app. rewrite Hs at 1. rewrite E. cbn [exec]. fold s1. rewrite S1, E2. unfold s1. rewrite with_again. split; [reflexivity|].
        split; [apply Forall_app; split; [apply Steps|constructor; [exact I|apply Steps]]|]. split; [|split; [exact N3|reflexivity]].
        exists ps2, (x ++ x2), at2, false, (length (cgot c')). cbn. rewrite app_assoc. reflexivity.
      * exists (repeat (XStep i) n), (mkTask B p ps' (shown ++ x) TIdle false fr), c'. rewrite Hs at 1. split; [exact E|]. split; [apply Steps|]. split; [|split; [discriminate|reflexivity]].
        unfold grown. cbn. eauto 10.
    + exists (repeat (XStep i) n), (mkTask B p ps' (shown ++ x) TDone w fr), c'. rewrite Hs at 1. split; [exact E|]. split; [apply Steps|]. split; [unfold grown; cbn; eauto 10|split; discriminate].
    + exists (repeat (XStep i) n), (mkTask B p ps' (shown ++ x) TPanic w fr), c'. rewrite Hs at 1. split; [exact E|]. split; [apply Steps|]. split; [unfold grown; cbn; eauto 10|split; discriminate].
  - exists [], t, c. cbn [exec]. rewrite <- Hs. split; [reflexivity|]. split; [constructor|]. split; [apply grown_refl|]. split; congruence.
  - exists [], t, c. cbn [exec]. rewrite <- Hs. split; [reflexivity|]. split; [constructor|]. split; [apply grown_refl|]. split; congruence.
  - exists [], t, c. cbn [exec]. rewrite <- Hs. split; [reflexivity|]. split; [constructor|]. split; [apply grown_refl|]. split; congruence.
Qed.

Lemma with_grown s i t t' c : nth_error (tasks s) i = Some t -> grown t t' -> all_grown s (with_task s i t' c).
Proof.
  intros Ht Hg. split; [apply lupd_length|]. split; [apply lupd_length|]. intros j u H. cbn in H. apply lupd_inv in H. destruct H as [(-> & ->)|(_ & H)]; [eauto|].
  exists u. split; [exact H|apply grown_refl].
Qed.

Lemma all_rest : forall k s, k <= length (tasks s) -> length (tasks s) = length (chans (sh s)) -> (forall t, In t (tasks s) -> prompt (tpipe t)) ->
  exists more s', exec step s more = Some s' /\ Forall pending_act more /\ all_grown s s' /\ same_contents s s' /\ ready (sh s') = ready (sh s)
    /\ forall i t, i < k -> nth_error (tasks s') i = Some t -> at_rest t.
Proof.
  induction k as [|k IH]; intros s Hk Hl Hp.
  - exists [], s. split; [reflexivity|]. split; [constructor|]. split; [apply all_grown_refl|]. split; [repeat split|]. split; [reflexivity|]. intros; lia.
  - destruct (IH s ltac:(lia) Hl Hp) as (more & s1 & E & F & G & Sm & Hr & Rst). pose proof G as (G1 & G2 & G3).
    destruct (nth_error (tasks s1) k) as [t|] eqn:Et; [|apply nth_error_None in Et; lia].
    assert (Hpt : prompt (tpipe t)). { destruct (G3 _ _ Et) as (t0 & X1 & (? & ? & ? & ? & ? & ->)). cbn. apply Hp. eapply nth_error_In; exact X1. }
    destruct (one_rests s1 k t ltac:(congruence) Et Hpt) as (more2 & t' & c' & E2 & F2 & Gt & Rt).
    exists (more ++ more2), (with_task s1 k t' c'). rewrite exec_app, E. split; [exact E2|]. split; [apply Forall_app; auto|].
    split; [eapply all_grown_trans; [exact G|eapply with_grown; eauto]|]. split; [exact Sm|]. split; [exact Hr|].
    intros i u Hi Hu. cbn in Hu. apply lupd_inv in Hu. destruct Hu as [(-> & ->)|(Hne & Hu)]; [exact Rt|]. apply (Rst i); [lia|exact Hu].
Qed.

Lemma settles s : (ready (sh s) = false -> exists t, writer (sh s) = Some t) -> length (tasks s) = length (chans (sh s)) -> (forall t, In t (tasks s) -> prompt (tpipe t)) ->
  exists more s', exec step s more = Some s' /\ Forall pending_act more /\ settled s' /\ all_grown s s' /\ same_contents s s'.
Proof.
  intros Hw Hl Hp.
  assert (X : exists more s1, exec step s more = Some s1 /\ Forall pending_act more /\ all_grown s s1 /\ same_contents s s1 /\ ready (sh s1) = true).
  { destruct (ready (sh s)) eqn:Er.
    - exists [], s. split; [reflexivity|]. split; [constructor|]. split; [apply all_grown_refl|]. split; [repeat split|exact Er].
    - destruct (Hw eq_refl) as (t & Et). destruct (sh_progress run first (sh s) t Et) as (n & st' & E & _ & E2). destruct (sends_lift t n s st' E) as (s1 & H1 & <- & H3 & H4).
      exists (repeat (XDo (ASend t)) n), s1. split; [exact H1|]. split; [|auto]. apply Forall_forall. intros x Hx. apply repeat_spec in Hx. subst x. exact I. }
  destruct X as (more & s1 & E & F & G & Sm & Hr). pose proof G as (G1 & G2 & G3).
  destruct (all_rest (length (tasks s1)) s1 (le_n _) ltac:(congruence)) as (more2 & s2 & E2 & F2 & K1 & K2 & K3 & K4).
  { intros t Ht. apply In_nth_error in Ht. destruct Ht as (i & Ht). destruct (G3 _ _ Ht) as (t0 & X1 & (? & ? & ? & ? & ? & ->)). cbn. apply Hp. eapply nth_error_In; exact X1. }
  exists (more ++ more2), s2. rewrite exec_app, E. split; [exact E2|]. split; [apply Forall_app; auto|]. split; [|split; [eapply all_grown_trans; eauto|eapply same_contents_trans; eauto]].
  split; [congruence|]. intros t Ht. apply In_nth_error in Ht. destruct Ht as (i & Ht). apply (K4 i t); [|exact Ht]. destruct K1 as (L1 & _). rewrite <- L1. apply nth_error_Some. congruence.
Qed.
End Sys.
