(** What a task shows when it is asleep or has completed, and that it does not panic (Views.v), for any contents. *)
From Verif Require Import Base Conc Spec BaseFacts LoopFacts VecDiff VecSpec Mpsc MapDiff MutVec MutMap Shared SharedFacts VecExecFacts Views ViewsFacts ViewsRun.

Section End.
Context {C D O R : Type} (run : O -> C -> C * list D * option R) (first : C -> list D).
Context (app : D -> C -> option C) (empty : C) (ok : C -> Prop) (means : O -> C -> list D -> C -> R -> Prop) (panics : O -> C -> Prop).
Context (run_means : forall o c c' ds r, ok c -> run o c = (c', ds, Some r) -> ok c' /\ apply_all app c ds = Some c' /\ means o c ds c' r).
Context (run_panics : forall o c c' ds, ok c -> run o c = (c', ds, None) -> ds = [] /\ panics o c).
Context (first_ok : forall c, ok c -> apply_all app empty (first c) = Some c).
Notation step := (sys_step run first).
Notation sstep := (sh_step run first).
Notation sh_reach := (reach run first app empty ok means panics run_means run_panics first_ok).
Notation sh_inv := (sh_inv first app empty ok).

(** ** What all diffs have in common *)
Section Common.
  Context (Q : D -> Prop) (run_Q : forall o c c' ds r, ok c -> run o c = (c', ds, r) -> Forall Q ds) (first_Q : forall c, ok c -> Forall Q (first c)).

  Definition all_Q (st : shared C D O R) : Prop := Forall Q (log st) /\ Forall (fun x => Forall Q (first (snd x))) (starts st).

  Lemma all_Q_step st a st' : sh_inv st -> all_Q st -> sstep st a = Some st' -> all_Q st'.
  Proof.
    intros iv [q1 q2] H. destruct a as [t|t p|t o|t|t|t| |id|id| |]; simpl in H.
    - destruct (free st); [|discriminate]. injection H as <-. split; auto.
    - destruct (Shared.holds t st && ready st); [|discriminate]. injection H as <-. split; auto.
    - destruct (Shared.holds t st && ready st && negb (failing st)) eqn:F; [|discriminate]. rewrite !andb_true_iff in F. destruct F as [[f1 f2] f3]. apply holds_true in f1. apply negb_true_iff in f3.
      destruct (run o (contents st)) as [[c ds] r] eqn:E. injection H as <-. destruct (si_excl _ _ _ _ _ iv _ f1) as (_ & _ & g3).
      split; simpl; auto. apply Forall_app. split; auto. rewrite (si_good _ _ _ _ _ iv g3 f3) in E. eapply run_Q; [apply (si_ok _ _ _ _ _ iv)|exact E].
    - destruct (Shared.holds t st); [|discriminate]. destruct (cur st) as [[d [|id l]]|].
      + injection H as <-. split; auto.
      + destruct (csend id d (chans st)). injection H as <-. split; auto.
      + destruct (later st); [discriminate|]. injection H as <-. split; auto.
    - destruct (_ && _); [|discriminate]. injection H as <-. split; auto.
    - destruct (existsb _ _); [|discriminate]. injection H as <-. split; auto.
    - destruct (free st) eqn:F; [|discriminate]. injection H as <-. apply free_true in F as (f1 & f2 & f3 & f4). destruct (si_idle _ _ _ _ _ iv f1) as (_ & _ & g).
      split; simpl; auto. apply Forall_app. split; auto. constructor; auto. simpl. rewrite (si_good _ _ _ _ _ iv f4 g). apply first_Q. apply (si_ok _ _ _ _ _ iv).
    - destruct (nth_error (chans st) id) as [c|]; [|discriminate]. destruct (calive c); [|discriminate]. injection H as <-. split; auto.
    - destruct (nth_error (chans st) id) as [c|]; [|discriminate]. destruct (calive c); [|discriminate]. injection H as <-. split; auto.
    - destruct (0 <? owners st); [|discriminate]. injection H as <-. split; auto.
    - destruct (owners st) as [|[|n]]; [discriminate| |].
      + destruct (_ && _); [|discriminate]. injection H as <-. split; auto.
      + injection H as <-. split; auto.
  Qed.

  Lemma all_Q_reach c0 acts st : ok c0 -> exec sstep (sh_init c0) acts = Some st -> all_Q st.
  Proof.
    intros hc H. assert (X : sh_inv st /\ all_Q st); [|tauto]. revert H. apply (exec_inv sstep (fun st => sh_inv st /\ all_Q st)).
    - intros x a x' [i q] e. split; [eapply inv_step; eauto|eapply all_Q_step; eauto].
    - split; [apply inv_init; auto|]. split; constructor.
  Qed.

  Lemma got_Q c0 acts st id s : ok c0 -> exec sstep (sh_init c0) acts = Some st -> nth_error (chans st) id = Some s -> Forall Q (yielded (cgot s)).
  Proof.
    intros hc H h. pose proof (sh_reach _ _ _ hc H) as iv. destruct (start_of _ _ _ _ _ _ _ iv h) as (p & c & h2 & [_ _ (miss & m1 & _) _ _ _ _]).
    destruct (all_Q_reach _ _ _ hc H) as [q1 q2]. apply nth_error_In in h2. rewrite Forall_forall in q2. specialize (q2 _ h2). simpl in q2.
    assert (X : Forall Q (ctotal s ++ miss)). { rewrite m1. apply Forall_app. split; auto. apply Forall_forall. intros x hx. rewrite Forall_forall in q1. apply q1.
      rewrite <- (firstn_skipn p (log st)). apply in_or_app. auto. }
    apply Forall_app in X as [X _]. unfold ctotal in X. apply Forall_app in X. tauto.
  Qed.
End Common.

(** The diffs a subscriber has received: those of the first message or of the log. *)
Lemma got_from_log (Q : D -> Prop) c0 acts (st : shared C D O R) id s : ok c0 -> exec sstep (sh_init c0) acts = Some st -> nth_error (chans st) id = Some s ->
  (forall c, Forall Q (first c)) -> Forall Q (log st) -> Forall Q (yielded (cgot s)).
Proof.
  intros hc H h hf hl. pose proof (sh_reach _ _ _ hc H) as iv. destruct (start_of _ _ _ _ _ _ _ iv h) as (p & c & h2 & [_ _ (miss & m1 & _) _ _ _ _]).
  assert (X : Forall Q (ctotal s ++ miss)). { rewrite m1. apply Forall_app. split; auto. apply Forall_forall. intros x hx. rewrite Forall_forall in hl. apply hl.
    rewrite <- (firstn_skipn p (log st)). apply in_or_app. auto. }
  apply Forall_app in X as [X _]. unfold ctotal in X. apply Forall_app in X. tauto.
Qed.

Lemma chan_of (s : system C D O R) c0 i t : sys_fine run first c0 s -> nth_error (tasks s) i = Some t -> exists c, nth_error (chans (sh s)) i = Some c /\ task_fine t c.
Proof.
  intros (_ & Hl & Hall) Ht. destruct (nth_error (chans (sh s)) i) as [c|] eqn:E; [eauto|]. apply nth_error_None in E.
  assert (i < length (tasks s)) by (apply nth_error_Some; congruence). lia.
Qed.

(** Once a channel has answered that it has ended, it says nothing else. *)
Lemma none_last c0 acts (st : shared C D O R) id c : ok c0 -> exec sstep (sh_init c0) acts = Some st -> nth_error (chans st) id = Some c ->
  In (Ready None) (cgot c) -> last_out (cgot c) (Ready None).
Proof.
  intros hc H. assert (X : sh_inv st /\ forall id c, nth_error (chans st) id = Some c -> In (Ready None) (cgot c) -> last_out (cgot c) (Ready None)); [|destruct X; eauto].
  clear id c. revert H. apply (exec_inv sstep (fun st => sh_inv st /\ forall id c, nth_error (chans st) id = Some c -> In (Ready None) (cgot c) -> last_out (cgot c) (Ready None))).
  2:{ split; [apply inv_init; auto|]. intros [|id]; discriminate. }
  intros x a x' [iv q] e. split; [eapply inv_step; eauto|]. intros id c hc1 hn. destruct (outside a) eqn:Eo.
  - destruct (outside_keeps _ _ _ _ _ e Eo) as [_ k]. destruct (k _ _ hc1) as (c1 & k1 & k2 & _). rewrite k2 in *. eauto.
  - destruct a; try discriminate; cbn [sh_step] in e.
    + destruct (free x); [|discriminate]. injection e as <-. cbn in hc1. destruct (Nat.lt_ge_cases id (length (chans x))) as [l|l].
      * rewrite nth_error_app1 in hc1 by exact l. eauto.
      * rewrite nth_error_app2 in hc1 by exact l. destruct (id - length (chans x)) as [|[|k]]; try discriminate. injection hc1 as <-. destruct hn.
    + destruct (nth_error (chans x) id0) as [c1|] eqn:E1; [|discriminate]. destruct (calive c1) eqn:Ea; [|discriminate]. injection e as <-. cbn in hc1.
      apply lupd_inv in hc1. destruct hc1 as [(<- & ->)|(_ & hc1)]; [|eauto]. rewrite cpoll_got in *. apply last_out_snoc. apply in_app_or in hn. destruct hn as [hn|[hn|[]]]; [|exact hn].
      destruct (start_of _ _ _ _ _ _ _ iv E1) as (p & c2 & _ & [_ _ _ _ _ _ k7]). destruct (k7 Ea hn) as [e1 e2]. unfold cpoll. rewrite e2, e1. reflexivity.
    + destruct (nth_error (chans x) id0) as [c1|] eqn:E1; [|discriminate]. destruct (calive c1) eqn:Ea; [|discriminate]. injection e as <-. cbn in hc1.
      apply lupd_inv in hc1. destruct hc1 as [(<- & ->)|(_ & hc1)]; [exact (q _ _ E1 hn)|eauto].
Qed.

Section View.
  Context {X : Type} (lok : list D -> Prop) (lval : list D -> C -> Prop) (lval_ok : forall ds c, apply_all app empty ds = Some c -> lval ds c).
  Context (c0 : C) (acts : list (xact D O)) (s : system C D O R) (Hc0 : ok c0) (Hx : exec step (sys_init c0) acts = Some s).
  Context (i : nat) (t : task D) (Ht : nth_error (tasks s) i = Some t).
  Context (Hlok : forall c, nth_error (chans (sh s)) i = Some c -> lok (yielded (cgot c))).
  Context (kok : list (tout t) -> Prop) (kval : list (tout t) -> X -> Prop) (RR : C -> X -> Prop) (Hden : denoted lok lval (tpipe t) kok kval RR).

  (** It does not panic. *)
  Lemma view_safe : tat t <> TPanic.
  Proof.
    intros Hp. pose proof (sys_reach run first c0 acts s Hx) as Hf. destruct (chan_of _ _ _ _ Hf Ht) as (c & Ec & F).
    destruct Hden as (L & Hd). destruct (tf_panic _ _ F Hp) as (closed & ch & E1 & E2).
    destruct (Hd _ _ _ _ (tf_holds _ _ F L) (Hlok _ Ec)) as (_ & _ & P3). apply (P3 (or_intror (tf_open _ _ F ltac:(congruence))) closed ch E1 E2).
  Qed.

  (** What it has given so far is well formed. *)
  Lemma view_kok : kok (yielded (tshown t)).
  Proof.
    pose proof (sys_reach run first c0 acts s Hx) as Hf. destruct (chan_of _ _ _ _ Hf Ht) as (c & Ec & F).
    destruct Hden as (L & Hd). destruct (Hd _ _ _ _ (tf_holds _ _ F L) (Hlok _ Ec)) as (P1 & _ & _). exact P1.
  Qed.

  (** Asleep: the channel is empty, and its handles are there. *)
  Lemma view_drained : tat t = TIdle -> twoken t = false -> exists c, nth_error (chans (sh s)) i = Some c /\ calive c = true /\ cqueue c = []
    /\ complete (tshown t) /\ (0 < owners (sh s) \/ In (Ready None) (cgot c)).
  Proof.
    intros Hi Hw. pose proof (sys_reach run first c0 acts s Hx) as Hf. destruct (chan_of _ _ _ _ Hf Ht) as (c & Ec & F). destruct Hden as (L & Hd).
    destruct Hf as ((sacts & Hs) & _ & _). exists c. split; [exact Ec|]. assert (Ha : calive c = true) by (apply (tf_alive _ _ F); congruence). split; [exact Ha|].
    assert (Hl : last_out (tshown t) Pending) by (destruct (tf_idle _ _ F Hi) as [[_ ?]|?]; [congruence|assumption]).
    assert (Hcg : complete (cgot c)). { eapply complete_below; [exact L|apply (tf_holds _ _ F L)|apply (tf_calm _ _ F L); congruence|left; exact Hl]. }
    assert (X1 : In (Ready None) (cgot c) -> cqueue c = []).
    { intros Hn. destruct (start_of _ _ _ _ _ _ _ (sh_reach _ _ _ Hc0 Hs) Ec) as (p & c1 & _ & [_ _ _ _ _ _ k7]). apply (k7 Ha Hn). }
    assert (X2 : cqueue c = [] /\ (0 < owners (sh s) \/ In (Ready None) (cgot c))).
    { destruct Hcg as [Hcg|Hn]; [|auto]. destruct (cwoken c) eqn:W.
      - destruct (tf_flag _ _ F W) as [Z|[(Z & _)|[Z|[Z|[Z|Z]]]]]; try congruence. auto.
      - assert (Y : ~ (cqueue c <> [] \/ owners (sh s) = 0)) by (intros Y; rewrite (sh_wakes run first app empty ok means panics run_means run_panics first_ok _ _ _ _ _ Hc0 Hs Ec Ha Hcg Y) in W; discriminate).
        split; [destruct (cqueue c); auto; exfalso; apply Y; left; discriminate|]. left. destruct (owners (sh s)); [exfalso; auto|lia]. }
    destruct X2 as [Y1 Y2]. split; [exact Y1|]. split; [left; exact Hl|exact Y2].
  Qed.

  Lemma view_shows : tat t = TIdle -> twoken t = false ->
    (forall c, nth_error (chans (sh s)) i = Some c -> calive c = true -> apply_all app empty (ctotal c) = Some (contents (sh s))) ->
    exists x, kval (yielded (tshown t)) x /\ RR (contents (sh s)) x.
  Proof.
    intros Hi Hw Hq0. destruct (view_drained Hi Hw) as (c & Ec & Ha & Hq & Hcomp & _).
    pose proof (sys_reach run first c0 acts s Hx) as Hf. destruct (chan_of _ _ _ _ Hf Ht) as (c' & Ec' & F). rewrite Ec in Ec'. injection Ec' as <-. destruct Hden as (L & Hd).
    destruct (Hd _ _ _ _ (tf_holds _ _ F L) (Hlok _ Ec)) as (_ & P2 & _). apply P2; [apply (tf_calm _ _ F L); congruence|exact Hcomp|]. apply lval_ok.
    pose proof (Hq0 _ Ec Ha) as Y. unfold ctotal in Y. rewrite Hq, app_nil_r in Y. exact Y.
  Qed.

  (** As long as it sleeps there are handles, unless a combinator may miss the end. *)
  Lemma view_open : alert_pipe (tpipe t) -> tat t = TIdle -> twoken t = false -> 0 < owners (sh s).
  Proof.
    intros Hal Hi Hw. destruct (view_drained Hi Hw) as (c & Ec & Ha & Hq & Hcomp & [H|H]); [exact H|]. exfalso.
    pose proof (sys_reach run first c0 acts s Hx) as Hf. destruct (chan_of _ _ _ _ Hf Ht) as (c' & Ec' & F). rewrite Ec in Ec'. injection Ec' as <-. destruct Hden as (L & Hd).
    destruct Hf as ((sacts & Hs) & _ & _).
    assert (Hl : last_out (tshown t) Pending) by (destruct (tf_idle _ _ F Hi) as [[_ ?]|?]; [congruence|assumption]).
    destruct (alert_below _ _ _ _ _ Hal (tf_holds _ _ F L) (tf_calm _ _ F L ltac:(congruence) ltac:(congruence)) Hl) as (q & E1).
    destruct (none_last _ _ _ _ _ Hc0 Hs Ec H) as (q' & E2). rewrite E1 in E2. apply app_inj_tail in E2. destruct E2 as [_ E2]. discriminate.
  Qed.

  (** It has completed only after the last handle was dropped, and shows the final contents. *)
  Lemma view_done : tat t = TDone -> owners (sh s) = 0 /\ exists c, nth_error (chans (sh s)) i = Some c /\ calive c = true /\ In (Ready None) (cgot c)
    /\ (forall c', apply_all app empty (yielded (cgot c)) = Some c' -> exists x, kval (yielded (tshown t)) x /\ RR c' x).
  Proof.
    intros Hi. pose proof (sys_reach run first c0 acts s Hx) as Hf. destruct (chan_of _ _ _ _ Hf Ht) as (c & Ec & F). destruct Hden as (L & Hd).
    destruct Hf as ((sacts & Hs) & _ & _). assert (Ha : calive c = true) by (apply (tf_alive _ _ F); congruence).
    pose proof (tf_done _ _ F Hi) as Hn. pose proof (ended_below _ _ _ _ _ L (tf_holds _ _ F L) Hn) as Hcn.
    destruct (sh_ends run first app empty ok means panics run_means run_panics first_ok _ _ _ _ _ Hc0 Hs Ec Ha Hcn) as (Y1 & _). split; [exact Y1|]. exists c. split; [exact Ec|].
    split; [exact Ha|]. split; [exact Hcn|]. intros c' Y2.
    destruct (Hd _ _ _ _ (tf_holds _ _ F L) (Hlok _ Ec)) as (_ & P2 & _). apply P2; [apply (tf_calm _ _ F L); congruence|right; exact Hn|]. apply lval_ok. exact Y2.
  Qed.
End View.
End End.
