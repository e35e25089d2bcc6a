(** When a for_each completes; the value of a pipeline as the solution of equations. *)
From Verif Require Import Base Conc Executor ExecutorFacts ExecutorRun ExecutorLive ExecutorUse.

(** ** Specification *)

(** No value will come any more: all Mutables it is made from have been dropped ([gone]). Of a switch: those that its input is
    made from, and those that the inner signal for the last value of the input is made from. *)
Inductive finished {V} (gone : nat -> Prop) (vals : nat -> V) (defs : nat -> pipe V) : pipe V -> Prop :=
| fin_mut m f : gone m -> finished gone vals defs (PMut m f)
| fin_always v : finished gone vals defs (PAlways v)
| fin_map f p : finished gone vals defs p -> finished gone vals defs (PMap f p)
| fin_dedupe eqb f p : finished gone vals defs p -> finished gone vals defs (PDedupe eqb f p)
| fin_eq test out p : finished gone vals defs p -> finished gone vals defs (PEq test out p)
| fin_ref f ps : all_finished gone vals defs ps -> finished gone vals defs (PRef f ps)
| fin_child b f : finished gone vals defs (defs b) -> finished gone vals defs (PChild b f)
| fin_switch f p a : finished gone vals defs p -> shows vals defs p a -> finished gone vals defs (f a) -> finished gone vals defs (PSwitch f p)
with all_finished {V} (gone : nat -> Prop) (vals : nat -> V) (defs : nat -> pipe V) : pipes V -> Prop :=
| fin_nil : all_finished gone vals defs PNil
| fin_cons p ps : finished gone vals defs p -> all_finished gone vals defs ps -> all_finished gone vals defs (PCons p ps).

(** Which inner signal a switch has to follow is certain: what it switches on has one right value. (When dedupe_map is used
    as it should be, [faithful], or is not used in what is switched on.) *)
Fixpoint certain {V} (vals : nat -> V) (defs : nat -> pipe V) (p : pipe V) : Prop :=
  match p with
  | PMut _ _ | PAlways _ | PChild _ _ => True
  | PMap _ p | PDedupe _ _ p | PEq _ _ p => certain vals defs p
  | PRef _ ps => certains vals defs ps
  | PSwitch f p => (forall a a', shows vals defs p a -> shows vals defs p a' -> a = a') /\ certain vals defs p /\ forall a, certain vals defs (f a)
  end
with certains {V} (vals : nat -> V) (defs : nat -> pipe V) (ps : pipes V) : Prop :=
  match ps with PNil => True | PCons p ps => certain vals defs p /\ certains vals defs ps end.

(** Every handle of the Mutable has been dropped. *)
Definition dropped {V} (w : world V) (m : nat) : Prop := u_senders (w_mu w m) = 0.

(** [env b] is the value of Broadcaster [b], for each of them. *)
Definition solves {V} (w : world V) (env : nat -> V) : Prop :=
  forall b, b < w_nbc w -> env b = value (contents w) env (inputs w b).

Section End_.
Context {V : Type}.
Implicit Types (w : world V) (s : sig V) (ss : slots V) (o : wk) (p : pipe V).

(** ** The end *)
Scheme fin_mind := Minimality for finished Sort Prop with all_fin_mind := Minimality for all_finished Sort Prop.
Combined Scheme fin_all_ind from fin_mind, all_fin_mind.

Lemma faithful_certain vals defs : (forall b, faithful (defs b)) ->
  (forall p, faithful p -> certain vals defs p) /\ (forall ps : pipes V, faithfuls ps -> certains vals defs ps).
Proof.
  intros hf. apply pipe_pipes_ind; simpl; intros; auto; try tauto.
  - destruct H1 as [h1 h2]. split; [|auto]. intros a a' ha ha'. eapply (proj1 (shows_once vals defs hf)); eauto.
Qed.

Lemma over_finished w L : below L w -> forall o,
  (forall s out, over w o L s -> cur w s out -> finished (dropped w) (contents w) (inputs w) (pipe_of s)) /\
  (forall ss, overs w o L ss -> curs w ss -> all_finished (dropped w) (contents w) (inputs w) (pipes_of ss)).
Proof.
  induction L as [L IHL] using lt_wf_ind. intros hb o. apply sig_slots_ind; simpl; intros; try (constructor; try tauto; fail).
  - destruct H1 as (a & h & _). constructor. eauto.
  - destruct H1 as (a & h & _). constructor. eauto.
  - destruct H1 as (a & h & _). constructor. eauto.
  - destruct H as (_ & _ & h1 & h2 & _). constructor. destruct (hb b h1) as (_ & c & _ & k). rewrite h2 in k.
    unfold inputs at 2. eapply (IHL b h1 (fun b' h => hb b' (Nat.lt_trans _ _ _ h h1))); eauto.
  - destruct H1 as (_ & h1 & h2 & _), H2 as (c1 & c2 & c3).
    destruct (proj1 (shows_fresh w L hb o) s sel c1 (or_intror h1) (proj1 (over_fresh w o L) s h1)) as (a & -> & ha).
    destruct c3 as [_ c3]. specialize (H0 h2 c2). rewrite c3 in H0. inversion H0; subst. apply (fin_switch _ _ _ _ _ a); eauto.
  - destruct H1 as (_ & h1 & h2), H2 as (c1 & c2). constructor; eauto.
Qed.

Lemma still_not_finished w L : below L w -> (forall b, b < L -> certain (contents w) (inputs w) (inputs w b)) -> forall o,
  (forall s out, good w o L s -> still w o s -> cur w s out -> certain (contents w) (inputs w) (pipe_of s) -> ~ finished (dropped w) (contents w) (inputs w) (pipe_of s)) /\
  (forall ss, goods w o L ss -> stills w o ss -> some_live ss -> curs w ss -> certains (contents w) (inputs w) (pipes_of ss) ->
     ~ all_finished (dropped w) (contents w) (inputs w) (pipes_of ss)).
Proof.
  induction L as [L IHL] using lt_wf_ind. intros hb hcs o. apply sig_slots_ind; simpl; intros.
  - intros K. inversion K; subst. unfold dropped in *. tauto.
  - tauto.
  - intros K. inversion K; subst. destruct H2 as (a & h & _). eapply H; eauto.
  - intros K. inversion K; subst. destruct H2 as (a & h & _). eapply H; eauto.
  - intros K. inversion K; subst. destruct H2 as (a & h & _). eapply H; eauto.
  - intros K. inversion K; subst. apply H; tauto.
  - intros K. inversion K; subst. destruct H as (_ & _ & h1 & _), H0 as (c1 & c2 & _). destruct (hb b h1) as (_ & c & _ & k). rewrite c2 in k. destruct k as [k1 [k2|k2]]; [congruence|].
    revert H4. unfold inputs at 2. eapply (IHL b h1 (fun b' h => hb b' (Nat.lt_trans _ _ _ h h1)) (fun b' h => hcs b' (Nat.lt_trans _ _ _ h h1))); eauto; apply (hcs b h1).
  - intros K. inversion K; subst. destruct H1 as (a1 & a2 & _), H2 as (b1 & b2 & b3), H3 as (c1 & c2 & c3), H4 as (d1 & d2 & d3). destruct live; [eapply H; eauto|].
    destruct b3 as [b3|b3]; [discriminate|].
    destruct (proj1 (shows_fresh w L hb o) s sel c1 (or_intror a1) (proj1 (over_fresh w o L) s a1)) as (a' & -> & ha).
    rewrite (d1 _ _ ha H8) in c3. destruct c3 as [_ c3]. rewrite c3 in H0.
    apply H0; auto; [simpl; auto|constructor; [auto|constructor]].
  - tauto.
  - intros K. inversion K; subst. destruct H1 as [a1 a2], H2 as [b1 b2], H4 as [c1 c2], H5 as [d1 d2], H3 as [->|c].
    + eapply H; eauto.
    + eapply H0; eauto.
Qed.

(** A for_each that nobody has dropped completes exactly when nothing can come any more. *)
Lemma settled_ends w t : inv w -> t < w_nt w -> settled w t ->
  certain (contents w) (inputs w) (t_pipe (w_task w t)) -> (forall b, b < w_nbc w -> certain (contents w) (inputs w) (inputs w b)) ->
  (t_pc (w_task w t) = TDone <-> finished (dropped w) (contents w) (inputs w) (t_pipe (w_task w t))).
Proof.
  intros (h1 & h2 & h3) ht hs hc hcs. specialize (h2 t ht). unfold task_ok, settled, alert in *. destruct (t_pc (w_task w t)) eqn:Ep; try tauto.
  - destruct h2 as (a1 & a2 & a3 & a4 & [a5|a5]); [congruence|]. rewrite <- a2 in *.
    split; [discriminate|]. intros K. exfalso. revert K. eapply still_not_finished; eauto.
  - destruct h2 as (a1 & <- & a3 & a4). split; [intros _|auto]. eapply over_finished; eauto.
Qed.

(** A for_each that has completed: nothing will ever come. *)
Lemma done_finished w t : inv w -> t < w_nt w -> t_pc (w_task w t) = TDone -> finished (dropped w) (contents w) (inputs w) (t_pipe (w_task w t)).
Proof.
  intros (h1 & h2 & h3) ht Ep. specialize (h2 t ht). unfold task_ok in h2. rewrite Ep in h2. destruct h2 as (a1 & <- & a3 & a4). eapply over_finished; eauto.
Qed.

(** ** Equations *)
Lemma shows_solution w env : inv w -> solves w env -> (forall b, b < w_nbc w -> faithful (inputs w b)) ->
  (forall p v, shows (contents w) (inputs w) p v -> closed (w_nmu w) (w_nbc w) p -> faithful p -> v = value (contents w) env p) /\
  (forall ps vs, all_show (contents w) (inputs w) ps vs -> closeds (w_nmu w) (w_nbc w) ps -> faithfuls ps -> vs = valuess (contents w) env ps).
Proof.
  intros (h1 & _) he hf. apply shows_all_ind; simpl; intros; auto.
  - rewrite (H0 H1 H2). auto.
  - destruct H3 as [k1 k2]. rewrite <- (H0 H2 k2). destruct H1 as [->|h]; auto.
  - rewrite (H0 H1 H2). auto.
  - rewrite H0; auto. tauto.
  - rewrite (he b H1), <- H0; auto.
    apply (closed_mono1 (w_nmu w) b (w_nmu w) (w_nbc w)); [lia|lia|]. destruct (h1 b H1) as (_ & _ & _ & k).
    unfold inputs. destruct (b_live (w_bc w b)); [destruct k; eapply good_closed; eauto|eapply over_closed; eauto].
  - destruct H3 as [a1 a2], H4 as [b1 b2]. rewrite <- (H0 a1 b1). auto.
  - destruct H3 as [a1 a2], H4 as [b1 b2]. rewrite <- H0, <- H2; auto.
Qed.

Lemma solvable w : inv w -> exists env, solves w env.
Proof.
  intros (h1 & _). exists (env_of (contents w) (inputs w) (w_nbc w)).
  assert (vx : forall e e' n, (forall b, b < n -> e b = e' b) -> (forall p, closed (w_nmu w) n p -> value (contents w) e p = value (contents w) e' p)
      /\ (forall ps, closeds (w_nmu w) n ps -> valuess (contents w) e ps = valuess (contents w) e' ps)).
  { intros e e' n he. apply pipe_pipes_ind; simpl; intros; auto.
    - rewrite H; auto.
    - rewrite H; auto.
    - rewrite H; auto.
    - rewrite H; auto. tauto.
    - rewrite he; auto.
    - destruct H1 as [a1 a2]. rewrite H0 by auto. auto.
    - destruct H1 as [a1 a2]. rewrite H, H0; auto. }
  assert (hc : forall b, b < w_nbc w -> closed (w_nmu w) b (inputs w b)).
  { intros b hb. destruct (h1 b hb) as (_ & _ & _ & k). unfold inputs. destruct (b_live (w_bc w b)); [destruct k; eapply good_closed; eauto|eapply over_closed; eauto]. }
  assert (st : forall n, n < w_nbc w -> forall b, b < n -> env_of (contents w) (inputs w) (S n) b = env_of (contents w) (inputs w) n b).
  { induction n as [|n IH]; intros hn b hb; [lia|]. simpl. apply (proj1 (vx _ _ b (fun b' h => IH ltac:(lia) b' ltac:(lia)))). apply hc. lia. }
  intros b hb. destruct (w_nbc w) as [|n] eqn:En; [lia|]. change (env_of (contents w) (inputs w) (S n) b) with (value (contents w) (env_of (contents w) (inputs w) n) (inputs w b)).
  symmetry. apply (proj1 (vx _ _ b (fun b' h => st n ltac:(lia) b' ltac:(lia)))). apply hc. lia.
Qed.

Lemma pipe_closed w t : inv w -> t < w_nt w -> match t_pc (w_task w t) with TGone => False | _ => True end -> closed (w_nmu w) (w_nbc w) (t_pipe (w_task w t)).
Proof.
  intros (h1 & h2 & h3) ht. specialize (h2 t ht). unfold task_ok in h2. destruct (t_pc (w_task w t)); try tauto;
    intros _; destruct h2 as (_ & <- & _ & h2); try destruct h2 as [h2 _]; try (eapply good_closed; eauto; fail); eapply over_closed; eauto.
Qed.

(** ** No method waits for the executor *)
Lemma drop_can w m : inv w -> held m w = true -> exists w', step w (MDrop m) = Some w'.
Proof.
  intros (_ & _ & hw) h. cbn [step]. rewrite h. destruct (u_senders (w_mu w m) =? 1); [|eauto].
  destruct (notify_can m false (set_mu m (mkMu (u_value (w_mu w m)) (u_senders (w_mu w m) - 1) (u_signals (w_mu w m))) w)) as (w1 & ->); [|eauto].
  destruct hw. constructor; simpl; auto. intros m0 i. unfold fupd. destruct (Nat.eqb_spec m0 m) as [->|]; simpl; auto.
Qed.

Lemma swap_can w m m' : inv w -> held m w = true -> held m' w = true -> m <> m' -> exists w', step w (MSwap m m') = Some w'.
Proof.
  intros (_ & _ & hw) h h' hne. cbn [step]. rewrite h, h'. destruct (Nat.eqb_spec m m') as [|_]; [congruence|]. cbn [andb negb].
  match goal with |- context [notify m true ?a] => assert (wa : wfw a) end.
  { destruct hw. constructor; simpl; auto. intros m0 i. unfold fupd. destruct (Nat.eqb_spec m0 m') as [->|]; [|destruct (Nat.eqb_spec m0 m) as [->|]]; simpl; auto. }
  destruct (notify_can m true _ wa) as (w1 & E). rewrite E. apply notify_can. apply notify_woke in E as [E _]. eapply wf_woke; eauto.
Qed.
End End_.

Section Final.
Context {V : Type}.
Implicit Types (w : world V) (p : pipe V).

Lemma idle_settled w t : inv w -> idle w -> t < w_nt w ->
  match t_pc (w_task w t) with TGone | TFut => True | _ => settled w t end.
Proof.
  intros hi h ht. specialize (h t ht). pose proof (proj1 (proj2 hi) t ht) as ok. unfold settled, task_ok in *. destruct (t_pc (w_task w t)); auto.
Qed.

Lemma end_settled v mvs w t : exec step (w_init v) mvs = Some w -> t < w_nt w -> settled w t ->
  exists a, hd_error (rev (t_seen (w_task w t))) = Some a /\ shows (contents w) (inputs w) (t_pipe (w_task w t)) a.
Proof. intros H. apply settled_shows. eapply reach_inv; eauto. Qed.

Lemma end_latest v mvs w env t : exec step (w_init v) mvs = Some w -> idle w -> t < w_nt w ->
  t_pc (w_task w t) <> TGone -> t_pc (w_task w t) <> TFut ->
  faithful (t_pipe (w_task w t)) -> (forall b, b < w_nbc w -> faithful (inputs w b)) -> solves w env ->
  hd_error (rev (t_seen (w_task w t))) = Some (value (contents w) env (t_pipe (w_task w t))).
Proof.
  intros H hid ht h1 h2 hf hfs hs. pose proof (reach_inv _ _ _ H) as hi. pose proof (idle_settled w t hi hid ht) as hst.
  assert (settled w t) as hst' by (destruct (t_pc (w_task w t)); congruence || auto).
  destruct (settled_shows w t hi ht hst') as (a & -> & ha). f_equal. eapply (proj1 (shows_solution w env hi hs hfs)); eauto.
  apply pipe_closed; auto. destruct (t_pc (w_task w t)); congruence || auto.
Qed.

Lemma end_solvable v mvs w : exec step (w_init v) mvs = Some w -> exists env, solves w env.
Proof. intros H. apply solvable. eapply reach_inv; eauto. Qed.

Lemma end_each v mvs w t n w' l a env : exec step (w_init v) mvs = Some w -> step w (MPoll t n) = Some w' ->
  t_seen (w_task w' t) = t_seen (w_task w t) ++ l ++ [a] ->
  faithful (t_pipe (w_task w t)) -> (forall b, b < w_nbc w -> faithful (inputs w b)) -> solves w env ->
  l = [] /\ a = value (contents w) env (t_pipe (w_task w t)).
Proof.
  intros H Hs E hf hfs he. pose proof (reach_inv _ _ _ H) as hi. destruct (poll_shows w t n w' hi Hs l a E) as [hl ha]. split; [auto|].
  destruct (inv_step _ _ _ hi Hs) as [hi' (k1 & k2 & k3 & k4)].
  simpl in Hs. destruct (t_pc (w_task w t)) eqn:Ep; try discriminate Hs. destruct (Nat.ltb_spec t (w_nt w)) as [ht|]; [|discriminate Hs].
  assert (hc : closed (w_nmu w) (w_nbc w) (t_pipe (w_task w t))) by (apply pipe_closed; auto; rewrite Ep; exact I).
  pose proof hi as (h1 & h2 & h3). pose proof (h2 t ht) as ok. unfold task_ok in ok. rewrite Ep in ok. destruct ok as (c1 & c2 & c3 & c4 & _).
  pose proof (proj1 (poll_all_ok n) (WTask t) (t_sig (w_task w t)) w (w_nbc w) _ ltac:(intros b; discriminate) h1 c4 c1 c3) as P.
  assert (hw : w_nbc w' = w_nbc w /\ w_nmu w' = w_nmu w /\ forall m, contents w' m = contents w m).
  { destruct (poll_sig n (WTask t) (t_sig (w_task w t)) w) as [| |[[s w1] r]]; [discriminate Hs|destruct P|]. destruct P as (e & _).
    pose proof (ev_drop (WTask t) w1 (ids s) 0 (fun _ => True) (fun _ _ => I)) as e'. unfold contents.
    destruct r as [|[x|]]; injection Hs as <-; simpl; unfold drop_sig; rewrite ?(ev_nbc e'), ?(ev_nmu e'), ?(ev_nbc e), ?(ev_nmu e);
      (split; [auto|split; [auto|intros m]]); rewrite ?(proj1 (ev_mu e' m)); apply (ev_mu e m). }
  destruct hw as (e1 & e2 & e3).
  assert (vx : (forall q, value (contents w') env q = value (contents w) env q) /\ (forall qs, valuess (contents w') env qs = valuess (contents w) env qs)).
  { apply pipe_pipes_ind; simpl; intros; rewrite ?H0, ?H1, ?e3; auto. }
  rewrite <- (proj1 vx). eapply (proj1 (shows_solution w' env hi' ltac:(intros b hb; rewrite (proj1 vx), k4 by lia; apply he; lia) ltac:(intros b hb; rewrite k4 by lia; apply hfs; lia))); auto.
  rewrite e1, e2. exact hc.
Qed.

Lemma end_no_panic v mvs w t : exec step (w_init v) mvs = Some w -> t < w_nt w -> t_pc (w_task w t) <> TPanic.
Proof. intros H ht E. destruct (reach_inv _ _ _ H) as (_ & h & _). specialize (h t ht). unfold task_ok in h. rewrite E in h. exact h. Qed.

Lemma end_completes v mvs w t : exec step (w_init v) mvs = Some w -> idle w -> t < w_nt w ->
  t_pc (w_task w t) <> TGone -> t_pc (w_task w t) <> TFut ->
  certain (contents w) (inputs w) (t_pipe (w_task w t)) -> (forall b, b < w_nbc w -> certain (contents w) (inputs w) (inputs w b)) ->
  (t_pc (w_task w t) = TDone <-> finished (dropped w) (contents w) (inputs w) (t_pipe (w_task w t))).
Proof.
  intros H hid ht h1 h2 hc hcs. pose proof (reach_inv _ _ _ H) as hi. apply settled_ends; auto. pose proof (idle_settled w t hi hid ht). destruct (t_pc (w_task w t)); congruence || auto.
Qed.

Lemma end_certain (vals : nat -> V) defs p : (forall b, faithful (defs b)) -> faithful p -> certain vals defs p.
Proof. intros h. apply (proj1 (faithful_certain vals defs h)). Qed.

Lemma end_done v mvs w t : exec step (w_init v) mvs = Some w -> t < w_nt w -> t_pc (w_task w t) = TDone ->
  finished (dropped w) (contents w) (inputs w) (t_pipe (w_task w t)).
Proof. intros H. apply done_finished. eapply reach_inv; eauto. Qed.

Lemma end_busy v mvs w : exec step (w_init v) mvs = Some w -> exists k, forall mvs' w', forallb busy mvs' = true -> exec step w mvs' = Some w' -> length mvs' <= k.
Proof. intros H. exists (work w). intros mvs' w' hb H'. pose proof (busy_runs mvs' w w' (reach_inv _ _ _ H) hb H'). lia. Qed.

Lemma end_progress v mvs w : exec step (w_init v) mvs = Some w -> idle w \/ exists mv w', busy mv = true /\ step w mv = Some w'.
Proof. intros H. apply busy_can. eapply reach_inv; eauto. Qed.

Lemma end_idle v mvs w : exec step (w_init v) mvs = Some w -> exists mvs' w', forallb busy mvs' = true /\ exec step w mvs' = Some w' /\ idle w'.
Proof. intros H. apply becomes_idle. eapply reach_inv; eauto. Qed.

Lemma end_can v mvs w m : exec step (w_init v) mvs = Some w -> held m w = true ->
  (forall a, exists w', step w (MSet m a) = Some w') /\ (exists w', step w (MDrop m) = Some w') /\
  (forall m', held m' w = true -> m <> m' -> exists w', step w (MSwap m m') = Some w').
Proof. intros H h. apply reach_inv in H. split; [|split]; intros; [apply set_can|apply drop_can|apply swap_can]; auto. Qed.

Lemma notify_contents m ch w w' : notify m ch w = Some w' -> forall k, contents w' k = contents w k.
Proof. intros H k. apply notify_woke in H as [H _]. apply (wo_mu _ _ _ H k). Qed.

Lemma closed_checked w nm nb p : closed nm nb p ->
  (nm <=? w_nmu w) && (nb <=? w_nbc w) = false \/ (closed (w_nmu w) (w_nbc w) p /\ (nm <=? w_nmu w) && (nb <=? w_nbc w) = true).
Proof.
  intros h. destruct (Nat.leb_spec nm (w_nmu w)) as [h1|]; [|auto]. destruct (Nat.leb_spec nb (w_nbc w)) as [h2|]; [|auto]. right. split; [|auto].
  eapply closed_mono1; eauto.
Qed.

Lemma lev_task t L : lev (WTask t) L. Proof. intros b. discriminate. Qed.
Lemma lev_note w : lev (WNote (w_nbc w)) (w_nbc w). Proof. intros b h. injection h as <-. auto. Qed.

(** What the moves do to the contents. *)
Lemma end_contents v mvs w mv w' : exec step (w_init v) mvs = Some w -> step w mv = Some w' ->
  forall k, contents w' k = match mv with
                            | MNew a => if k =? w_nmu w then a else contents w k
                            | MSet m a => if k =? m then a else contents w k
                            | MSwap m m' => if k =? m' then contents w m else if k =? m then contents w m' else contents w k
                            | _ => contents w k
                            end.
Proof.
  intros Hr H k. pose proof (reach_inv _ _ _ Hr) as hi. pose proof hi as (h1 & h2 & h3).
  pose proof (below_epochs _ _ h1) as hb.
  destruct mv as [a|m|m|m a|m m'|nm nb p hp|nm nb p hp|t|t|t|t n|t r]; cbn [step] in H.
  - injection H as <-. unfold contents. simpl. unfold fupd. destruct (k =? w_nmu w); auto.
  - destruct (held m w); [|discriminate H]. injection H as <-. unfold contents. simpl. unfold fupd. destruct (Nat.eqb_spec k m) as [->|]; auto.
  - destruct (held m w); [|discriminate H]. destruct (u_senders (w_mu w m) =? 1).
    + destruct (notify m false _) as [w1|] eqn:E; [|discriminate H]. injection H as <-. pose proof (notify_contents _ _ _ _ E) as E2. unfold contents in *. simpl in *.
      unfold fupd in *. specialize (E2 k). destruct (Nat.eqb_spec k m) as [->|]; auto.
    + injection H as <-. unfold contents. simpl. unfold fupd. destruct (Nat.eqb_spec k m) as [->|]; auto.
  - destruct (held m w); [|discriminate H]. rewrite (notify_contents _ _ _ _ H). unfold contents. simpl. unfold fupd. destruct (k =? m); auto.
  - destruct (held m w && held m' w && negb (m =? m')); [|discriminate H]. destruct (notify m true _) as [w1|] eqn:E; [|discriminate H].
    rewrite (notify_contents _ _ _ _ H), (notify_contents _ _ _ _ E). unfold contents. simpl. unfold fupd. destruct (k =? m'); auto. destruct (k =? m); auto.
  - destruct (closed_checked w _ _ _ hp) as [K|[hc K]]; rewrite K in H; [discriminate H|]. destruct (build (WNote (w_nbc w)) p w) as [s w1] eqn:E. injection H as <-.
    destruct (proj1 (build_ok _ _ (lev_note w)) _ _ _ _ hb hc E) as (g & _). apply (ev_mu g k).
  - destruct (closed_checked w _ _ _ hp) as [K|[hc K]]; rewrite K in H; [discriminate H|]. destruct (build (WTask (w_nt w)) p w) as [s w1] eqn:E. injection H as <-.
    destruct (proj1 (build_ok _ _ (lev_task _ _)) _ _ _ _ hb hc E) as (g & _). apply (ev_mu g k).
  - destruct ((t <? w_nt w) && _); [|discriminate H]. injection H as <-. unfold contents. simpl.
    apply (ev_mu (ev_drop (WTask t) w (ids (t_sig (w_task w t))) 0 (fun _ => True) (fun _ _ => I)) k).
  - destruct (t <? w_nt w); [|discriminate H]. injection H as <-. auto.
  - destruct ((t <? w_nt w) && _); [|discriminate H]. destruct (t_pc (w_task w t)); try discriminate H; injection H as <-; auto.
  - destruct (t_pc (w_task w t)) eqn:Ep; try discriminate H. destruct (Nat.ltb_spec t (w_nt w)) as [ht|]; [|discriminate H].
    pose proof (h2 t ht) as ok. unfold task_ok in ok. rewrite Ep in ok. destruct ok as (c1 & c2 & c3 & c4 & _).
    pose proof (proj1 (poll_all_ok n) (WTask t) (t_sig (w_task w t)) w (w_nbc w) _ ltac:(intros b; discriminate) h1 c4 c1 c3) as P.
    destruct (poll_sig n (WTask t) (t_sig (w_task w t)) w) as [| |[[s w1] r]]; [discriminate H|destruct P|]. destruct P as (e & _).
    pose proof (ev_drop (WTask t) w1 (ids s) 0 (fun _ => True) (fun _ _ => I)) as e'. unfold contents.
    destruct r as [|[x|]]; injection H as <-; simpl; unfold drop_sig; rewrite ?(proj1 (ev_mu e' k)); apply (ev_mu e k).
  - destruct (t_pc (w_task w t)); try discriminate H. destruct (t <? w_nt w); [|discriminate H]. injection H as <-. auto.
Qed.

(** What was spawned stays what it is. *)
Lemma end_spawned v mvs w nm nb p hp w1 mvs' w' : exec step (w_init v) mvs = Some w -> step w (MSpawn nm nb p hp) = Some w1 -> exec step w1 mvs' = Some w' ->
  w_nt w < w_nt w' /\ t_pipe (w_task w' (w_nt w)) = p.
Proof.
  intros H Hs Hr. pose proof (reach_inv _ _ _ H) as hi. pose proof hi as (h1 & _).
  pose proof (below_epochs _ _ h1) as hb.
  destruct (inv_step _ _ _ hi Hs) as [hi1 _].
  destruct (runs_kept _ _ _ hi1 Hr) as [_ (k1 & _ & k3 & _)].
  cbn [step] in Hs. destruct (closed_checked w _ _ _ hp) as [K|[hc K]]; rewrite K in Hs; [discriminate Hs|]. destruct (build (WTask (w_nt w)) p w) as [s w2] eqn:E. injection Hs as <-.
  destruct (proj1 (build_ok _ _ (lev_task _ _)) _ _ _ _ hb hc E) as (g & _). pose proof (ev_nt g) as e. simpl in k1. split; [lia|].
  destruct (k3 (w_nt w) ltac:(simpl; lia)) as [k _]. rewrite k. simpl. rewrite <- e, fupd_same. reflexivity.
Qed.

Lemma end_broadcaster v mvs w nm nb p hp w1 mvs' w' : exec step (w_init v) mvs = Some w -> step w (MBc nm nb p hp) = Some w1 -> exec step w1 mvs' = Some w' ->
  w_nbc w < w_nbc w' /\ inputs w' (w_nbc w) = p.
Proof.
  intros H Hs Hr. pose proof (reach_inv _ _ _ H) as hi. pose proof hi as (h1 & _).
  pose proof (below_epochs _ _ h1) as hb.
  destruct (inv_step _ _ _ hi Hs) as [hi1 _].
  destruct (runs_kept _ _ _ hi1 Hr) as [_ (_ & k2 & _ & k4)].
  cbn [step] in Hs. destruct (closed_checked w _ _ _ hp) as [K|[hc K]]; rewrite K in Hs; [discriminate Hs|]. destruct (build (WNote (w_nbc w)) p w) as [s w2] eqn:E. injection Hs as <-.
  destruct (proj1 (build_ok _ _ (lev_note w)) _ _ _ _ hb hc E) as (g & _ & _ & _ & _ & _ & hpp). pose proof (ev_nbc g) as e. simpl in k2. split; [lia|].
  rewrite (k4 (w_nbc w)) by (simpl; lia). unfold inputs. simpl. rewrite <- e, fupd_same. exact hpp.
Qed.

(** The values a closure was called with stay. *)
Lemma end_seen v mvs w mvs' w' t : exec step (w_init v) mvs = Some w -> exec step w mvs' = Some w' -> t < w_nt w ->
  exists l, t_seen (w_task w' t) = t_seen (w_task w t) ++ l.
Proof. intros H Hr ht. destruct (runs_kept _ _ _ (reach_inv _ _ _ H) Hr) as [_ (_ & _ & k & _)]. apply (k t ht). Qed.
End Final.

(** ** For examples *)
(** To show [Q] of the state after a run: compute [P], from which it follows. *)
Lemma ran_so {B} (e : option B) (P Q : B -> Prop) : match e with Some s => P s | None => False end -> (forall s, P s -> Q s) -> exists s, e = Some s /\ Q s.
Proof. destruct e as [s|]; [eauto|contradiction]. Qed.

Lemma idle_is {V} (w : world V) : idleb w = true -> idle w.
Proof.
  unfold idleb. rewrite forallb_forall. intros h t ht. specialize (h t ltac:(apply in_seq; lia)).
  destruct (t_pc (w_task w t)), (t_woken (w_task w t)); auto; discriminate.
Qed.

Lemma idle_not {V} (w : world V) : idleb w = false -> ~ idle w.
Proof.
  intros h hi. assert (idleb w = true); [|congruence]. apply forallb_forall. intros t ht. apply in_seq in ht. specialize (hi t ltac:(lia)).
  destruct (t_pc (w_task w t)); rewrite ?hi; auto; contradiction.
Qed.
