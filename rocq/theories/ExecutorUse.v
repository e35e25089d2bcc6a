(** What the closures see: never anything but the function of the current values; and the executor becomes idle. *)
From Verif Require Import Base Conc Executor ExecutorFacts ExecutorRun ExecutorLive.

(** ** The function that a pipeline is written as *)

(** [vals]: the contents of the Mutables; [env]: the values of the Broadcasters. *)
Fixpoint value {V} (vals env : nat -> V) (p : pipe V) : V :=
  match p with
  | PMut m f => f (vals m)
  | PAlways v => v
  | PMap f p => f (value vals env p)
  | PDedupe _ f p => snd (f (value vals env p))
  | PEq test out p => out (test (value vals env p))
  | PRef f ps => f (valuess vals env ps)
  | PChild b f => f (env b)
  | PSwitch f p => value vals env (f (value vals env p))
  end
with valuess {V} (vals env : nat -> V) (ps : pipes V) : list V :=
  match ps with PNil => [] | PCons p ps => value vals env p :: valuess vals env ps end.

(** The values of the Broadcasters below [n], which were made from [defs]. *)
Fixpoint env_of {V} (vals : nat -> V) (defs : nat -> pipe V) (n : nat) (b : nat) : V :=
  match n with 0 => vals 0 | S n => value vals (env_of vals defs n) (defs b) end.

(** What dedupe_map takes to be the same, its closure must take to be the same. (dedupe, dedupe_cloned: whenever == says
    so, the values are equal.) *)
Fixpoint faithful {V} (p : pipe V) : Prop :=
  match p with
  | PMut _ _ | PAlways _ | PChild _ _ => True
  | PMap _ p | PEq _ _ p => faithful p
  | PDedupe eqb f p => (forall a v, eqb (fst (f a)) v = true -> snd (f a) = snd (f v)) /\ faithful p
  | PRef _ ps => faithfuls ps
  | PSwitch f p => faithful p /\ forall a, faithful (f a)
  end
with faithfuls {V} (ps : pipes V) : Prop :=
  match ps with PNil => True | PCons p ps => faithful p /\ faithfuls ps end.

(** A move of the executor, when the futures of the closures are Ready. *)
Definition busy {V} (mv : move V) : bool := match mv with MStart _ | MPoll _ _ | MFut _ true => true | _ => false end.

Section Use.
Context {V : Type}.
Implicit Types (w : world V) (s : sig V) (ss : slots V) (o : wk) (p : pipe V).

(** A task that has nothing to do. *)
Definition settled w t : Prop :=
  match t_pc (w_task w t) with TSleep => t_woken (w_task w t) = false | TDone => True | _ => False end.

Lemma settled_shows w t : inv w -> t < w_nt w -> settled w t ->
  exists v, hd_error (rev (t_seen (w_task w t))) = Some v /\ shows (contents w) (inputs w) (t_pipe (w_task w t)) v.
Proof.
  intros (h1 & h2 & h3) ht. specialize (h2 t ht). unfold task_ok, settled, alert in *.
  destruct (t_pc (w_task w t)); try tauto.
  - intros hw. destruct h2 as (a1 & <- & a3 & a4 & [a5|a5]); [congruence|].
    eapply (proj1 (shows_fresh w (w_nbc w) h1 (WTask t))); eauto. eapply still_fresh; eauto.
  - intros _. destruct h2 as (a1 & <- & a3 & a4). eapply (proj1 (shows_fresh w (w_nbc w) h1 (WTask t))); eauto. eapply over_fresh; eauto.
Qed.

Lemma poll_shows w t n w' : inv w -> step w (MPoll t n) = Some w' ->
  forall l v, t_seen (w_task w' t) = t_seen (w_task w t) ++ l ++ [v] -> l = [] /\ shows (contents w') (inputs w') (t_pipe (w_task w t)) v.
Proof.
  intros hi H. pose proof hi as (h1 & h2 & h3). simpl in H. destruct (t_pc (w_task w t)) eqn:Ep; try discriminate H.
  destruct (Nat.ltb_spec t (w_nt w)) as [ht|]; [|discriminate H].
  pose proof (h2 t ht) as ok. unfold task_ok in ok. rewrite Ep in ok. destruct ok as (k1 & k2 & k3 & k4 & _).
  pose proof (proj1 (poll_all_ok n) (WTask t) (t_sig (w_task w t)) w (w_nbc w) _ ltac:(intros b; discriminate) h1 k4 k1 k3) as P.
  destruct (poll_sig n (WTask t) (t_sig (w_task w t)) w) as [| |[[s w1] r]]; [discriminate H|destruct P|].
  destruct P as (e & hb & hids & hn & hp & F & _ & hr). rewrite (ev_task e) in H.
  assert (no : forall l (v : V), t_seen (w_task w t) = t_seen (w_task w t) ++ l ++ [v] -> False).
  { intros l v K. apply (f_equal (@length V)) in K. rewrite !app_length in K. simpl in K. lia. }
  destruct r as [|[v|]]; injection H as <-; simpl; rewrite fupd_same; simpl; intros l v' K; try (destruct (no _ _ K)).
  apply app_inv_head in K. apply (app_inj_tail [] l v v') in K as [<- <-]. split; [auto|].
  destruct hr as [g c]. destruct (proj1 (shows_fresh w1 (w_nbc w) hb (WTask t)) s (Some v) c (or_introl g) F) as (x & hx & hs). injection hx as <-. rewrite <- k2, <- hp. exact hs.
Qed.

(** ** The function *)
Scheme shows_mind := Minimality for shows Sort Prop with all_show_mind := Minimality for all_show Sort Prop.
Combined Scheme shows_all_ind from shows_mind, all_show_mind.

Lemma shows_value vals defs nm : (forall b, closed nm b (defs b)) -> (forall b, faithful (defs b)) ->
  forall n,
  (forall p v, shows vals defs p v -> closed nm n p -> faithful p -> v = value vals (env_of vals defs n) p) /\
  (forall ps vs, all_show vals defs ps vs -> closeds nm n ps -> faithfuls ps -> vs = valuess vals (env_of vals defs n) ps).
Proof.
  intros hc hf. induction n as [n IHn] using lt_wf_ind. apply shows_all_ind; simpl; intros; auto.
  - rewrite (H0 H1 H2). auto.
  - destruct H3 as [h1 h2]. rewrite <- (H0 H2 h2). destruct H1 as [->|h]; auto.
  - rewrite (H0 H1 H2). auto.
  - rewrite H0; auto. tauto.
  - destruct n as [|n]; [lia|]. f_equal. simpl. apply (proj1 (IHn n ltac:(lia))); auto.
    apply (closed_mono1 nm b nm n); auto. lia.
  - destruct H3 as [a1 a2], H4 as [b1 b2]. rewrite <- (H0 a1 b1). auto.
  - destruct H3 as [a1 a2], H4 as [b1 b2]. rewrite <- H0, <- H2; auto.
Qed.

(** [shows] has at most one answer. *)
Lemma shows_once vals defs : (forall b, faithful (defs b)) ->
  (forall p v, shows vals defs p v -> faithful p -> forall v', shows vals defs p v' -> v' = v) /\
  (forall ps vs, all_show vals defs ps vs -> faithfuls ps -> forall vs', all_show vals defs ps vs' -> vs' = vs).
Proof.
  intros hf. apply shows_all_ind.
  - intros m f _ v' h. inversion h. auto.
  - intros v _ v' h. inversion h. auto.
  - intros f p v h IH hp v' h'. inversion h'; subst. rewrite (IH hp v0); auto.
  - intros eqb f p v a h IH hs hp v' h'. simpl in hp. destruct hp as [hp1 hp2]. inversion h'; subst.
    match goal with K : shows _ _ p ?x |- _ => pose proof (IH hp2 x K); subst x end.
    transitivity (snd (f v)); [destruct H4 as [->|K]; auto|destruct hs as [->|K]; auto]. symmetry. auto.
  - intros test out p v h IH hp v' h'. inversion h'; subst. rewrite (IH hp v0); auto.
  - intros f ps vs h IH hp v' h'. inversion h'; subst. rewrite (IH hp vs0); auto.
  - intros b f v h IH _ v' h'. inversion h'; subst. rewrite (IH (hf b) v0); auto.
  - intros f p a v h IH h2 IH2 [hp1 hp2] v' h'. inversion h'; subst.
    match goal with K : shows _ _ p ?x |- _ => pose proof (IH hp1 x K); subst x end. auto.
  - intros _ vs' h. inversion h. auto.
  - intros p ps v vs h IH h2 IH2 hp vs' h'. destruct hp as [hp1 hp2]. inversion h'; subst. rewrite (IH hp1 v0), (IH2 hp2 vs0); auto.
Qed.

Lemma over_closed w o L : (forall s, over w o L s -> closed (w_nmu w) L (pipe_of s)) /\ (forall ss, overs w o L ss -> closeds (w_nmu w) L (pipes_of ss)).
Proof.
  apply sig_slots_ind; simpl; intros; auto; try tauto.
  destruct H0 as [a1 a2]. split; auto. destruct ss; [congruence|discriminate].
Qed.

Lemma good_closed w o L : (forall s, good w o L s -> closed (w_nmu w) L (pipe_of s)) /\ (forall ss, goods w o L ss -> closeds (w_nmu w) L (pipes_of ss)).
Proof.
  apply sig_slots_ind; simpl; intros; auto; try tauto.
  - destruct H0 as [a1 a2]. split; auto. destruct ss; [congruence|discriminate].
  - destruct H1 as (a & b & c). split; auto. destruct live; auto. eapply over_closed; eauto.
  - destruct H1 as (a & b). split; auto. destruct live; auto. eapply over_closed; eauto.
Qed.

(** The value of a pipeline. *)
Definition meaning w p : V := value (contents w) (env_of (contents w) (inputs w) (w_nbc w)) p.

Lemma shows_meaning w p v : inv w -> (forall b, b < w_nbc w -> faithful (inputs w b)) -> faithful p ->
  closed (w_nmu w) (w_nbc w) p -> shows (contents w) (inputs w) p v -> v = meaning w p.
Proof.
  intros (h1 & h2 & h3) hf hp hc hs.
  (* Broadcasters that do not exist are not used *)
  set (defs := fun b => if b <? w_nbc w then inputs w b else PAlways v).
  assert (hd : forall b, b < w_nbc w -> defs b = inputs w b) by (intros b hb; unfold defs; destruct (Nat.ltb_spec b (w_nbc w)); [auto|lia]).
  assert (hc' : forall b, b < w_nbc w -> closed (w_nmu w) b (inputs w b)).
  { intros b hb. destruct (h1 b hb) as (_ & _ & _ & k). unfold inputs. destruct (b_live (w_bc w b)); [destruct k; eapply good_closed; eauto|eapply over_closed; eauto]. }
  assert (sub : (forall p v, shows (contents w) (inputs w) p v -> closed (w_nmu w) (w_nbc w) p -> shows (contents w) defs p v) /\
    (forall ps vs, all_show (contents w) (inputs w) ps vs -> closeds (w_nmu w) (w_nbc w) ps -> all_show (contents w) defs ps vs)).
  { apply shows_all_ind; simpl; intros; try (econstructor; eauto; fail).
    - constructor. apply H0. tauto.
    - constructor. rewrite hd by auto. apply H0. apply (closed_mono1 (w_nmu w) b (w_nmu w) (w_nbc w)); auto. lia.
    - destruct H3 as [a1 a2]. econstructor; eauto.
    - destruct H3 as [a1 a2]. constructor; auto. }
  apply (proj1 sub) in hs; [|auto].
  assert (ext : forall n, n <= w_nbc w -> forall b, b < n -> env_of (contents w) defs n b = env_of (contents w) (inputs w) n b).
  { assert (vx : forall e e' n, (forall b, b < n -> e b = e' b) -> (forall p, closed (w_nmu w) n p -> value (contents w) e p = value (contents w) e' p)
      /\ (forall ps, closeds (w_nmu w) n ps -> valuess (contents w) e ps = valuess (contents w) e' ps)).
    { intros e e' n he. apply pipe_pipes_ind; simpl; intros; auto.
      - rewrite H; auto.
      - rewrite H; auto.
      - rewrite H; auto.
      - rewrite H; auto. tauto.
      - rewrite he; auto.
      - destruct H1 as [a1 a2]. rewrite H0 by auto. auto.
      - destruct H1 as [a1 a2]. rewrite H, H0; auto. }
    induction n as [|n IH]; intros hn b hb; [lia|]. simpl. rewrite hd by lia. eapply (proj1 (vx _ _ n (IH ltac:(lia)))).
    apply (closed_mono1 (w_nmu w) b (w_nmu w) n); auto; [lia|]. apply hc'. lia. }
  unfold meaning. rewrite (proj1 (shows_value (contents w) defs (w_nmu w) ltac:(intros b; unfold defs; destruct (Nat.ltb_spec b (w_nbc w)); [auto|exact I])
    ltac:(intros b; unfold defs; destruct (Nat.ltb_spec b (w_nbc w)); simpl; auto) (w_nbc w)) p v hs hc hp) at 1.
  (* the same environment *)
  assert (vx : (forall p, closed (w_nmu w) (w_nbc w) p -> value (contents w) (env_of (contents w) defs (w_nbc w)) p = value (contents w) (env_of (contents w) (inputs w) (w_nbc w)) p)
      /\ (forall ps, closeds (w_nmu w) (w_nbc w) ps -> valuess (contents w) (env_of (contents w) defs (w_nbc w)) ps = valuess (contents w) (env_of (contents w) (inputs w) (w_nbc w)) ps)).
  { apply pipe_pipes_ind; simpl; intros; auto.
    - rewrite H; auto.
    - rewrite H; auto.
    - rewrite H; auto.
    - rewrite H; auto. tauto.
    - rewrite ext; auto.
    - destruct H1 as [a1 a2]. rewrite H0 by auto. auto.
    - destruct H1 as [a1 a2]. rewrite H, H0; auto. }
  apply (proj1 vx). auto.
Qed.

(** ** The executor becomes idle *)

(** Something to tell is told once, at the next poll. *)
Definition weigh w (x : task V) : nat :=
  if ended (t_pc x) then 0
  else 3 * n_of (t_woken x) + 2 * n_of (negb (freshb w (t_sig x))) + match t_pc x with TRun => 1 | TCall => 2 | _ => 0 end.
Definition weight w t : nat := weigh w (w_task w t).

Fixpoint total (f : nat -> nat) (n : nat) : nat := match n with 0 => 0 | S n => f n + total f n end.

Definition work w : nat := total (weight w) (w_nt w).

Lemma total_le f g n : (forall t, t < n -> f t <= g t) -> total f n <= total g n.
Proof. induction n; simpl; intros h; [lia|]. pose proof (h n ltac:(lia)). specialize (IHn ltac:(auto)). lia. Qed.

Lemma total_lt f g n t : t < n -> f t < g t -> (forall t, t < n -> f t <= g t) -> total f n < total g n.
Proof.
  induction n; simpl; intros h1 h2 h; [lia|]. pose proof (h n ltac:(lia)).
  destruct (Nat.eq_dec t n) as [->|]; [pose proof (total_le f g n ltac:(auto)); lia|]. specialize (IHn ltac:(lia) h2 ltac:(auto)). lia.
Qed.

(** One task moved, the others kept what they had. *)
Lemma work_less o L T w w1 t x : inv w -> t < w_nt w -> ev o L T w w1 -> weigh w1 x < weight w t -> work (set_task t x w1) < work w.
Proof.
  intros (h1 & h2 & h3) ht e hl.
  assert (core : (forall s, freshb (set_task t x w1) s = freshb w1 s) /\ (forall ss, freshbs (set_task t x w1) ss = freshbs w1 ss)).
  { apply sig_slots_ind; simpl; intros; congruence. }
  unfold work. cbn [w_nt set_task]. rewrite (ev_nt e).
  assert (ht' : weight (set_task t x w1) t < weight w t).
  { unfold weight at 1. cbn [w_task set_task]. rewrite fupd_same. unfold weigh in *. rewrite (proj1 core). exact hl. }
  apply (total_lt _ _ _ t ht ht'). intros t' hlt'.
  destruct (Nat.eq_dec t' t) as [->|hne]; [lia|]. unfold weight. cbn [w_task set_task]. rewrite fupd_other, (ev_task e) by congruence.
  unfold weigh. rewrite (proj1 core). destruct (ended (t_pc (w_task w t'))) eqn:Ee; [auto|].
  assert (hg : good w (WTask t') (w_nbc w) (t_sig (w_task w t'))).
  { pose proof (h2 t' hlt') as k. unfold task_ok in k. destruct (t_pc (w_task w t')); try discriminate Ee; tauto. }
  destruct (freshb w (t_sig (w_task w t'))) eqn:Ef; [|simpl; destruct (freshb w1 (t_sig (w_task w t'))); simpl; lia].
  apply (proj1 (fresh_dec w)) in Ef. rewrite (proj2 (proj1 (fresh_dec w1) (t_sig (w_task w t')))); [auto|].
  apply (fresh_ev1 e); auto. intros j hj. eapply good_owner1; eauto.
Qed.

Lemma busy_less w mv w' : inv w -> busy mv = true -> step w mv = Some w' -> work w' < work w.
Proof.
  intros hi hb H. pose proof hi as (h1 & h2 & h3).
  assert (task : forall t x, t < w_nt w -> weigh w x < weight w t -> work (set_task t x w) < work w).
  { intros t x ht. apply (work_less (WTask 0) 0 (fun _ => True)); auto. apply ev_refl. }
  destruct mv as [v|m|m|m v|m m'|nm nb p h|nm nb p h|t|t|t|t n|t r]; try discriminate hb.
  - simpl in H. destruct (Nat.ltb_spec t (w_nt w)) as [ht|]; [|discriminate H]. destruct (t_woken (w_task w t)) eqn:Ew; [|discriminate H]. simpl in H.
    destruct (t_pc (w_task w t)) eqn:Ep; try discriminate H; injection H as <-;
      apply task; auto; unfold weight, weigh; rewrite Ew, Ep; simpl; lia.
  - simpl in H. destruct (t_pc (w_task w t)) eqn:Ep; try discriminate H.
    destruct (Nat.ltb_spec t (w_nt w)) as [ht|]; [|discriminate H].
    pose proof (h2 t ht) as ok. unfold task_ok in ok. rewrite Ep in ok. destruct ok as (k1 & k2 & k3 & k4 & _).
    pose proof (proj1 (poll_all_ok n) (WTask t) (t_sig (w_task w t)) w (w_nbc w) _ ltac:(intros b; discriminate) h1 k4 k1 k3) as P.
    destruct (poll_sig n (WTask t) (t_sig (w_task w t)) w) as [| |[[s w1] r]]; [discriminate H|destruct P|].
    destruct P as (e & _ & _ & _ & _ & hf & hf' & _). rewrite (ev_task e) in H. apply (proj1 (fresh_dec w1)) in hf.
    destruct r as [|[v|]]; injection H as <-.
    + apply (work_less _ _ _ _ _ _ _ hi ht e). unfold weight, weigh. simpl. rewrite Ep, hf. simpl. lia.
    + apply (work_less _ _ _ _ _ _ _ hi ht e). unfold weight, weigh. simpl. rewrite Ep, hf.
      destruct (freshb w (t_sig (w_task w t))) eqn:Ef; [|simpl; lia]. apply (proj1 (fresh_dec w)) in Ef. destruct (hf' Ef).
    + assert (e2 : ev (WTask t) (w_nbc w) (fun _ => True) w (drop_sig s w1)).
      { eapply (ev_trans _ _ (fun _ => True)); [exact e|apply (ev_drop _ _ _ _ (fun _ => True)); auto|auto|auto]. }
      apply (work_less _ _ _ _ _ _ _ hi ht e2). unfold weight, weigh. simpl. rewrite Ep. simpl. lia.
  - simpl in H. destruct r; [|discriminate hb]. destruct (t_pc (w_task w t)) eqn:Ep; try discriminate H.
    destruct (Nat.ltb_spec t (w_nt w)) as [ht|]; [|discriminate H]. injection H as <-.
    apply task; auto. unfold weight, weigh. rewrite Ep. simpl. lia.
Qed.

(** However the executor orders the work, it is done after at most [work w] moves. *)
Lemma busy_runs mvs : forall w w', inv w -> forallb busy mvs = true -> exec step w mvs = Some w' -> length mvs + work w' <= work w.
Proof.
  induction mvs as [|mv mvs IH]; intros w w' hi hb H; simpl in H.
  - injection H as <-. simpl. lia.
  - simpl in hb. apply andb_true_iff in hb as [hb1 hb2]. destruct (step w mv) as [w1|] eqn:E; [|discriminate H].
    pose proof (busy_less w mv w1 hi hb1 E). destruct (inv_step w mv w1 hi E) as [hi1 _]. specialize (IH w1 w' hi1 hb2 H). simpl. lia.
Qed.

Definition idleb w : bool :=
  forallb (fun t => match t_pc (w_task w t) with
                    | TSleep | TFut => negb (t_woken (w_task w t))
                    | TRun | TCall => false
                    | TDone | TGone | TPanic => true
                    end) (seq 0 (w_nt w)).

Lemma idle_or w : idle w \/ exists t, t < w_nt w /\ match t_pc (w_task w t) with
                                                    | TSleep | TFut => t_woken (w_task w t) = true
                                                    | TRun | TCall => True
                                                    | _ => False
                                                    end.
Proof.
  destruct (idleb w) eqn:E; [left|right]; unfold idleb in E.
  - rewrite forallb_forall in E. intros t ht. specialize (E t ltac:(apply in_seq; lia)). destruct (t_pc (w_task w t)); try discriminate; auto; destruct (t_woken (w_task w t)); auto; discriminate.
  - destruct (existsb (fun t => negb (match t_pc (w_task w t) with
                    | TSleep | TFut => negb (t_woken (w_task w t))
                    | TRun | TCall => false
                    | TDone | TGone | TPanic => true
                    end)) (seq 0 (w_nt w))) eqn:E2.
    + apply existsb_exists in E2 as (t & h1 & h2). apply in_seq in h1. exists t. split; [lia|]. destruct (t_pc (w_task w t)); try discriminate; auto; destruct (t_woken (w_task w t)); auto; discriminate.
    + exfalso. revert E E2. induction (seq 0 (w_nt w)); simpl; intros; [discriminate|]. apply orb_false_iff in E2 as [a1 a2]. apply negb_false_iff in a1. rewrite a1 in E. simpl in E. auto.
Qed.

(** As long as the executor is not idle, it can move. *)
Lemma busy_can w : inv w -> idle w \/ exists mv w', busy mv = true /\ step w mv = Some w'.
Proof.
  intros hi. pose proof hi as (h1 & h2 & h3). destruct (idle_or w) as [h|(t & ht & h)]; [auto|right]. pose proof (h2 t ht) as ok. unfold task_ok in ok.
  pose proof (proj2 (Nat.ltb_lt _ _) ht) as hb.
  destruct (t_pc (w_task w t)) eqn:Ep; try tauto.
  - exists (MStart t). simpl. rewrite hb, h, Ep. simpl. eauto.
  - destruct ok as (k1 & k2 & k3 & k4 & _).
    destruct (proj1 (all_end (w_nbc w)) (pipe_of (t_sig (w_task w t))) (WTask t) (t_sig (w_task w t)) w _ eq_refl ltac:(intros b; discriminate) h1 k4 k1 k3) as (n & [[s w1] r] & E).
    exists (MPoll t n). simpl. rewrite Ep, hb, E. destruct r as [|[v|]]; eauto.
  - exists (MFut t true). simpl. rewrite hb, Ep. eauto.
  - exists (MStart t). simpl. rewrite hb, h, Ep. simpl. eauto.
Qed.

Lemma becomes_idle w : inv w -> exists mvs w', forallb busy mvs = true /\ exec step w mvs = Some w' /\ idle w'.
Proof.
  assert (h : forall k w, work w < k -> inv w -> exists mvs w', forallb busy mvs = true /\ exec step w mvs = Some w' /\ idle w'); [|intros hi; apply (h (S (work w))); auto].
  induction k as [|k IH]; intros w1 hk hi; [lia|]. destruct (busy_can w1 hi) as [h|(mv & w' & hb & E)].
  - exists [], w1. simpl. auto.
  - pose proof (busy_less _ _ _ hi hb E). destruct (inv_step _ _ _ hi E) as [hi' _].
    destruct (IH w' ltac:(lia) hi') as (mvs & w2 & a1 & a2 & a3). exists (mv :: mvs), w2. simpl. rewrite hb, E. auto.
Qed.

(** ** No method waits for the executor *)
Lemma set_can w m v : inv w -> held m w = true -> exists w', step w (MSet m v) = Some w'.
Proof.
  intros (_ & _ & hw) h. simpl. rewrite h. apply notify_can. destruct hw. constructor; simpl; auto.
  intros m0 i. unfold fupd. destruct (Nat.eqb_spec m0 m) as [->|]; simpl; auto.
Qed.
End Use.
