(** A poll of a view, spread over many steps, does what its combinators do on the scripts of all the answers (Views.v). *)
From Verif Require Import Base Conc Spec BaseFacts LoopFacts VecDiff VecSpec Mpsc MapDiff VecExecFacts Views.

(** ** One combinator *)
Section Machine.
  Context {A B : Type} (m : mach A B).
  Notation runs := (run (mpoll m)).

  (** What a combinator does depends on its script only as far as it reads it. *)
  Definition on_demand : Prop := forall st pst td st' sr r,
    mpoll m (st, mkSrc pst td) = Some ((st', sr), r) ->
    (exists used, td = used ++ todo sr /\ past sr = pst ++ used
       /\ forall rest, mpoll m (st, mkSrc pst (used ++ rest)) = Some ((st', mkSrc (pst ++ used) rest), r))
    \/ (exists p, past sr = pst ++ td ++ Pending :: p).

  Definition listens : Prop := forall script n st sr outs st' sr', runs n (minit m, fresh script) = Some ((st, sr), outs) ->
    ~ In (Ready None) outs -> mpoll m (st, sr) = Some ((st', sr'), Pending) -> listening sr sr'.
  Definition ends : Prop := forall script n st sr outs, runs n (minit m, fresh script) = Some ((st, sr), outs) ->
    last_out outs (Ready None) -> ended sr.
  Definition obeys : Prop := forall script n st sr outs, runs n (minit m, fresh script) = Some ((st, sr), outs) -> obeys_end (past sr).

  Hypothesis Hd : on_demand.

  Lemma m_grow st pst td st' sr r : mpoll m (st, mkSrc pst td) = Some ((st', sr), r) -> exists p, past sr = pst ++ p.
  Proof. intros H. destruct (Hd _ _ _ _ _ _ H) as [(u & _ & E & _)|(p & E)]; eauto. Qed.

  Lemma m_run_grow n : forall st sr st' sr' outs, runs n (st, sr) = Some ((st', sr'), outs) -> exists p, past sr' = past sr ++ p.
  Proof.
    induction n as [|n IH]; intros st [pst td] st' sr' outs H; simpl in H.
    - injection H as <- <- <-. exists []. rewrite app_nil_r. reflexivity.
    - destruct (mpoll m (st, mkSrc pst td)) as [[[s1 sr1] o]|] eqn:E; [|discriminate].
      destruct (m_grow _ _ _ _ _ _ E) as (p & Ep). simpl.
      destruct o as [|[o|]].
      3:{ injection H as <- <- <-. eauto. }
      all: destruct (runs n (s1, sr1)) as [[[s2 sr2] os]|] eqn:E2; [|discriminate]; injection H as <- <- <-;
           destruct (IH _ _ _ _ _ E2) as (q & Eq); exists (p ++ q); rewrite Eq, Ep, app_assoc; reflexivity.
  Qed.

  (** The run has read exactly the script [log]. *)
  Definition has_run (log : list (poll (option A))) (st : mst m) (outs : list (poll (option B))) : Prop :=
    exists k, runs k (minit m, fresh log) = Some ((st, mkSrc log []), outs).

  Lemma m_run_more k : forall st pst td st' outs,
    runs k (st, mkSrc pst td) = Some ((st', mkSrc (pst ++ td) []), outs) ->
    forall rest, runs k (st, mkSrc pst (td ++ rest)) = Some ((st', mkSrc (pst ++ td) rest), outs).
  Proof.
    induction k as [|k IH]; intros st pst td st' outs H rest; simpl in *.
    - injection H as <- _ -> <-. simpl. rewrite app_nil_r. reflexivity.
    - destruct (mpoll m (st, mkSrc pst td)) as [[[s1 sr1] o]|] eqn:E; [|discriminate].
      destruct (Hd _ _ _ _ _ _ E) as [(u & E1 & E2 & E3)|(p0 & E2)].
      + destruct sr1 as [p1 t1]. simpl in E1, E2. subst p1 td. rewrite <- app_assoc, E3.
        destruct o as [|[o|]].
        3:{ injection H as <- _ -> <-. rewrite app_nil_r. reflexivity. }
        all: destruct (runs k (s1, mkSrc (pst ++ u) t1)) as [[s2 os]|] eqn:E4; [|discriminate]; injection H as -> <-;
             rewrite app_assoc in E4; rewrite (IH _ _ _ _ _ E4 rest), app_assoc; reflexivity.
      + exfalso. assert (HH : exists p, pst ++ td = past sr1 ++ p).
        { destruct o as [|[o|]].
          3:{ injection H as _ H _. exists []. rewrite app_nil_r. rewrite H. reflexivity. }
          all: destruct (runs k (s1, sr1)) as [[[s2 sr2] os]|] eqn:E4; [|discriminate]; injection H as _ H _;
               destruct (m_run_grow _ _ _ _ _ _ E4) as (p & Ep); exists p; rewrite H in Ep; exact Ep. }
        destruct HH as (p & Ep). rewrite E2 in Ep. apply (f_equal (@length _)) in Ep. rewrite !app_length in Ep. simpl in Ep. lia.
  Qed.

  Lemma has_run_then log st outs td : has_run log st outs -> exists k, runs k (minit m, fresh (log ++ td)) = Some ((st, mkSrc log td), outs).
  Proof. intros (k & H). exists k. exact (m_run_more k _ [] log st outs H td). Qed.

  Lemma has_run_snoc log st outs used st' r : has_run log st outs -> ~ In (Ready None) outs ->
    mpoll m (st, mkSrc log used) = Some ((st', mkSrc (log ++ used) []), r) -> has_run (log ++ used) st' (outs ++ [r]).
  Proof.
    intros H Hn E. destruct (has_run_then _ _ _ used H) as (k & Hk). apply run_snoc in Hk; [|exact Hn]. rewrite E in Hk. exists (S k). exact Hk.
  Qed.

  (** The poll needs more than the answers [known]. *)
  Definition starved (st : mst m) (log known : list (poll (option A))) : Prop :=
    exists st' after r, mpoll m (st, mkSrc log known) = Some ((st', after), r) /\ length log + length known < length (past after).

  Lemma exact_use st log known st' after r : mpoll m (st, mkSrc log known) = Some ((st', after), r) ->
    length (past after) <= length log + length known -> (forall k a, known = k ++ [a] -> starved st log k) ->
    after = mkSrc (log ++ known) [].
  Proof.
    intros E Hl Hs. destruct (Hd _ _ _ _ _ _ E) as [(u & E1 & E2 & E3)|(p & E2)].
    2:{ rewrite E2 in Hl. rewrite !app_length in Hl. simpl in Hl. lia. }
    destruct after as [pa ta]. simpl in *. subst pa. destruct ta as [|x ta _] using rev_ind.
    - rewrite app_nil_r in E1. subst u. reflexivity.
    - rewrite app_assoc in E1. destruct (Hs _ _ E1) as (s1 & a1 & r1 & F1 & F2). rewrite E3 in F1. injection F1 as _ <- _.
      simpl in F2. rewrite !app_length in F2. lia.
  Qed.

  Lemma starved_more st log known : starved st log known -> exists st' after r p,
    mpoll m (st, mkSrc log known) = Some ((st', after), r) /\ past after = log ++ known ++ Pending :: p.
  Proof.
    intros (st' & after & r & E & H). destruct (Hd _ _ _ _ _ _ E) as [(u & E1 & E2 & _)|(p & E2)].
    - exfalso. rewrite E2, app_length in H. apply (f_equal (@length _)) in E1. rewrite app_length in E1. lia.
    - eauto 10.
  Qed.

  (** Once it has ended it is over. *)
  Lemma run_end_last k : forall st st' outs, runs k st = Some (st', outs) -> In (Ready None) outs -> last_out outs (Ready None).
  Proof.
    induction k as [|k IH]; intros st st' outs H Hi; simpl in H; [injection H as <- <-; destruct Hi|].
    destruct (mpoll m st) as [[s1 o]|]; [|discriminate]. destruct o as [|[o|]].
    3:{ injection H as <- <-. exists []. reflexivity. }
    all: destruct (runs k s1) as [[s2 os]|] eqn:E; [|discriminate]; injection H as <- <-;
         destruct Hi as [Hi|Hi]; [discriminate|]; destruct (IH _ _ _ E Hi) as (p & ->); eexists (_ :: p); reflexivity.
  Qed.

  (** If it was polled once more, its input had not ended. *)
  Lemma starved_open log st outs known : obeys -> has_run log st outs -> ~ In (Ready None) outs -> starved st log known -> ~ In (Ready None) (log ++ known).
  Proof.
    intros Ho Hr Hn Hs Hi. destruct (starved_more _ _ _ Hs) as (st' & after & r & p & E & Ep).
    destruct (has_run_then _ _ _ known Hr) as (k & Hk). apply run_snoc in Hk; [|exact Hn]. rewrite E in Hk.
    apply Ho in Hk. apply in_split in Hi. destruct Hi as (l1 & l2 & El). specialize (Hk l1 (l2 ++ Pending :: p)).
    rewrite Ep, app_assoc, El, <- app_assoc in Hk. specialize (Hk eq_refl). destruct l2; discriminate.
  Qed.
End Machine.

(** ** A view *)
Definition is_source {D B} (p : pipe D B) : bool := match p with PSource => true | POn _ _ => false end.

Fixpoint lawful_pipe {D B} (p : pipe D B) : Prop :=
  match p with
  | PSource => True
  | POn m p => on_demand m /\ listens m /\ ends m /\ (is_source p = true \/ obeys m) /\ lawful_pipe p
  end.

(** No poll is in progress. *)
Fixpoint calm {D B} (p : pipe D B) : pstate p -> Prop :=
  match p with
  | PSource => fun _ => True
  | POn m p => fun ps => let '(st, log, known, below) := ps in known = [] /\ calm p below
  end.

(** The channel has given the answers [cg], the view the answers [outs]; [b]: the channel was polled during the poll in
    progress. *)
Fixpoint holds {D B} (p : pipe D B) : pstate p -> list (poll (option D)) -> list (poll (option B)) -> bool -> Prop :=
  match p with
  | PSource => fun _ cg outs _ => outs = cg
  | POn m p => fun ps cg outs b =>
      let '(st, log, known, below) := ps in
      has_run m log st outs
      /\ (forall k a, known = k ++ [a] -> starved m st log k)
      /\ (starved m st log known \/ calm p below)
      /\ (last_out known Pending -> b = true \/ In (Ready None) cg)
      /\ holds p below cg (log ++ known) b
  end.

Section Pipe.
Context {D : Type}.

Lemma holds_init {B} (p : pipe D B) b : holds p (pinit p) [] [] b.
Proof.
  revert b. induction p as [|A B m p IH]; intros b; cbn [holds pinit]; [reflexivity|].
  split; [exists 0; reflexivity|]. split; [intros [|] a; discriminate|]. split.
  - right. clear. induction p as [|A' B' m' p IH]; cbn; auto.
  - split; [intros ([|] & H); discriminate|apply IH].
Qed.

Lemma calm_init {B} (p : pipe D B) : calm p (pinit p).
Proof. induction p as [|A B m p IH]; cbn; auto. Qed.

(** Answers that are over have the same meaning whatever happens to the flag. *)
Lemma holds_flag {B} (p : pipe D B) : forall ps cg outs b b', (b = true -> b' = true) -> holds p ps cg outs b -> holds p ps cg outs b'.
Proof.
  induction p as [|A B m p IH]; intros ps cg outs b b' Hb; cbn [holds]; [auto|].
  destruct ps as [[[st log] known] below]. intros (H1 & H2 & H3 & H4 & H5). split; [exact H1|]. split; [exact H2|]. split; [exact H3|].
  split; [intros Hp; destruct (H4 Hp); auto|]. eapply IH; eauto.
Qed.

(** A new poll. *)
Lemma holds_start {B} (p : pipe D B) : forall ps cg outs b b', calm p ps -> holds p ps cg outs b -> holds p ps cg outs b'.
Proof.
  induction p as [|A B m p IH]; intros ps cg outs b b'; cbn [holds calm]; [auto|].
  destruct ps as [[[st log] known] below]. intros (-> & Hc) (H1 & H2 & H3 & H4 & H5). split; [exact H1|]. split; [exact H2|]. split; [exact H3|].
  split; [intros ([|] & H); discriminate|]. eapply IH; eauto.
Qed.

(** If the view has ended, so has the channel. *)
Lemma ended_below {B} (p : pipe D B) : forall ps cg outs b, lawful_pipe p -> holds p ps cg outs b -> In (Ready None) outs -> In (Ready None) cg.
Proof.
  induction p as [|A B m p IH]; intros ps cg outs b; cbn [holds lawful_pipe]; [intros _ ->; auto|].
  destruct ps as [[[st log] known] below]. intros (L1 & L2 & L3 & L4 & L5) ((k & H1) & _ & _ & _ & H5) Hi.
  apply (IH _ _ _ _ L5 H5). apply in_or_app. left. exact (L3 _ _ _ _ _ H1 (run_end_last m k _ _ _ H1 Hi)).
Qed.

Lemma cpoll_got closed (c : chan D) : cgot (fst (cpoll closed c)) = cgot c ++ [snd (cpoll closed c)].
Proof. unfold cpoll. destruct (cqueue c); [destruct closed|]; reflexivity. Qed.

Lemma cpoll_pair closed (c : chan D) c' r : cpoll closed c = (c', r) -> c' = fst (cpoll closed c) /\ cgot c' = cgot c ++ [r].
Proof. intros E. pose proof (cpoll_got closed c) as X. rewrite E in X |- *. auto. Qed.

(** One step. *)
Lemma advance_holds {B} (p : pipe D B) closed : forall ps c outs b b' ps' c' a, lawful_pipe p -> holds p ps (cgot c) outs b ->
  (is_source p = true \/ ~ In (Ready None) outs) -> advance closed p ps c = Some (ps', c', a) ->
  (b = true -> b' = true) -> (c' <> c -> b' = true) ->
  (c' = c \/ c' = fst (cpoll closed c))
  /\ match a with
     | None => holds p ps' (cgot c') outs b'
     | Some r => holds p ps' (cgot c') (outs ++ [r]) b' /\ calm p ps' /\ (r = Pending -> b' = true \/ In (Ready None) (cgot c'))
     end.
Proof.
  induction p as [|A B m p IH]; intros ps c outs b b' ps' c' a; cbn [holds lawful_pipe advance calm].
  - intros _ -> _ E Hb Hb'. destruct (cpoll closed c) as [c1 r] eqn:Ec. injection E as <- <- <-. destruct (cpoll_pair _ _ _ _ Ec) as [X Y].
    split; [right; reflexivity|]. split; [auto|]. split; [exact I|]. intros _. left. apply Hb'. intros X'. subst c1. rewrite X' in Y.
    apply (f_equal (@length _)) in Y. rewrite app_length in Y. simpl in Y. lia.
  - destruct ps as [[[st log] known] below]. intros (L1 & L2 & L3 & L4 & L5) (H1 & H2 & H3 & H4 & H5) Hn E Hb Hb'.
    destruct Hn as [Hn|Hn]; [discriminate|].
    destruct (mpoll m (st, mkSrc log known)) as [[[st1 after] r]|] eqn:Em; [|discriminate].
    destruct (Nat.ltb_spec (length log + length known) (length (past after))) as [Hl|Hl].
    + (* it asks *)
      assert (Hs : starved m st log known) by (exists st1, after, r; auto).
      destruct (advance closed p below c) as [[[below' c1] x]|] eqn:Ea; [|discriminate]. injection E as <- <- <-.
      assert (Ho : is_source p = true \/ ~ In (Ready None) (log ++ known)).
      { destruct L4 as [L4|L4]; [left; exact L4|right; exact (starved_open m L1 _ _ _ _ L4 H1 Hn Hs)]. }
      destruct (IH _ _ _ _ b' _ _ _ L5 H5 Ho Ea Hb Hb') as (X1 & X2). split; [exact X1|].
      split; [exact H1|]. destruct x as [x|].
      * destruct X2 as (Y1 & Y2 & Y3). split; [intros k a E; apply app_inj_tail in E; destruct E as [<- _]; exact Hs|].
        split; [right; exact Y2|]. split; [intros Hp; apply last_out_snoc in Hp; auto|]. rewrite app_assoc. exact Y1.
      * split; [exact H2|]. split; [left; exact Hs|]. split; [|exact X2]. intros Hp. destruct (H4 Hp) as [Z|Z]; [left; auto|right].
        destruct X1 as [->| ->]; [exact Z|]. rewrite cpoll_got. apply in_or_app. left. exact Z.
    + (* it answers *)
      injection E as <- <- <-. pose proof (exact_use m L1 _ _ _ _ _ _ Em Hl H2) as ->. simpl in *.
      assert (Hc : calm p below).
      { destruct H3 as [(s2 & a2 & r2 & F1 & F2)|H3]; [|exact H3]. exfalso. rewrite Em in F1. injection F1 as _ <- _. simpl in F2. rewrite app_length in F2. lia. }
      pose proof (has_run_snoc m L1 _ _ _ _ _ _ H1 Hn Em) as Hr.
      assert (Hp : r = Pending -> b' = true \/ In (Ready None) (cgot c)).
      { intros ->. destruct (has_run_then m L1 _ _ _ known H1) as (k & Hk).
        destruct (L2 _ _ _ _ _ _ _ Hk Hn Em) as [X|(q & X)].
        - right. eapply ended_below; [exact L5|exact H5|exact X].
        - simpl in X. apply app_inv_head in X. assert (last_out known Pending) as Y by (exists q; exact X).
          destruct (H4 Y) as [Z|Z]; auto. }
      split; [left; reflexivity|]. split; [|split; [split; [reflexivity|exact Hc]|exact Hp]].
      split; [exact Hr|]. split; [intros [|] a; discriminate|]. split; [right; exact Hc|].
      split; [intros ([|] & X); discriminate|]. rewrite app_nil_r. eapply holds_flag; [exact Hb|exact H5].
Qed.

(** ** Views that do not miss the end *)
Definition alert {A B} (m : mach A B) : Prop := forall script n st sr outs st' sr', run (mpoll m) n (minit m, fresh script) = Some ((st, sr), outs) ->
  ~ In (Ready None) outs -> mpoll m (st, sr) = Some ((st', sr'), Pending) -> armed sr sr'.
Fixpoint alert_pipe {B} (p : pipe D B) : Prop := match p with PSource => True | POn m p => alert m /\ alert_pipe p end.

Lemma alert_below {B} (p : pipe D B) : forall ps cg outs b, alert_pipe p -> holds p ps cg outs b -> calm p ps -> last_out outs Pending -> last_out cg Pending.
Proof.
  induction p as [|A B m p IH]; intros ps cg outs b; cbn [holds alert_pipe calm]; [intros _ ->; auto|].
  destruct ps as [[[st log] known] below]. intros (L1 & L5) ((k & Hk) & _ & _ & _ & H5) (-> & Hc) (q & ->).
  rewrite app_nil_r in H5. apply (IH _ _ _ _ L5 H5 Hc).
  destruct (run_unsnoc _ _ _ _ _ _ Hk) as (j & [s0 sr0] & K1 & K2 & K3).
  destruct (L1 _ _ _ _ _ _ _ K1 K2 K3) as (q' & X). simpl in X. rewrite X, app_assoc. eexists. reflexivity.
Qed.

(** ** What a view shows *)

(** The last answer was Pending, or it has ended. *)
Definition complete {X} (outs : list (poll (option X))) : Prop := last_out outs Pending \/ In (Ready None) outs.

(** [m] keeps its promises: on answers as [oka] asks for, it does not panic and gives answers as [okb] says; and if
    its answers are complete, what they say is related by [Rm] to what its input has said. *)
Definition mirrors {A B XA XB} (m : mach A B) (oka : list A -> Prop) (vala : list A -> XA -> Prop) (okb : list B -> Prop) (valb : list B -> XB -> Prop)
  (Rm : XA -> XB -> Prop) : Prop :=
  forall script, oka (yielded script) -> forall n, exists st sr outs, run (mpoll m) n (minit m, fresh script) = Some ((st, sr), outs)
    /\ okb (yielded outs)
    /\ (complete outs -> forall x, vala (yielded (past sr)) x -> exists y, valb (yielded outs) y /\ Rm x y).

Definition denoted {C B X} (lok : list D -> Prop) (lval : list D -> C -> Prop) (p : pipe D B) (kok : list B -> Prop) (kval : list B -> X -> Prop) (R : C -> X -> Prop) : Prop :=
  lawful_pipe p /\ forall ps cg outs b, holds p ps cg outs b -> lok (yielded cg) ->
    kok (yielded outs)
    /\ (calm p ps -> complete outs -> forall c, lval (yielded cg) c -> exists x, kval (yielded outs) x /\ R c x)
    /\ ((is_source p = true \/ ~ In (Ready None) outs) -> forall closed ch, cgot ch = cg -> advance closed p ps ch <> None).

Lemma denoted_source {C X} (lok : list D -> Prop) (lval : list D -> C -> Prop) (kok : list D -> Prop) (kval : list D -> X -> Prop) (R : C -> X -> Prop) :
  (forall ds, lok ds -> kok ds) -> (forall ds c, lok ds -> lval ds c -> exists x, kval ds x /\ R c x) -> denoted lok lval PSource kok kval R.
Proof.
  intros H1 H2. split; [exact I|]. intros ps cg outs b Hh Hok. cbn [holds] in Hh. subst cg. split; [auto|]. split; [intros _ _ c; apply H2; exact Hok|].
  intros _ closed ch _. cbn [advance]. destruct (cpoll closed ch). discriminate.
Qed.

Lemma denoted_on {C A B XA XB} (lok : list D -> Prop) (lval : list D -> C -> Prop) (p : pipe D A) (oka : list A -> Prop) (vala : list A -> XA -> Prop) (R : C -> XA -> Prop)
  (m : mach A B) (okb : list B -> Prop) (valb : list B -> XB -> Prop) (Rm : XA -> XB -> Prop) :
  denoted lok lval p oka vala R -> on_demand m -> listens m -> ends m -> (is_source p = true \/ obeys m) -> mirrors m oka vala okb valb Rm ->
  denoted lok lval (POn m p) okb valb (fun c y => exists x, R c x /\ Rm x y).
Proof.
  intros (Lp & Hp) L1 L2 L3 L4 Hm. split; [cbn [lawful_pipe]; auto|].
  intros [[[st log] known] below] cg outs b; cbn [holds calm advance is_source]. intros (H1 & H2 & H3 & H4 & H5) Hok.
  destruct (Hp _ _ _ _ H5 Hok) as (P1 & P2 & P3).
  destruct (has_run_then m L1 _ _ _ known H1) as (k & Hk).
  destruct (Hm _ P1 k) as (st1 & sr1 & outs1 & Hr & M1 & M2). rewrite Hk in Hr. injection Hr as <- <- <-.
  split; [exact M1|]. split.
  - intros (-> & Hc) Hcomp c Hv. rewrite app_nil_r in *. simpl in M2.
    assert (Hlog : complete log).
    { destruct Hcomp as [(q & ->)|Hi].
      - destruct (run_unsnoc _ _ _ _ _ _ Hk) as (j & [s0 sr0] & K1 & K2 & K3).
        destruct (L2 _ _ _ _ _ _ _ K1 K2 K3) as [X|(q' & X)]; [right; exact X|left]. simpl in X. rewrite X, app_assoc. eexists. reflexivity.
      - right. exact (L3 _ _ _ _ _ Hk (run_end_last m k _ _ _ Hk Hi)). }
    destruct (P2 Hc Hlog c Hv) as (x & X1 & X2). destruct (M2 Hcomp x X1) as (y & Y1 & Y2). eauto.
  - intros [Hn|Hn] closed ch Hcg; [discriminate|].
    destruct (Hm _ P1 (S k)) as (st2 & sr2 & outs2 & Hr & _). pose proof (run_snoc _ _ _ _ _ Hk Hn) as Hr'.
    destruct (mpoll m (st, mkSrc log known)) as [[[st3 after] r]|] eqn:Em; [|rewrite Hr in Hr'; discriminate].
    destruct (Nat.ltb_spec (length log + length known) (length (past after))) as [Hl|Hl]; [|discriminate].
    assert (Hs : starved m st log known) by (exists st3, after, r; auto).
    assert (Ho : is_source p = true \/ ~ In (Ready None) (log ++ known)).
    { destruct L4 as [L4|L4]; [left; exact L4|right; exact (starved_open m L1 _ _ _ _ L4 H1 Hn Hs)]. }
    specialize (P3 Ho closed ch Hcg). destruct (advance closed p below ch) as [[[? ?] ?]|]; [discriminate|congruence].
Qed.

Lemma denoted_weaken {C B X} lok lval (p : pipe D B) kok (kval : list B -> X -> Prop) (R R' : C -> X -> Prop) :
  (forall c x, R c x -> R' c x) -> denoted lok lval p kok kval R -> denoted lok lval p kok kval R'.
Proof.
  intros HR (H1 & H2). split; [exact H1|]. intros ps cg outs b Hh Hl. destruct (H2 _ _ _ _ Hh Hl) as (A1 & A2 & A3).
  split; [exact A1|]. split; [|exact A3]. intros Hc Hcc c Hv. destruct (A2 Hc Hcc c Hv) as (x & ? & ?). eauto.
Qed.
End Pipe.
