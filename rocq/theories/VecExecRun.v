(** One poll of a pipeline (VecExec.v): every combinator in it is in the state that a run on the answers
    of its inputs gives. *)
From Verif Require Import Base Conc Spec BaseFacts LoopFacts VecDiff VecFacts VecSpec VecSimple Sort SortSpec
  Chain ChainFacts Slot SlotFacts MutVec MutVecSpec MutVecFacts MutVecRun VecExec VecExecFacts.

(** ** Runs of Chain *)
Section ChainRuns.
Context {V : Type}.
Notation ans := (poll (option (vecdiff V))).
Implicit Types st : chain_state V.

Definition lsrc st := snd (ch_left st).
Definition rsrc st := snd (ch_right st).

Lemma feed_self st : feed (todo (lsrc st)) (todo (rsrc st)) st = st.
Proof. destruct st as [[bl [pl tl]] [br [pr tr]] a b p]. reflexivity. Qed.

Lemma feed_feed l r l' r' st : feed l r (feed l' r' st) = feed l r st.
Proof. reflexivity. Qed.

Lemma chain_grow st st' o : chain_poll st = Some (st', o) ->
  (exists p, past (lsrc st') = past (lsrc st) ++ p) /\ (exists p, past (rsrc st') = past (rsrc st) ++ p).
Proof.
  rewrite <- (feed_self st) at 1. intros H. apply chain_demand in H. destruct H as [H1 H2]. split.
  - unfold lsrc. destruct (wants_left st); rewrite H1; cbn; [eauto|exists []; rewrite app_nil_r; reflexivity].
  - destruct H2 as [(u & _ & H & _)|(_ & p & H)]; unfold rsrc, log_of in *; rewrite H; eauto.
Qed.

Lemma chain_run_grow k : forall st st' outs, run chain_poll k st = Some (st', outs) ->
  (exists p, past (lsrc st') = past (lsrc st) ++ p) /\ (exists p, past (rsrc st') = past (rsrc st) ++ p).
Proof.
  induction k as [|k IH]; intros st st' outs H; simpl in H.
  - injection H as <- <-. split; exists []; rewrite app_nil_r; reflexivity.
  - destruct (chain_poll st) as [[s1 o]|] eqn:E; [|discriminate]. destruct (chain_grow _ _ _ E) as [[p Hp] [q Hq]].
    destruct o as [|[o|]].
    3:{ injection H as <- <-. eauto. }
    all: destruct (run chain_poll k s1) as [[s2 os]|] eqn:E2; [|discriminate]; injection H as <- <-;
         destruct (IH _ _ _ E2) as [[p' Hp'] [q' Hq']]; rewrite Hp', Hq', Hp, Hq, <- !app_assoc; eauto.
Qed.

(** A run that has read exactly its two scripts does the same on longer ones. *)
Lemma chain_run_more k : forall st l r st' outs, run chain_poll k (feed l r st) = Some (st', outs) ->
  lsrc st' = mkSrc (past (lsrc st) ++ l) [] -> rsrc st' = mkSrc (past (rsrc st) ++ r) [] ->
  forall l' r', run chain_poll k (feed (l ++ l') (r ++ r') st) = Some (feed l' r' st', outs).
Proof.
  induction k as [|k IH]; intros st l r st' outs H Hl Hr l' r'; cbn [run] in *.
  - injection H as <- <-. unfold lsrc, rsrc in Hl, Hr. cbn in Hl, Hr. injection Hl as _ ->. injection Hr as _ ->. reflexivity.
  - destruct (chain_poll (feed l r st)) as [[s1 o]|] eqn:E; [|discriminate].
    destruct (chain_demand _ _ _ _ _ E) as [HL HR].
    assert (G : (exists p, past (lsrc st) ++ l = past (lsrc s1) ++ p) /\ (exists p, past (rsrc st) ++ r = past (rsrc s1) ++ p)).
    { destruct o as [|[o|]].
      3:{ injection H as -> _. rewrite Hl, Hr. split; exists []; rewrite app_nil_r; reflexivity. }
      all: destruct (run chain_poll k s1) as [[s2 os]|] eqn:E2; [|discriminate]; injection H as -> _;
           destruct (chain_run_grow _ _ _ _ E2) as [[p Hp] [q Hq]]; rewrite Hl in Hp; rewrite Hr in Hq; cbn in Hp, Hq; eauto. }
    destruct G as [(p & Gl) (q & Gr)].
    destruct HR as [(u & H1 & H2 & H3)|(_ & x & H2)].
    2:{ exfalso. unfold log_of, rsrc in *. rewrite H2 in Gr. apply (f_equal (@length _)) in Gr. rewrite !app_length in Gr. simpl in Gr. lia. }
    assert (W : wants_left st = true -> exists a t, l = a :: t).
    { intros W. rewrite W in HL. destruct l as [|a t]; [|eauto]. exfalso. unfold lsrc in Gl. rewrite HL in Gl. cbn in Gl.
      apply (f_equal (@length _)) in Gl. rewrite !app_length in Gl. simpl in Gl. unfold log_of in Gl. lia. }
    change (r = u ++ todo (rsrc s1)) in H1. rewrite H1, <- app_assoc. rewrite (H3 (l ++ l') (todo (rsrc s1) ++ r')).
    2:{ intros Hw. destruct (W Hw) as (a & t & ->). reflexivity. }
    assert (X : (if wants_left st then tl (l ++ l') else l ++ l') = todo (lsrc s1) ++ l'
      /\ past (lsrc st) ++ l = past (lsrc s1) ++ todo (lsrc s1)).
    { unfold lsrc. destruct (wants_left st); rewrite HL; [|cbn; auto]. destruct (W eq_refl) as (a & t & ->). cbn.
      split; [reflexivity|]. unfold log_of. rewrite <- app_assoc. reflexivity. }
    destruct X as [X1 X2]. rewrite X1.
    assert (Y : past (rsrc st) ++ r = past (rsrc s1) ++ todo (rsrc s1)).
    { unfold rsrc, log_of in *. rewrite H1 at 1. rewrite H2, <- app_assoc. reflexivity. }
    destruct o as [|[o|]].
    3:{ injection H as -> <-. rewrite X2 in Hl. rewrite Y in Hr.
        assert (Zl : todo (lsrc st') = []) by (rewrite Hl; reflexivity). assert (Zr : todo (rsrc st') = []) by (rewrite Hr; reflexivity).
        rewrite Zl, Zr. reflexivity. }
    all: destruct (run chain_poll k s1) as [[s2 os]|] eqn:E2; [|discriminate]; injection H as -> <-;
         rewrite <- (feed_self s1) in E2; rewrite (IH _ _ _ _ _ E2); [reflexivity|congruence|congruence].
Qed.

(** The state of a Chain that has read exactly the answers it has noted. *)
Definition cran st (outs : list ans) : Prop :=
  todo (lsrc st) = [] /\ todo (rsrc st) = []
  /\ exists k, run chain_poll k (chain_init (log_of (ch_left st)) (log_of (ch_right st))) = Some (st, outs).

Lemma cran_then st outs kl kr : cran st outs -> ~ In (Ready None) outs -> exists k,
  run chain_poll k (chain_init (log_of (ch_left st) ++ kl) (log_of (ch_right st) ++ kr)) = Some (feed kl kr st, outs)
  /\ match chain_poll (feed kl kr st) with
     | None => run chain_poll (S k) (chain_init (log_of (ch_left st) ++ kl) (log_of (ch_right st) ++ kr)) = None
     | Some (st', o) => run chain_poll (S k) (chain_init (log_of (ch_left st) ++ kl) (log_of (ch_right st) ++ kr)) = Some (st', outs ++ [o])
     end.
Proof.
  intros (Hl & Hr & k & H) Hn. exists k.
  pose proof (chain_run_more k (chain_init [] []) (log_of (ch_left st)) (log_of (ch_right st)) st outs H) as X.
  assert (Y : run chain_poll k (chain_init (log_of (ch_left st) ++ kl) (log_of (ch_right st) ++ kr)) = Some (feed kl kr st, outs)).
  { apply X; unfold lsrc, rsrc, log_of in *.
    - destruct (snd (ch_left st)); cbn in *; subst; reflexivity.
    - destruct (snd (ch_right st)); cbn in *; subst; reflexivity. }
  split; [exact Y|]. apply run_snoc in Y; assumption.
Qed.

Lemma cran_snoc st outs kl kr st' r : cran st outs -> ~ In (Ready None) outs ->
  chain_poll (feed kl kr st) = Some (st', r) ->
  lsrc st' = mkSrc (log_of (ch_left st) ++ kl) [] -> rsrc st' = mkSrc (log_of (ch_right st) ++ kr) [] ->
  cran st' (outs ++ [r]).
Proof.
  intros Hc Hn E Hl Hr. destruct (cran_then st outs kl kr Hc Hn) as (k & _ & X). rewrite E in X.
  split; [rewrite Hl; reflexivity|]. split; [rewrite Hr; reflexivity|]. exists (S k). unfold log_of, lsrc, rsrc in *.
  rewrite Hl, Hr. exact X.
Qed.

(** *** The two fields *)
Definition slots_ok st : Prop := slot_ok (ch_left st) /\ slot_ok (ch_right st).

Lemma rc_right b st st' o : process_right_change b st = Some (st', o) ->
  ch_left st' = ch_left st
  /\ ch_right st' = match b with Some (Ready None) => drop_slot (ch_right st) | _ => ch_right st end.
Proof.
  destruct b as [[|[d|]]|]; cbn; intros H; try (injection H as <- <-; auto; fail).
  destruct d; cbn in H; try (injection H as <- <-; auto; fail).
  - destruct (ch_left_len st =? 0); injection H as <- <-; auto.
  - destruct (usub _ _); [|discriminate]. injection H as <- <-. auto.
  - destruct (usub _ _); [|discriminate]. injection H as <- <-. auto.
  - destruct (ch_left_len st =? 0); injection H as <- <-; auto.
Qed.

Lemma after_poll (sl : slot (option (vecdiff V))) : slot_ok sl ->
  slot_ok (match fst (poll_slot sl) with Some (Ready None) => drop_slot (snd (poll_slot sl)) | _ => snd (poll_slot sl) end).
Proof.
  intros H. apply poll_slot_ok in H as H'. destruct (poll_slot sl) as [[[|[d|]]|] sl']; cbn in *; try tauto.
  destruct H' as [-> _]. exact H.
Qed.

Lemma push_some_right b st st' : push_some (process_right_change b st) = Some st' ->
  ch_left st' = ch_left st
  /\ ch_right st' = match b with Some (Ready None) => drop_slot (ch_right st) | _ => ch_right st end.
Proof.
  unfold push_some. destruct (process_right_change b st) as [[s o]|] eqn:E; [|discriminate]. intros H. injection H as <-.
  apply rc_right in E. destruct o; exact E.
Qed.

Lemma replace_slots vs st st' o : slots_ok st -> process_replace vs st = Some (st', o) -> slots_ok st'.
Proof.
  intros [Hl Hr] H. apply after_poll in Hr. unfold process_replace, poll_right in H.
  destruct (poll_slot (ch_right st)) as [b sl]. cbn [fst snd] in Hr.
  assert (X : (exists v, b = Some (Ready (Some (Replace v))) /\ ch_left st' = ch_left st /\ ch_right st' = sl)
    \/ exists s3 s4, push_some (process_right_change b s3) = Some s4 /\ ch_left s3 = ch_left st /\ ch_right s3 = sl /\ s4 = st').
  { destruct (match b with Some (Ready (Some (Replace _))) => true | _ => false end) eqn:Eb.
    - left. destruct b as [[|[[]|]]|]; try discriminate. injection H as <- <-. eauto.
    - right. destruct (ch_right_len st =? 0) eqn:E0.
      all: match type of H with context [push_some (process_right_change ?b0 ?s0)] => idtac | _ => idtac end.
      all: destruct b as [[|[d|]]|]; try (destruct d); try discriminate; cbn -[push_some process_right_change] in H; rewrite E0 in H;
        match type of H with context [push_some (process_right_change ?b0 ?s0)] => destruct (push_some (process_right_change b0 s0)) as [s4|] eqn:E4; [|discriminate]; injection H as <- <-; exists s0, s4; auto end. }
  destruct X as [(v & -> & E1 & E2)|(s3 & s4 & E & E1 & E2 & <-)].
  - split; [rewrite E1; exact Hl|rewrite E2; exact Hr].
  - apply push_some_right in E. destruct E as [E3 E4]. split; [rewrite E3, E1; exact Hl|]. rewrite E4, E2.
    destruct b as [[|[|]]|]; exact Hr.
Qed.

Lemma clear_slots st st' o : slots_ok st -> process_clear st = Some (st', o) -> slots_ok st'.
Proof.
  intros [Hl Hr] H. apply after_poll in Hr. unfold process_clear, poll_right in H.
  destruct (poll_slot (ch_right st)) as [b sl]. cbn [fst snd] in Hr.
  assert (X : (b = Some (Ready (Some Clear)) /\ ch_left st' = ch_left st /\ ch_right st' = sl)
    \/ exists s3 s4, push_some (process_right_change b s3) = Some s4 /\ ch_left s3 = ch_left st /\ ch_right s3 = sl /\ s4 = st').
  { destruct (match b with Some (Ready (Some Clear)) => true | _ => false end) eqn:Eb.
    - left. destruct b as [[|[[]|]]|]; try discriminate. injection H as <- <-. eauto.
    - right. destruct (ch_right_len st =? 0) eqn:E0.
      all: destruct b as [[|[d|]]|]; try (destruct d); try discriminate; cbn -[push_some process_right_change] in H; rewrite E0 in H;
        match type of H with context [push_some (process_right_change ?b0 ?s0)] => destruct (push_some (process_right_change b0 s0)) as [s4|] eqn:E4; [|discriminate]; injection H as <- <-; exists s0, s4; auto end. }
  destruct X as [(-> & E1 & E2)|(s3 & s4 & E & E1 & E2 & <-)].
  - split; [rewrite E1; exact Hl|rewrite E2; exact Hr].
  - apply push_some_right in E. destruct E as [E3 E4]. split; [rewrite E3, E1; exact Hl|]. rewrite E4, E2.
    destruct b as [[|[|]]|]; exact Hr.
Qed.

Lemma left_slots st st' o : slots_ok st -> process_left st = Some (st', o) -> slots_ok st'.
Proof.
  intros [Hl Hr] H. apply after_poll in Hl. unfold process_left in H.
  destruct (poll_slot (ch_left st)) as [b sl]. cbn [fst snd] in Hl.
  destruct b as [[|[d|]]|].
  - injection H as <- <-. split; assumption.
  - assert (K : slots_ok (set_left sl st)) by (split; assumption).
    destruct d; cbn in H; try (injection H as <- <-; exact K).
    + exact (replace_slots _ _ _ _ K H).
    + destruct (usub _ _); [|discriminate]. injection H as <- <-. exact K.
    + destruct (ch_right_len st =? 0); injection H as <- <-; exact K.
    + destruct (usub _ _); [|discriminate]. destruct (ch_right_len st =? 0); injection H as <- <-; exact K.
    + exact (clear_slots _ _ _ K H).
  - injection H as <- <-. split; assumption.
  - injection H as <- <-. split; assumption.
Qed.

Lemma right_slots st st' o : slots_ok st -> process_right st = Some (st', o) -> slots_ok st'.
Proof.
  intros [Hl Hr] H. apply after_poll in Hr. unfold process_right, poll_right in H.
  destruct (poll_slot (ch_right st)) as [b sl]. cbn [fst snd] in Hr. apply rc_right in H. destruct H as [E1 E2].
  split; [rewrite E1; exact Hl|rewrite E2]. destruct b as [[|[|]]|]; exact Hr.
Qed.

Lemma poll_slots st st' o : slots_ok st -> chain_poll st = Some (st', o) ->
  slots_ok st' /\ (o = Ready None -> fst (ch_left st') = false /\ fst (ch_right st') = false).
Proof.
  intros Hs H. unfold chain_poll, pop_front in H.
  destruct (ch_pending st); [|injection H as <- <-; split; [exact Hs|discriminate]].
  destruct (process_left st) as [[s1 o1]|] eqn:E1; [|discriminate]. apply left_slots in E1; [|exact Hs].
  destruct o1; [injection H as <- <-; split; [exact E1|discriminate]|].
  destruct (ch_pending s1); [|injection H as <- <-; split; [exact E1|discriminate]].
  destruct (process_right s1) as [[s2 o2]|] eqn:E2; [|discriminate]. apply right_slots in E2; [|exact E1].
  destruct o2; [injection H as <- <-; split; [exact E2|discriminate]|].
  destruct (ch_pending s2); [|injection H as <- <-; split; [exact E2|discriminate]].
  destruct (fst (ch_left s2)) eqn:F1, (fst (ch_right s2)) eqn:F2; cbn in H; injection H as <- <-; split; auto; discriminate.
Qed.

Lemma run_slots k l r st outs : run chain_poll k (chain_init l r) = Some (st, outs) ->
  slots_ok st /\ (last_out outs (Ready None) -> ended (lsrc st) /\ ended (rsrc st)).
Proof.
  apply (run_inv_partial0 chain_poll (fun st outs => slots_ok st /\ (last_out outs (Ready None) -> ended (lsrc st) /\ ended (rsrc st)))).
  - split; [split; apply slot_ok_fresh|]. intros (p & H). destruct p; discriminate.
  - intros s os s' o [Hs _] _ E. destruct (poll_slots _ _ _ Hs E) as [Hs' He]. split; [exact Hs'|].
    intros H. apply last_out_snoc in H. destruct (He H) as [E1 E2]. split; apply Hs'; assumption.
Qed.

Lemma feed_slots l r st : slots_ok st -> slots_ok (feed l r st).
Proof. intros H. exact H. Qed.
End ChainRuns.

(** ** Pipelines *)
Lemma nodup_app {A} (a b : list A) : NoDup (a ++ b) -> NoDup a /\ NoDup b /\ forall x, In x a -> ~ In x b.
Proof.
  induction a as [|x a IH]; simpl; intros H; [split; [constructor|split; [exact H|intros ? []]]|].
  inversion H as [|? ? H1 H2]; subst. destruct (IH H2) as (I1 & I2 & I3). rewrite in_app_iff in H1. split; [|split; [exact I2|]].
  - constructor; tauto.
  - intros y [<-|Hy]; [tauto|exact (I3 y Hy)].
Qed.

Section PipeRuns.
Context {V : Type}.
Notation ans := (poll (option (vecdiff V))).
Implicit Types (s : sig V) (v : vecs V).

(** Every part of the pipeline is in the state that its inputs' answers give; [outs]: its answers. *)
Fixpoint ok v s (outs : list ans) : Prop :=
  match s with
  | GMut m id => exists x, nth_error (subs (v m)) id = Some x /\ alive x = true /\ got x = outs
  | GOne c st log s => ok v s log /\ VecExecFacts.ran (cpoll c) (cinit c) log st outs
  | GChain st s1 s2 => ok v s1 (log_of (ch_left st)) /\ ok v s2 (log_of (ch_right st)) /\ cran st outs
  end.

(** The same for a pipeline that has panicked: some part of it may have received further answers. *)
Fixpoint said v s (outs : list ans) : Prop :=
  match s with
  | GMut m id => exists x, nth_error (subs (v m)) id = Some x /\ alive x = true /\ got x = outs
  | GOne c st log s => said v s log /\ exists log0 known, log = log0 ++ known /\ VecExecFacts.ran (cpoll c) (cinit c) log0 st outs
  | GChain st s1 s2 => said v s1 (log_of (ch_left st)) /\ said v s2 (log_of (ch_right st))
      /\ exists st0 kl kr, cran st0 outs /\ log_of (ch_left st) = log_of (ch_left st0) ++ kl /\ log_of (ch_right st) = log_of (ch_right st0) ++ kr
  end.

Lemma ok_said v s : forall outs, ok v s outs -> said v s outs.
Proof.
  induction s as [m id|c st log s IH|st s1 IH1 s2 IH2]; intros outs; simpl; [auto| |].
  - intros [H1 H2]. split; [exact (IH _ H1)|]. exists log, []. rewrite app_nil_r. auto.
  - intros (H1 & H2 & H3). split; [exact (IH1 _ H1)|]. split; [exact (IH2 _ H2)|]. exists st, [], []. rewrite !app_nil_r. auto.
Qed.

Lemma ok_same v v' s : (forall m id x, In (m, id) (leaves s) -> nth_error (subs (v m)) id = Some x ->
    exists y, nth_error (subs (v' m)) id = Some y /\ alive y = alive x /\ got y = got x) ->
  forall outs, ok v s outs -> ok v' s outs.
Proof.
  induction s as [m id|c st log s IH|st s1 IH1 s2 IH2]; intros H outs; simpl in *.
  - intros (x & Hx & Ha & Hg). destruct (H m id x (or_introl eq_refl) Hx) as (y & Hy & Ha' & Hg'). exists y. split; [exact Hy|]. split; congruence.
  - intros [H1 H2]. split; [exact (IH H _ H1)|exact H2].
  - intros (H1 & H2 & H3). split; [|split; [|exact H3]].
    + apply IH1; [|exact H1]. intros m id x Hi. apply H. apply in_or_app. left. exact Hi.
    + apply IH2; [|exact H2]. intros m id x Hi. apply H. apply in_or_app. right. exact Hi.
Qed.

(** What polls of the subscribers [L] leave alone. *)
Record frame (L : list (nat * nat)) v v' : Prop := mkFrame {
  fr_inv : (forall m, inv (v m)) -> forall m, inv (v' m);
  fr_vals : forall m, values (v' m) = values (v m) /\ owners (v' m) = owners (v m) /\ poisoned (v' m) = poisoned (v m);
  fr_other : forall m id, ~ In (m, id) L -> nth_error (subs (v' m)) id = nth_error (subs (v m)) id;
  fr_len : forall m, length (subs (v' m)) = length (subs (v m)) }.

Lemma frame_refl L v : frame L v v.
Proof. constructor; auto. Qed.

Lemma frame_trans L v1 v2 v3 : frame L v1 v2 -> frame L v2 v3 -> frame L v1 v3.
Proof.
  intros [A1 B1 C1 D1] [A2 B2 C2 D2]. constructor.
  - auto.
  - intros m. destruct (B1 m) as (? & ? & ?), (B2 m) as (? & ? & ?). split; [|split]; congruence.
  - intros m id H. rewrite C2, C1; auto.
  - intros m. rewrite D2. apply D1.
Qed.

Lemma frame_sub L L' v v' : (forall l, In l L -> In l L') -> frame L v v' -> frame L' v v'.
Proof. intros H [A B C D]. constructor; auto. Qed.

Lemma ok_frame L v v' s outs : frame L v v' -> (forall l, In l (leaves s) -> ~ In l L) -> ok v s outs -> ok v' s outs.
Proof.
  intros F H. apply ok_same. intros m id x Hi Hx. exists x. rewrite (fr_other _ _ _ F); auto.
Qed.

(** Every subscriber of the list holds a waker or has ended. *)
Definition settled v (L : list (nat * nat)) : Prop :=
  forall m id, In (m, id) L -> exists x, nth_error (subs (v m)) id = Some x /\ (waiting x = true \/ In (Ready None) (got x)).

Lemma settled_frame L L' v v' : frame L' v v' -> (forall l, In l L -> ~ In l L') -> settled v L -> settled v' L.
Proof. intros F H Hs m id Hi. destruct (Hs m id Hi) as (x & Hx & Hw). exists x. rewrite (fr_other _ _ _ F); auto. Qed.

Lemma settled_app v L1 L2 : settled v L1 -> settled v L2 -> settled v (L1 ++ L2).
Proof. intros H1 H2 m id Hi. apply in_app_or in Hi. destruct Hi; auto. Qed.

Lemma poll_frame v m id x : nth_error (subs (v m)) id = Some x -> alive x = true ->
  frame [(m, id)] v (fupd m (mv_event (EPoll id) (v m)) v).
Proof.
  intros Hx Ha.
  assert (S : forall k, nth_error (subs (mv_event (EPoll id) (v m))) k = if k =? id then Some (fst (poll_sub (owners (v m) =? 0) x)) else nth_error (subs (v m)) k).
  { intros k. unfold mv_event. rewrite Hx, Ha. unfold set_sub. cbn [subs]. apply (nth_replace _ _ _ _ _ Hx). }
  constructor.
  - intros H k. unfold fupd. destruct (Nat.eqb_spec k m) as [->|n]; [apply event_inv|]; apply H.
  - intros k. unfold fupd. destruct (Nat.eqb_spec k m) as [->|n]; [|auto]. unfold mv_event. rewrite Hx, Ha. auto.
  - intros k i Hni. unfold fupd. destruct (Nat.eqb_spec k m) as [->|n]; [|reflexivity]. rewrite S.
    destruct (Nat.eqb_spec i id) as [->|n]; [|reflexivity]. exfalso. apply Hni. left. reflexivity.
  - intros k. unfold fupd. destruct (Nat.eqb_spec k m) as [->|n]; [|reflexivity].
    unfold mv_event. rewrite Hx, Ha. unfold set_sub. cbn [subs]. apply (length_replace _ _ _ _ Hx).
Qed.

(** *** What the answers say *)

Lemma run_end {St O} (m : St -> option (St * poll (option O))) k st st' outs : run m k st = Some (st', outs) ->
  In (Ready None) outs -> last_out outs (Ready None).
Proof.
  destruct outs as [|o outs _] using rev_ind; [intros _ []|]. intros H Hi. apply run_unsnoc in H. destruct H as (_ & _ & _ & Hn & _).
  apply in_app_or in Hi. destruct Hi as [Hi|[->|[]]]; [contradiction|]. eexists. reflexivity.
Qed.

Lemma ok_ended v s : forall outs, ok v s outs -> In (Ready None) outs ->
  forall m id, In (m, id) (leaves s) -> exists x, nth_error (subs (v m)) id = Some x /\ alive x = true /\ In (Ready None) (got x).
Proof.
  induction s as [m id|c st log s IH|st s1 IH1 s2 IH2]; intros outs Hok He m' id' Hi; simpl in *.
  - destruct Hok as (x & Hx & Ha & Hg). destruct Hi as [Hi|[]]. injection Hi as <- <-. exists x. rewrite Hg. auto.
  - destruct Hok as [H1 (k & H2)]. apply (IH log H1); [|exact Hi].
    destruct (c_wakes c _ _ _ _ _ H2) as (_ & [X _] & _). exact (X (run_end _ _ _ _ _ H2 He)).
  - destruct Hok as (H1 & H2 & _ & _ & k & H3). pose proof (run_end _ _ _ _ _ H3 He) as Hl.
    destruct (run_slots _ _ _ _ _ H3) as [_ X]. destruct (X Hl) as [E1 E2].
    apply in_app_or in Hi. destruct Hi as [Hi|Hi]; [apply (IH1 _ H1 E1)|apply (IH2 _ H2 E2)]; exact Hi.
Qed.

Lemma ok_good v s : (forall m, inv (v m)) -> forall outs, ok v s outs -> tame s -> good_vec_script outs.
Proof.
  intros Hv. induction s as [m id|c st log s IH|st s1 IH1 s2 IH2]; intros outs Hok Ht; simpl in *.
  - destruct Hok as (x & Hx & Ha & <-). destruct (Hv m) as [_ H]. destruct (H id x Hx Ha) as ((l & E & _) & _).
    unfold good_vec_script. apply (replay_prefix _ (queue x)). unfold total in E. rewrite E. discriminate.
  - destruct Hok as [H1 (k & H2)]. destruct Ht as [T1 T2].
    destruct (c_mirror c log (IH _ H1 T1) T2 k) as (st1 & sr1 & outs1 & l & E & _ & Hr & _).
    rewrite H2 in E. injection E as <- <- <-. exact Hr.
  - destruct Hok as (H1 & H2 & _ & _ & k & H3). destruct Ht as (T1 & T2 & _).
    destruct (chain_mirror _ _ (IH1 _ H1 T1) (IH2 _ H2 T2) k) as (st1 & outs1 & L & R & sh & E & _ & _ & Hr & _).
    rewrite H3 in E. injection E as <- <-. unfold good_vec_script. rewrite Hr. discriminate.
Qed.

(** *** Polling *)
Definition good_poll (pollin : sig V -> vecs V -> pres V) : Prop :=
  forall s v outs, (forall m, inv (v m)) -> ok v s outs -> ~ In (Ready None) outs -> NoDup (leaves s) ->
  match pollin s v with
  | POut => True
  | PPanic s' v' => ~ tame s' /\ leaves s' = leaves s /\ pipe_of s' = pipe_of s /\ frame (leaves s) v v' /\ said v' s' outs
  | POk s' v' r => ok v' s' (outs ++ [r]) /\ leaves s' = leaves s /\ pipe_of s' = pipe_of s /\ frame (leaves s) v v'
                   /\ (r = Pending -> tame s' -> settled v' (leaves s))
  end.

Lemma starved_iff (log known : list ans) (after : src (option (vecdiff V))) :
  starved log known after = true <-> length log + length known < length (past after).
Proof. unfold starved. apply Nat.ltb_lt. Qed.

Lemma drive_good pollin : good_poll pollin -> forall k c st log known s v outs,
  (forall m, inv (v m)) -> ok v s (log ++ known) -> VecExecFacts.ran (cpoll c) (cinit c) log st outs -> ~ In (Ready None) outs ->
  NoDup (leaves s) ->
  (known = [] \/ exists k0 a st1 sr1 r1, known = k0 ++ [a] /\ cpoll c (st, mkSrc log k0) = Some ((st1, sr1), r1) /\ starved log k0 sr1 = true) ->
  (forall k0, known = k0 ++ [Pending] -> tame s -> settled v (leaves s)) ->
  match drive pollin k c st log known s v with
  | POut => True
  | PPanic s' v' => ~ tame s' /\ leaves s' = leaves s /\ pipe_of s' = POne c (pipe_of s) /\ frame (leaves s) v v' /\ said v' s' outs
  | POk s' v' r => ok v' s' (outs ++ [r]) /\ leaves s' = leaves s /\ pipe_of s' = POne c (pipe_of s) /\ frame (leaves s) v v'
                   /\ (r = Pending -> tame s' -> settled v' (leaves s))
  end.
Proof.
  intros Hpoll. induction k as [|k IH]; intros c st log known s v outs Hv Hok Hran Hn Hnd Hk Hs;
    (assert (Hp : cpoll c (st, mkSrc log known) = None -> ~ (tame s /\ cgood c (log ++ known)));
     [intros E [T1 T2]; destruct Hran as (j & Hj); pose proof (ran_then _ (c_demand c) _ _ _ _ _ known Hj Hn) as X;
      rewrite E in X; destruct (c_mirror c (log ++ known) (ok_good v s Hv _ Hok T1) T2 (S j)) as (? & ? & ? & ? & E' & _); congruence|]);
    (assert (Hend : forall st' after r, cpoll c (st, mkSrc log known) = Some ((st', after), r) -> starved log known after = false ->
       after = mkSrc (log ++ known) []);
     [intros st' after r E Hst; destruct (c_demand c _ _ _ _ _ _ E) as [(u & E1 & E2 & E3)|(_ & E2 & _)];
      [|exfalso; apply Bool.not_true_iff_false in Hst; apply Hst, starved_iff; rewrite E2, !app_length; simpl; lia];
      assert (Htd : todo after = []);
      [|rewrite Htd, app_nil_r in E1; destruct after as [pa ta]; simpl in *; subst; reflexivity];
      destruct Hk as [->|(k0 & a & st1 & sr1 & r1 & -> & F1 & F2)];
      [symmetry in E1; apply app_eq_nil in E1; apply E1|];
      destruct (todo after) as [|y t _] using rev_ind; [reflexivity|];
      rewrite app_assoc in E1; apply app_inj_tail in E1; destruct E1 as [-> _];
      rewrite E3 in F1; injection F1 as _ <- _; apply starved_iff in F2; simpl in F2; rewrite !app_length in F2; lia|]);
    simpl; destruct (cpoll c (st, mkSrc log known)) as [[[st' after] r]|] eqn:E.
  all: try (split; [exact (Hp eq_refl)|]; split; [reflexivity|]; split; [reflexivity|]; split; [apply frame_refl|];
    split; [exact (ok_said _ _ _ Hok)|]; exists log, known; auto).
  all: destruct (starved log known after) eqn:Hst; try exact I.
  1, 3: rewrite (Hend _ _ _ eq_refl Hst) in E |- *; simpl; split; [split; [exact Hok|exact (ran_snoc _ (c_demand c) _ _ _ _ _ _ _ Hran Hn E)]|];
    split; [reflexivity|]; split; [reflexivity|]; split; [apply frame_refl|]; intros -> [T _];
    destruct (c_rearms c _ _ _ _ _ E) as (p & Ep); simpl in Ep; apply app_inv_head in Ep; exact (Hs p Ep T).
  (* the input is polled *)
  destruct (c_demand c _ _ _ _ _ _ E) as [(u & E1 & E2 & E3)|(-> & E2 & _)].
  { exfalso. apply starved_iff in Hst. rewrite E2, E1, !app_length in Hst. lia. }
  assert (Hne : ~ In (Ready None) (log ++ known)).
  { destruct Hran as (j & Hj). pose proof (ran_then _ (c_demand c) _ _ _ _ _ known Hj Hn) as X. rewrite E in X.
    destruct (c_wakes c _ _ _ _ _ X) as (_ & _ & O). rewrite E2 in O. intros Hi. apply in_split in Hi. destruct Hi as (a & b & Hab).
    specialize (O a (b ++ [Pending])). rewrite app_assoc, Hab, <- app_assoc in O. specialize (O eq_refl). destruct b; discriminate. }
  pose proof (Hpoll s v _ Hv Hok Hne Hnd) as X. destruct (pollin s v) as [|s1 v1|s1 v1 a]; [exact I| |].
  - destruct X as (X1 & X2 & X3 & X4 & X5). simpl. split; [intros [T _]; exact (X1 T)|]. split; [exact X2|]. split; [congruence|]. split; [exact X4|].
    split; [exact X5|]. exists log, known. auto.
  - destruct X as (X1 & X2 & X3 & X4 & X5). rewrite <- app_assoc in X1.
    specialize (IH c st log (known ++ [a]) s1 v1 outs (fr_inv _ _ _ X4 Hv) X1 Hran Hn). rewrite X2 in IH. specialize (IH Hnd).
    assert (Y1 : known ++ [a] = [] \/ exists k0 a0 st1 sr1 r1, known ++ [a] = k0 ++ [a0] /\ cpoll c (st, mkSrc log k0) = Some ((st1, sr1), r1) /\ starved log k0 sr1 = true).
    { right. exists known, a, st', after, Pending. auto. }
    assert (Y2 : forall k0, known ++ [a] = k0 ++ [Pending] -> tame s1 -> settled v1 (leaves s)).
    { intros k0 Hk0. apply app_inj_tail in Hk0. destruct Hk0 as [_ ->]. exact (X5 eq_refl). }
    specialize (IH Y1 Y2). destruct (drive pollin k c st log (known ++ [a]) s1 v1) as [|s2 v2|s2 v2 b]; [exact I| |].
    + destruct IH as (I1 & I2 & I3 & I4 & I5). split; [exact I1|]. split; [exact I2|]. split; [congruence|]. split; [exact (frame_trans _ _ _ _ X4 I4)|exact I5].
    + destruct IH as (I1 & I2 & I3 & I4 & I5). split; [exact I1|]. split; [exact I2|]. split; [congruence|]. split; [exact (frame_trans _ _ _ _ X4 I4)|exact I5].
Qed.

(** The two inputs have answered just what Chain asked for so far. *)
Definition asked (st : chain_state V) (kl kr : list ans) : Prop :=
  (kl = [] \/ wants_left st = true /\ exists a, kl = [a])
  /\ (kr = [] \/ (wants_left st = true -> kl <> []) /\ exists k0 a st1 r1, kr = k0 ++ [a]
        /\ chain_poll (feed kl k0 st) = Some (st1, r1) /\ starved (log_of (ch_right st)) k0 (rsrc st1) = true).

Lemma asked_all st kl kr st' r : asked st kl kr -> chain_poll (feed kl kr st) = Some (st', r) ->
  starved (log_of (ch_left st)) kl (lsrc st') = false -> starved (log_of (ch_right st)) kr (rsrc st') = false ->
  lsrc st' = mkSrc (log_of (ch_left st) ++ kl) [] /\ rsrc st' = mkSrc (log_of (ch_right st) ++ kr) [].
Proof.
  intros [Hl Hr] E Sl Sr. apply Bool.not_true_iff_false in Sl, Sr. rewrite starved_iff in Sl, Sr.
  destruct (chain_demand _ _ _ _ _ E) as [D1 D2]. fold (lsrc st') in D1. split.
  - destruct (wants_left st) eqn:W.
    + rewrite D1 in Sl |- *. cbn in Sl. destruct Hl as [->|(_ & a & ->)]; [|reflexivity].
      exfalso. apply Sl. rewrite app_length. simpl. lia.
    + rewrite D1. destruct Hl as [->|(Hl & _)]; [rewrite app_nil_r; reflexivity|discriminate].
  - destruct D2 as [(u & E1 & E2 & E3)|(_ & p & E2)].
    2:{ exfalso. apply Sr. unfold rsrc. unfold log_of in *. rewrite E2, !app_length. simpl. lia. }
    fold (rsrc st') in E1. unfold log_of in E2 at 1. fold (rsrc st') in E2.
    assert (Htd : todo (rsrc st') = []).
    2:{ rewrite Htd, app_nil_r in E1. destruct (rsrc st') as [pa ta]; simpl in *; subst; reflexivity. }
    destruct Hr as [->|(_ & k0 & a & st1 & r1 & -> & F1 & F2)].
    { symmetry in E1. apply app_eq_nil in E1. apply E1. }
    destruct (todo (rsrc st')) as [|y t _] using rev_ind; [reflexivity|].
    rewrite app_assoc in E1. apply app_inj_tail in E1. destruct E1 as [-> _].
    rewrite (E3 kl t) in F1 by reflexivity. injection F1 as <- _. apply starved_iff in F2. cbn in F2.
    change (length (log_of (ch_right st)) + length (u ++ t) < length (log_of (ch_right st'))) in F2.
    unfold log_of at 2 in F2. fold (rsrc st') in F2. rewrite E2, !app_length in F2. lia.
Qed.

Lemma drive2_good pollin : good_poll pollin -> forall k st kl kr s1 s2 v outs,
  (forall m, inv (v m)) -> ok v s1 (log_of (ch_left st) ++ kl) -> ok v s2 (log_of (ch_right st) ++ kr) ->
  cran st outs -> ~ In (Ready None) outs -> NoDup (leaves s1 ++ leaves s2) -> asked st kl kr ->
  (forall k0, kl = k0 ++ [Pending] -> tame s1 -> settled v (leaves s1)) ->
  (forall k0, kr = k0 ++ [Pending] -> tame s2 -> settled v (leaves s2)) ->
  match drive2 pollin k st kl kr s1 s2 v with
  | POut => True
  | PPanic s' v' => ~ tame s' /\ leaves s' = leaves s1 ++ leaves s2 /\ pipe_of s' = PChain (pipe_of s1) (pipe_of s2)
                    /\ frame (leaves s1 ++ leaves s2) v v' /\ said v' s' outs
  | POk s' v' r => ok v' s' (outs ++ [r]) /\ leaves s' = leaves s1 ++ leaves s2 /\ pipe_of s' = PChain (pipe_of s1) (pipe_of s2)
                   /\ frame (leaves s1 ++ leaves s2) v v' /\ (r = Pending -> tame s' -> settled v' (leaves s1 ++ leaves s2))
  end.
Proof.
  intros Hpoll. induction k as [|k IH]; intros st kl kr s1 s2 v outs Hv Ho1 Ho2 Hran Hn Hnd Hask Hs1 Hs2.
  all: assert (Hp : chain_poll (feed kl kr st) = None -> ~ tame (GChain (noted kl kr st) s1 s2));
    [intros E (T1 & T2 & _); destruct (cran_then st outs kl kr Hran Hn) as (j & _ & X); rewrite E in X;
     destruct (chain_mirror _ _ (ok_good v s1 Hv _ Ho1 T1) (ok_good v s2 Hv _ Ho2 T2) (S j)) as (? & ? & ? & ? & ? & E' & _); congruence|].
  all: assert (Hend : forall st' r, chain_poll (feed kl kr st) = Some (st', r) ->
       starved (log_of (ch_left st)) kl (lsrc st') = false -> starved (log_of (ch_right st)) kr (rsrc st') = false ->
       ok v (GChain st' s1 s2) (outs ++ [r]) /\ (r = Pending -> tame (GChain st' s1 s2) -> settled v (leaves s1 ++ leaves s2)));
    [intros st' r E Sl Sr; destruct (asked_all _ _ _ _ _ Hask E Sl Sr) as [El Er];
     assert (Ll : log_of (ch_left st') = log_of (ch_left st) ++ kl) by (unfold log_of at 1; fold (lsrc st'); rewrite El; reflexivity);
     assert (Lr : log_of (ch_right st') = log_of (ch_right st) ++ kr) by (unfold log_of at 1; fold (rsrc st'); rewrite Er; reflexivity);
     split; [simpl; rewrite Ll, Lr; split; [exact Ho1|]; split; [exact Ho2|exact (cran_snoc _ _ _ _ _ _ Hran Hn E El Er)]|];
     intros -> (T1 & T2 & N1 & N2); rewrite Ll in N1; rewrite Lr in N2; destruct (cran_then st outs kl kr Hran Hn) as (j & X & _);
     destruct (chain_wakes _ _ (ok_good v s1 Hv _ Ho1 T1) (ok_good v s2 Hv _ Ho2 T2) N1 N2 _ _ _ _ X Hn E) as [W1 W2];
     unfold listening, ended, armed in W1, W2; fold (lsrc st') in W1; fold (rsrc st') in W2; rewrite El in W1; rewrite Er in W2; cbn in W1, W2;
     apply settled_app;
     [destruct W1 as [W|(p & W)]; [intros m id Hi; destruct (ok_ended v s1 _ Ho1 W m id Hi) as (x & Hx & _ & He); eauto|]
     |destruct W2 as [W|(p & W)]; [intros m id Hi; destruct (ok_ended v s2 _ Ho2 W m id Hi) as (x & Hx & _ & He); eauto|]];
     apply app_inv_head in W; [exact (Hs1 p W T1)|exact (Hs2 p W T2)]|].
  all: cbn [drive2]; destruct (chain_poll (feed kl kr st)) as [[st' r]|] eqn:E;
    [|split; [exact (Hp eq_refl)|]; split; [reflexivity|]; split; [reflexivity|]; split; [apply frame_refl|];
      split; [exact (ok_said _ _ _ Ho1)|]; split; [exact (ok_said _ _ _ Ho2)|]; exists st, kl, kr; auto].
  all: fold (lsrc st') (rsrc st'); destruct (starved (log_of (ch_left st)) kl (lsrc st')) eqn:Sl;
    [|destruct (starved (log_of (ch_right st)) kr (rsrc st')) eqn:Sr;
      [|destruct (Hend _ _ eq_refl Sl Sr) as [X1 X2]; split; [exact X1|]; split; [reflexivity|]; split; [reflexivity|];
        split; [apply frame_refl|exact X2]]].
  all: try exact I.
  - (* the left one is polled *)
    destruct (chain_demand _ _ _ _ _ E) as [D1 _]. fold (lsrc st') in D1. apply starved_iff in Sl.
    destruct Hask as [A1 A2].
    assert (W : wants_left st = true /\ kl = []).
    { destruct (wants_left st); rewrite D1 in Sl; cbn in Sl; [|lia]. split; [reflexivity|].
      destruct A1 as [->|(_ & a & ->)]; [reflexivity|]. cbn in Sl. rewrite app_length in Sl. simpl in Sl. lia. }
    destruct W as [W ->].
    assert (Kr : kr = []). { destruct A2 as [->|(A2 & _)]; [reflexivity|]. exfalso. exact (A2 W eq_refl). }
    subst kr.
    assert (Hne : ~ In (Ready None) (log_of (ch_left st) ++ [])).
    { rewrite app_nil_r. destruct Hran as (_ & _ & j & Hj). destruct (run_slots _ _ _ _ _ Hj) as [[[_ [_ X]] _] _].
      intros Hi. specialize (X Hi). unfold wants_left in W. rewrite X in W. discriminate. }
    pose proof (proj1 (nodup_app _ _ Hnd)) as Hnd1.
    pose proof (Hpoll s1 v _ Hv Ho1 Hne Hnd1) as X. destruct (pollin s1 v) as [|s1' v1|s1' v1 a]; [exact I| |].
    + destruct X as (X1 & X2 & X3 & X4 & X5). simpl. split; [intros [T _]; exact (X1 T)|]. split; [congruence|]. split; [congruence|].
      split; [apply (frame_sub (leaves s1)); [|exact X4]; intros l Hl; apply in_or_app; left; exact Hl|].
      split; [exact X5|]. split; [|exists st, [], []; auto]. apply ok_said. apply (ok_frame _ _ _ _ _ X4); [|exact Ho2].
      intros l H2 H1. exact (proj2 (proj2 (nodup_app _ _ Hnd)) l H1 H2).
    + destruct X as (X1 & X2 & X3 & X4 & X5). rewrite app_nil_r in X1.
      assert (F : frame (leaves s1 ++ leaves s2) v v1).
      { apply (frame_sub (leaves s1)); [|exact X4]. intros l Hl. apply in_or_app. left. exact Hl. }
      assert (Dj : forall l, In l (leaves s2) -> ~ In l (leaves s1)).
      { intros l H2 H1. exact (proj2 (proj2 (nodup_app _ _ Hnd)) l H1 H2). }
      specialize (IH st [a] [] s1' s2 v1 outs (fr_inv _ _ _ F Hv) X1 (ok_frame _ _ _ _ _ X4 Dj Ho2) Hran Hn).
      rewrite X2 in IH. specialize (IH Hnd).
      assert (Y1 : asked st [a] []) by (split; [right; eauto|left; reflexivity]).
      assert (Y2 : forall k0, [a] = k0 ++ [Pending] -> tame s1' -> settled v1 (leaves s1)).
      { intros k0 Hk0. apply (app_inj_tail []) in Hk0. destruct Hk0 as [_ ->]. exact (X5 eq_refl). }
      assert (Y3 : forall k0 : list ans, [] = k0 ++ [Pending] -> tame s2 -> settled v1 (leaves s2)) by (intros [|? ?] H0; discriminate).
      specialize (IH Y1 Y2 Y3). cbn [app]. destruct (drive2 pollin k st [a] [] s1' s2 v1) as [|s' v'|s' v' b]; [exact I| |].
      * destruct IH as (I1 & I2 & I3 & I4 & I5). split; [exact I1|]. split; [exact I2|]. split; [congruence|]. split; [exact (frame_trans _ _ _ _ F I4)|exact I5].
      * destruct IH as (I1 & I2 & I3 & I4 & I5). split; [exact I1|]. split; [exact I2|]. split; [congruence|]. split; [exact (frame_trans _ _ _ _ F I4)|exact I5].
  - (* the right one is polled *)
    destruct (chain_demand _ _ _ _ _ E) as [D1 D2]. fold (lsrc st') in D1.
    assert (P : exists p, log_of (ch_right st') = (log_of (ch_right st) ++ kr) ++ Pending :: p).
    { destruct D2 as [(u & E1 & E2 & _)|(_ & p & E2)].
      - exfalso. apply starved_iff in Sr. unfold rsrc in Sr. unfold log_of in E2 at 1. rewrite E2, E1, !app_length in Sr. lia.
      - exists p. rewrite E2, app_assoc. reflexivity. }
    assert (Wl : wants_left st = true -> kl <> []).
    { intros W ->. rewrite W in D1. apply Bool.not_true_iff_false in Sl. apply Sl. apply starved_iff. rewrite D1. cbn.
      rewrite app_length. simpl. lia. }
    assert (Hne : ~ In (Ready None) (log_of (ch_right st) ++ kr)).
    { destruct P as (p & P). destruct Hran as (_ & _ & j & Hj). destruct (run_slots _ _ _ _ _ Hj) as [Hsl _].
      destruct (poll_slots _ _ _ (feed_slots kl kr st Hsl) E) as [[_ [O _]] _]. fold (log_of (ch_right st')) in O. rewrite P in O.
      intros Hi. apply in_split in Hi. destruct Hi as (x & y & Hxy). rewrite Hxy, <- app_assoc in O. specialize (O _ _ eq_refl). destruct y; discriminate. }
    assert (Dj : forall l, In l (leaves s1) -> ~ In l (leaves s2)).
    { exact (proj2 (proj2 (nodup_app _ _ Hnd))). }
    pose proof (proj1 (proj2 (nodup_app _ _ Hnd))) as Hnd2.
    pose proof (Hpoll s2 v _ Hv Ho2 Hne Hnd2) as X. destruct (pollin s2 v) as [|s2' v1|s2' v1 a]; [exact I| |].
    + destruct X as (X1 & X2 & X3 & X4 & X5). simpl. split; [intros (_ & T & _); exact (X1 T)|]. split; [congruence|]. split; [congruence|].
      split; [apply (frame_sub (leaves s2)); [|exact X4]; intros l Hl; apply in_or_app; right; exact Hl|].
      split; [exact (ok_said _ _ _ (ok_frame _ _ _ _ _ X4 Dj Ho1))|]. split; [exact X5|]. exists st, kl, kr. auto.
    + destruct X as (X1 & X2 & X3 & X4 & X5). rewrite <- app_assoc in X1.
      assert (F : frame (leaves s1 ++ leaves s2) v v1).
      { apply (frame_sub (leaves s2)); [|exact X4]. intros l Hl. apply in_or_app. right. exact Hl. }
      specialize (IH st kl (kr ++ [a]) s1 s2' v1 outs (fr_inv _ _ _ F Hv) (ok_frame _ _ _ _ _ X4 Dj Ho1) X1 Hran Hn).
      rewrite X2 in IH. specialize (IH Hnd).
      assert (Y1 : asked st kl (kr ++ [a])).
      { split; [apply Hask|]. right. split; [exact Wl|]. exists kr, a, st', r. auto. }
      assert (Y2 : forall k0, kl = k0 ++ [Pending] -> tame s1 -> settled v1 (leaves s1)).
      { intros k0 Hk0 T. exact (settled_frame _ _ _ _ X4 Dj (Hs1 k0 Hk0 T)). }
      assert (Y3 : forall k0, kr ++ [a] = k0 ++ [Pending] -> tame s2' -> settled v1 (leaves s2)).
      { intros k0 Hk0. apply app_inj_tail in Hk0. destruct Hk0 as [_ ->]. exact (X5 eq_refl). }
      specialize (IH Y1 Y2 Y3). destruct (drive2 pollin k st kl (kr ++ [a]) s1 s2' v1) as [|s' v'|s' v' b]; [exact I| |].
      * destruct IH as (I1 & I2 & I3 & I4 & I5). split; [exact I1|]. split; [exact I2|]. split; [congruence|]. split; [exact (frame_trans _ _ _ _ F I4)|exact I5].
      * destruct IH as (I1 & I2 & I3 & I4 & I5). split; [exact I1|]. split; [exact I2|]. split; [congruence|]. split; [exact (frame_trans _ _ _ _ F I4)|exact I5].
Qed.

Lemma poll_sig_good n : good_poll (poll_sig n).
Proof.
  induction n as [|n IH]; intros s v outs Hv Hok Hn Hnd; [exact I|]. destruct s as [m id|c st log s|st s1 s2]; cbn [poll_sig].
  - destruct Hok as (x & Hx & Ha & Hg). rewrite Hx. destruct (poll_one (v m) id x Hx Ha) as (P1 & _).
    split.
    { exists (fst (poll_sub (owners (v m) =? 0) x)). rewrite fupd_same. split; [exact P1|]. rewrite alive_poll, got_poll, Hg. auto. }
    split; [reflexivity|]. split; [reflexivity|]. split; [exact (poll_frame v m id x Hx Ha)|].
    intros Hp _ m' id' [Hi|[]]. injection Hi as <- <-. rewrite fupd_same, P1. eexists. split; [reflexivity|]. left.
    unfold poll_sub in *. destruct (queue x); [|discriminate]. destruct (owners (v m) =? 0); [discriminate|reflexivity].
  - destruct Hok as [H1 H2]. apply (drive_good (poll_sig n) IH n c st log [] s v outs); auto.
    + rewrite app_nil_r. exact H1.
    + intros [|] H; discriminate.
  - destruct Hok as (H1 & H2 & H3). apply (drive2_good (poll_sig n) IH n st [] [] s1 s2 v outs); auto.
    + rewrite app_nil_r. exact H1.
    + rewrite app_nil_r. exact H2.
    + split; left; reflexivity.
    + intros [|] H; discriminate.
    + intros [|] H; discriminate.
Qed.

(** *** What a pipeline shows *)
Lemma ended_last (log : list ans) : obeys_end log -> In (Ready None) log -> last_out log (Ready None).
Proof. intros O Hi. apply in_split in Hi. destruct Hi as (p & q & ->). rewrite (O p q eq_refl). eexists. reflexivity. Qed.

Definition done (outs : list ans) : Prop := last_out outs Pending \/ last_out outs (Ready None).

Lemma cran_done (st : chain_state V) outs : cran st outs -> done outs ->
  good_vec_script (log_of (ch_left st)) -> good_vec_script (log_of (ch_right st)) ->
  never_empties_empty (yielded (log_of (ch_left st))) -> never_empties_empty (yielded (log_of (ch_right st))) ->
  done (log_of (ch_left st)) /\ done (log_of (ch_right st)).
Proof.
  intros (_ & _ & k & Hk) Hd Gl Gr Nl Nr. destruct (run_slots _ _ _ _ _ Hk) as [[[Ol _] [Or _]] He].
  assert (X : (ended (lsrc st) \/ last_out (log_of (ch_left st)) Pending) /\ (ended (rsrc st) \/ last_out (log_of (ch_right st)) Pending)).
  { destruct Hd as [(p & ->)|Hd].
    - destruct (run_unsnoc _ _ _ _ _ _ Hk) as (j & st0 & H1 & H2 & H3).
      destruct (chain_wakes _ _ Gl Gr Nl Nr _ _ _ _ H1 H2 H3) as [W1 W2]. split.
      + destruct W1 as [W|(q & W)]; [left; exact W|right]. exists (past (snd (ch_left st0)) ++ q). unfold log_of. rewrite W, app_assoc. reflexivity.
      + destruct W2 as [W|(q & W)]; [left; exact W|right]. exists (past (snd (ch_right st0)) ++ q). unfold log_of. rewrite W, app_assoc. reflexivity.
    - destruct (He Hd); auto. }
  destruct X as [[X1|X1] [X2|X2]]; split; first [left; assumption|right; apply ended_last; assumption].
Qed.

Lemma ok_shows v s : (forall m, inv (v m)) -> forall outs, ok v s outs -> tame s ->
  (forall m id x, In (m, id) (leaves s) -> nth_error (subs (v m)) id = Some x -> poisoned (v m) = false /\ queue x = []) ->
  done outs -> exists out, replay (yielded outs) = Some out /\ shows (fun m => values (v m)) s out.
Proof.
  intros Hv. induction s as [m id|c st log s IH|st s1 IH1 s2 IH2]; intros outs Hok Ht Hq Hd; simpl in *.
  - destruct Hok as (x & Hx & Ha & <-). destruct (Hq m id x (or_introl eq_refl) Hx) as [Hp Hqx].
    destruct (Hv m) as [_ H]. destruct (H id x Hx Ha) as ((l & E & El) & _). exists l. unfold total in E. rewrite Hqx, app_nil_r in E.
    split; [exact E|exact (El Hp)].
  - destruct Hok as [H1 (k & H2)]. destruct Ht as [T1 T2].
    destruct (c_wakes c _ _ _ _ _ H2) as (W1 & W2 & W3).
    assert (Hd' : done log).
    { destruct Hd as [Hd|Hd]; [left; exact (W1 Hd)|right]. apply ended_last; [exact W3|]. apply W2. exact Hd. }
    destruct (IH log H1 T1 Hq Hd') as (l0 & E0 & S0).
    destruct (c_mirror c log (ok_good v s Hv _ H1 T1) T2 k) as (st1 & sr1 & outs1 & l & E & Hc & _ & Hm).
    rewrite H2 in E. injection E as <- <- <-. destruct (Hm Hd) as (out & Ho & Hmean).
    exists out. split; [exact Ho|]. exists l. split; [|exact Hmean]. change (replay (yielded log) = Some l) in Hc. rewrite E0 in Hc. injection Hc as <-. exact S0.
  - destruct Hok as (H1 & H2 & H3). destruct Ht as (T1 & T2 & N1 & N2).
    pose proof (ok_good v s1 Hv _ H1 T1) as G1. pose proof (ok_good v s2 Hv _ H2 T2) as G2.
    destruct (cran_done st outs H3 Hd G1 G2 N1 N2) as [D1 D2].
    destruct (IH1 _ H1 T1) as (l1 & E1 & S1); [|exact D1|].
    { intros m id x Hi. apply Hq. apply in_or_app. left. exact Hi. }
    destruct (IH2 _ H2 T2) as (l2 & E2 & S2); [|exact D2|].
    { intros m id x Hi. apply Hq. apply in_or_app. right. exact Hi. }
    destruct H3 as (_ & _ & k & Hk).
    destruct (chain_mirror _ _ G1 G2 k) as (st1 & outs1 & L & R & sh & E & CL & CR & Hr & Hs & _).
    rewrite Hk in E. injection E as <- <-. exists sh. split; [exact Hr|]. exists l1, l2. split; [exact S1|]. split; [exact S2|].
    rewrite (Hs Hd). unfold conveyed in CL, CR. unfold log_of in E1, E2. congruence.
Qed.

(** *** Making a pipeline *)
Lemma build_ok p : forall v s v' n, build p v = (s, v') -> closed n v p = true -> (forall m, inv (v m)) ->
  ok v' s [] /\ pipe_of s = p /\ NoDup (leaves s) /\ (forall m, inv (v' m))
  /\ (forall m id, In (m, id) (leaves s) -> length (subs (v m)) <= id < length (subs (v' m)))
  /\ (forall m id x, nth_error (subs (v m)) id = Some x -> nth_error (subs (v' m)) id = Some x)
  /\ (forall m, values (v' m) = values (v m) /\ owners (v' m) = owners (v m) /\ poisoned (v' m) = poisoned (v m))
  /\ (forall m id, In (m, id) (leaves s) -> m < n).
Proof.
  induction p as [m|c p IH|p IH1 q IH2]; intros v s v' n E Hc Hv; cbn [build closed] in *.
  - pose proof (f_equal fst E) as E1. pose proof (f_equal snd E) as E2. cbn [fst snd] in E1, E2. subst s v'. clear E.
    apply andb_prop in Hc. destruct Hc as [Hc Hp]. apply andb_prop in Hc. destruct Hc as [Hm Ho].
    apply Nat.ltb_lt in Hm.
    assert (Es : mv_event ESubscribe (v m) = mv_subscribe (v m)) by (unfold mv_event; rewrite Ho, Hp; reflexivity).
    split.
    { cbn [ok]. rewrite fupd_same, Es. eexists. cbn [mv_subscribe subs]. rewrite snoc_new. split; [reflexivity|]. auto. }
    split; [reflexivity|]. split; [constructor; [intros []|constructor]|]. split; [|split; [|split; [|split]]].
    + intros k. unfold fupd. destruct (Nat.eqb_spec k m) as [->|n0]; [apply event_inv|]; apply Hv.
    + intros m' id [Hi|[]]. injection Hi as <- <-. rewrite fupd_same, Es. cbn. rewrite app_length. simpl. lia.
    + intros k id x Hx. unfold fupd. destruct (Nat.eqb_spec k m) as [->|n0]; [|exact Hx]. rewrite Es. cbn. apply snoc_old. exact Hx.
    + intros k. unfold fupd. destruct (Nat.eqb_spec k m) as [->|n0]; [|auto]. rewrite Es. auto.
    + intros m' id [Hi|[]]. injection Hi as <- <-. exact Hm.
  - destruct (build p v) as [s1 v1] eqn:E1. injection E as <- <-.
    destruct (IH _ _ _ _ E1 Hc Hv) as (H1 & H2 & H3 & H4 & H5 & H6 & H7 & H8).
    split; [split; [exact H1|exists 0; reflexivity]|]. split; [simpl; congruence|]. auto 10.
  - destruct (build p v) as [s1 v1] eqn:E1. destruct (build q v1) as [s2 v2] eqn:E2. injection E as <- <-.
    apply andb_prop in Hc. destruct Hc as [Hc1 Hc2].
    destruct (IH1 _ _ _ _ E1 Hc1 Hv) as (H1 & H2 & H3 & H4 & H5 & H6 & H7 & H8).
    assert (Hc2' : closed n v1 q = true).
    { clear - Hc2 H7. induction q as [m|c q IHq|q1 IHq1 q2 IHq2]; cbn [closed] in *; [|auto|].
      - destruct (H7 m) as (_ & -> & ->). exact Hc2.
      - apply andb_prop in Hc2. rewrite IHq1, IHq2; [reflexivity|apply Hc2|apply Hc2]. }
    destruct (IH2 _ _ _ _ E2 Hc2' H4) as (K1 & K2 & K3 & K4 & K5 & K6 & K7 & K8).
    split; [split; [|split; [exact K1|]]|].
    + cbn. apply (ok_same v1); [|exact H1]. intros m id x _ Hx. exists x. auto.
    + split; [reflexivity|]. split; [reflexivity|]. exists 0. reflexivity.
    + split; [simpl; congruence|]. split; [|split; [exact K4|split; [|split; [|split]]]].
      * cbn. clear - H3 K3 H5 K5. induction (leaves s1) as [|[m id] t IHt]; [exact K3|]. inversion H3; subst. cbn. constructor.
        -- intros Hi. apply in_app_or in Hi. destruct Hi as [Hi|Hi]; [contradiction|]. specialize (K5 _ _ Hi).
           destruct (H5 m id (or_introl eq_refl)). lia.
        -- apply IHt; [exact H2|]. intros m' id' Hi. apply H5. right. exact Hi.
      * assert (G1 : forall m, length (subs (v m)) <= length (subs (v1 m))).
        { intros m. destruct (Nat.le_gt_cases (length (subs (v m))) (length (subs (v1 m)))) as [L|L]; [exact L|].
          destruct (nth_error (subs (v m)) (length (subs (v1 m)))) as [x|] eqn:Ex; [|apply nth_error_None in Ex; lia].
          apply H6 in Ex. assert (nth_error (subs (v1 m)) (length (subs (v1 m))) <> None) by congruence. apply nth_error_Some in H. lia. }
        assert (G2 : forall m, length (subs (v1 m)) <= length (subs (v2 m))).
        { intros m. destruct (Nat.le_gt_cases (length (subs (v1 m))) (length (subs (v2 m)))) as [L|L]; [exact L|].
          destruct (nth_error (subs (v1 m)) (length (subs (v2 m)))) as [x|] eqn:Ex; [|apply nth_error_None in Ex; lia].
          apply K6 in Ex. assert (nth_error (subs (v2 m)) (length (subs (v2 m))) <> None) by congruence. apply nth_error_Some in H. lia. }
        intros m id Hi. cbn in Hi. apply in_app_or in Hi. specialize (G1 m). specialize (G2 m).
        destruct Hi as [Hi|Hi]; [apply H5 in Hi|apply K5 in Hi]; lia.
      * auto.
      * intros m. destruct (H7 m) as (? & ? & ?), (K7 m) as (? & ? & ?). split; [|split]; congruence.
      * intros m id Hi. cbn in Hi. apply in_app_or in Hi. destruct Hi as [Hi|Hi]; [exact (H8 _ _ Hi)|exact (K8 _ _ Hi)].
Qed.
End PipeRuns.
