(** Proofs about from_future, from_stream, always, first, option, result, sample_stream. *)
From Verif Require Import Base Spec BaseFacts LoopFacts Slot SlotFacts SigFacts SigSlots.

(** ** Futures: answers and completion *)
Lemma results_app {X} (a b : list (poll X)) : results (a ++ b) = results a ++ results b.
Proof.
  induction a as [|[|x] a IH]; simpl; rewrite ?IH; reflexivity.
Qed.

Lemma obeys_completion_nil {X} : @obeys_completion X [].
Proof. intros p a q H. destruct p; discriminate. Qed.

Lemma obeys_completion_snoc {X} (rs : list (poll X)) r :
  results rs = [] -> obeys_completion (rs ++ [r]).
Proof.
  intros Hn p a q H. destruct q as [|z q]; [reflexivity|].
  exfalso. destruct (@exists_last _ (z :: q)) as (q' & y & E); [discriminate|].
  rewrite E in H. rewrite app_comm_cons, app_assoc in H.
  apply app_inj_tail in H. destruct H as [H _].
  rewrite H, results_app in Hn. apply app_eq_nil in Hn. destruct Hn as [_ Hn]. discriminate.
Qed.

Lemma obeys_completion_none {X} (rs : list (poll X)) : results rs = [] -> obeys_completion rs.
Proof.
  intros Hn p a q ->. rewrite results_app in Hn. apply app_eq_nil in Hn.
  destruct Hn as [_ Hn]. discriminate.
Qed.

Lemma results_pending {X} (rs : list (poll X)) : results (rs ++ [Pending]) = results rs.
Proof. rewrite results_app. simpl. apply app_nil_r. Qed.

(** One poll of a future that has not completed. *)
Lemma poll_src_cases {X} (sr : src X) :
  exists r sr', poll_src sr = (r, sr') /\ past sr' = past sr ++ [r]
    /\ (todo sr = [] -> r = Pending) /\ (forall x t, todo sr = x :: t -> r = x /\ todo sr' = t).
Proof.
  unfold poll_src. destruct (todo sr) as [|x t].
  - do 2 eexists. split; [reflexivity|]. simpl. split; [reflexivity|]. split; [reflexivity|discriminate].
  - do 2 eexists. split; [reflexivity|]. simpl. split; [reflexivity|]. split; [discriminate|].
    intros y t' [= -> ->]. auto.
Qed.

(** ** from_future *)
Definition ff_shows {A} (rs : list (poll A)) : list (option A) :=
  match rs with
  | Pending :: _ => [None]
  | _ => []
  end ++ map Some (results rs).

Definition ff_inv {A} (st : ff_state A) (outs : list (poll (option (option A)))) : Prop :=
  let fut := snd (ff_future st) in
  obeys_completion (past fut)
  /\ (fst (ff_future st) = true -> results (past fut) = [])
  /\ (fst (ff_future st) = false -> results (past fut) <> [])
  /\ (ff_first st = true -> past fut = [] \/ fst (ff_future st) = false)
  /\ (ff_first st = false -> exists t, past fut = Pending :: t)
  /\ yielded outs = ff_shows (past fut)
  /\ (last_out outs Pending -> awaits fut)
  /\ (last_out outs (Ready None) -> results (past fut) <> []).

Lemma ff_inv_step {A} (st : ff_state A) outs : ff_inv st outs ->
  exists st' o, from_future_poll st = Some (st', o) /\ ff_inv st' (outs ++ [o]).
Proof.
  destruct st as [[live fut] first]. intros (Hoc & Hl & Hd & Hf1 & Hf0 & Hy & _ & _).
  cbn [ff_future ff_first fst snd] in *. unfold from_future_poll. cbn [ff_future ff_first poll_slot].
  destruct live.
  - specialize (Hl eq_refl). destruct (poll_src_cases fut) as (r & fut' & E & Hp & _ & _). rewrite E.
    destruct r as [|a].
    + destruct first.
      * destruct (Hf1 eq_refl) as [Hnil|]; [|discriminate].
        do 2 eexists. split; [reflexivity|]. unfold ff_inv. cbn [ff_future ff_first fst snd].
        rewrite !last_out_snoc, Hp, yielded_app, Hy, results_pending.
        split; [apply obeys_completion_snoc; exact Hl|]. split; [auto|]. split; [discriminate|].
        split; [discriminate|]. split; [intros _; rewrite Hnil; eexists; reflexivity|].
        split; [|split; discriminate].
        rewrite Hnil. reflexivity.
      * destruct (Hf0 eq_refl) as (t & Ht).
        do 2 eexists. split; [reflexivity|]. unfold ff_inv. cbn [ff_future ff_first fst snd].
        rewrite !last_out_snoc, Hp, yielded_app, Hy, results_pending.
        split; [apply obeys_completion_snoc; exact Hl|]. split; [auto|]. split; [discriminate|].
        split; [discriminate|]. split; [intros _; rewrite Ht; eexists; reflexivity|].
        split; [|split; [|discriminate]].
        -- unfold ff_shows. rewrite results_pending, Ht. simpl. rewrite app_nil_r. reflexivity.
        -- intros _. exists (past fut). exact Hp.
    + do 2 eexists. split; [reflexivity|]. unfold ff_inv. cbn [ff_future ff_first drop_slot fst snd].
      rewrite !last_out_snoc, Hp, yielded_app, Hy, results_app, Hl.
      split; [apply obeys_completion_snoc; exact Hl|]. split; [discriminate|]. split; [discriminate|].
      split; [auto|]. split; [|split; [|split; discriminate]].
      * intros Hff. destruct (Hf0 Hff) as (t & ->). eexists. reflexivity.
      * unfold ff_shows. rewrite results_app, Hl. destruct (past fut) as [|[|b] t]; [reflexivity|reflexivity|discriminate].
  - do 2 eexists. split; [reflexivity|]. unfold ff_inv. cbn [ff_future ff_first fst snd].
    rewrite !last_out_snoc, yielded_app, app_nil_r. specialize (Hd eq_refl).
    split; [exact Hoc|]. split; [discriminate|]. split; [auto|]. split; [auto|]. split; [exact Hf0|].
    split; [exact Hy|]. split; [discriminate|auto].
Qed.

Lemma from_future_run {A} (script : list (poll A)) n : exists st outs,
  run from_future_poll n (from_future_init script) = Some (st, outs)
  /\ (let fut := snd (ff_future st) in
      obeys_completion (past fut)
      /\ yielded outs = match past fut with Pending :: _ => [None] | _ => [] end ++ map Some (results (past fut))
      /\ (last_out outs Pending -> awaits fut)
      /\ (last_out outs (Ready None) -> exists a, results (past fut) = [a])
      /\ (outs <> [] -> has_initial outs)).
Proof.
  destruct (run_inv0 from_future_poll (fun st outs => ff_inv st outs
      /\ (past (snd (ff_future st)) = [] -> outs = []) /\ (outs <> [] -> has_initial outs))
    (from_future_init script)) with (n := n)
    as (st & outs & Hr & (Hoc & Hl & Hd & _ & _ & Hy & Hp & He) & _ & Hi).
  - split; [|split; [reflexivity|congruence]].
    unfold ff_inv. simpl. split; [apply obeys_completion_nil|]. split; [reflexivity|].
    split; [discriminate|]. split; [auto|]. split; [discriminate|]. split; [reflexivity|].
    split; intros H; exfalso; exact (last_out_nil _ H).
  - intros st outs (HI & H0 & Hi) Hno. destruct (ff_inv_step st outs HI) as (st' & o & E & HI').
    exists st', o. split; [exact E|]. split; [exact HI'|].
    assert (Hcase : outs = [] \/ outs <> []) by (destruct outs; [left|right]; congruence).
    destruct Hcase as [-> | Hne].
    + (* first poll: a value *)
      destruct HI as (_ & Hl & Hd & Hf1 & Hf0 & Hy & _). destruct st as [[live fut] first].
      cbn [ff_future ff_first fst snd] in *. unfold from_future_poll in E.
      cbn [ff_future ff_first poll_slot] in E.
      simpl in Hy. symmetry in Hy. unfold ff_shows in Hy. apply app_eq_nil in Hy. destruct Hy as [Hy1 Hy2].
      destruct live; [|exfalso; apply (Hd eq_refl); destruct (results (past fut)); [reflexivity|discriminate]].
      destruct (poll_src_cases fut) as (r & fut' & Ep & Hp & _ & _). rewrite Ep in E.
      destruct r as [|a].
      * destruct first; [|destruct (Hf0 eq_refl) as (t & Ht); rewrite Ht in Hy1; discriminate].
        injection E as <- <-. cbn [ff_future snd]. rewrite Hp. split.
        -- intros Hx. apply app_eq_nil in Hx. destruct Hx; discriminate.
        -- intros _. do 2 eexists. reflexivity.
      * injection E as <- <-. cbn [ff_future drop_slot snd]. rewrite Hp. split.
        -- intros Hx. apply app_eq_nil in Hx. destruct Hx; discriminate.
        -- intros _. do 2 eexists. reflexivity.
    + split.
      * intros Hx. exfalso. apply Hne. apply H0.
        destruct HI' as (_ & _ & Hd' & _). destruct st as [[live fut] first]. unfold from_future_poll in E.
        cbn [ff_future ff_first poll_slot] in E. destruct live.
        -- destruct (poll_src_cases fut) as (r & fut' & Ep & Hp & _ & _). rewrite Ep in E.
           exfalso. destruct r as [|a].
           ++ destruct first; injection E as <- <-; cbn [ff_future snd] in Hx; rewrite Hp in Hx;
              apply app_eq_nil in Hx; destruct Hx; discriminate.
           ++ injection E as <- <-; cbn [ff_future drop_slot snd] in Hx; rewrite Hp in Hx;
              apply app_eq_nil in Hx; destruct Hx; discriminate.
        -- injection E as <- <-. exact Hx.
      * intros _. destruct (Hi Hne) as (b & t & ->). do 2 eexists. reflexivity.
  - exists st, outs. split; [exact Hr|]. cbv zeta. split; [exact Hoc|]. split; [exact Hy|].
    split; [exact Hp|]. split; [|exact Hi].
    intros Hlo. specialize (He Hlo). clear - Hoc He.
    destruct (results (past (snd (ff_future st)))) as [|a [|b t]] eqn:E; [congruence|exists a; reflexivity|].
    exfalso. revert E Hoc. generalize (past (snd (ff_future st))). clear. intros rs.
    induction rs as [|[|x] rs IH]; intros E Hoc.
    + discriminate.
    + apply IH; [exact E|]. intros p y q Hq. apply (Hoc (Pending :: p) y q). rewrite Hq. reflexivity.
    + specialize (Hoc [] x rs eq_refl). subst rs. discriminate.
Qed.

(** ** from_stream *)
Lemma from_stream_run {A} (script : list (poll (option A))) n : exists st outs,
  run from_stream_poll n (from_stream_init script) = Some (st, outs)
  /\ (outs <> [] -> has_initial outs /\ latest_of outs = Some (latest (snd (fs_stream st))))
  /\ source_ok outs (snd (fs_stream st))
  /\ (forall p q, yielded outs = p ++ None :: q -> p = []).
Proof.
  destruct (run_inv0 from_stream_poll (fun st outs =>
      settled (latest (snd (fs_stream st))) (fs_first st) (fs_stream st) outs
      /\ (forall p q, yielded outs = p ++ None :: q -> p = [])
      /\ (fs_first st = true -> past (snd (fs_stream st)) = []))
    (from_stream_init script)) with (n := n) as (st & outs & Hr & Hs & Hn & _).
  - split; [apply settled_init|]. split; [|reflexivity]. intros p q H. destruct p; discriminate.
  - intros [sl first] outs (Hs & Hn & H0) _. cbn [fs_stream fs_first] in *.
    pose (step := fun (_ : option A) (new_value : A) => Some (Some new_value)).
    destruct (drain_slot_inv step (fun _ => True) (fun _ _ _ => I)
      (fun v ds => match v with Some a => last_of ds = Some a | None => ds = delivered sl end))
      with (x := @None A) (sl := sl) as (v & sl' & done & E & HJ & _).
    + intros x ds d _ _. eexists. split; [reflexivity|]. apply last_of_snoc.
    + reflexivity.
    + exact I.
    + unfold from_stream_poll. cbn [fs_stream fs_first]. fold step. rewrite E.
      assert (Hok : slot_ok sl) by apply Hs.
      destruct (drain_slot_ok _ _ _ _ _ _ Hok E) as (Hok' & Hf & Haw).
      pose proof (settled_step (latest (snd sl)) (latest (snd sl')) first
        (match v with Some _ => true | None => false end) done sl sl' outs Hs Hok' Hf Haw) as Hstep.
      destruct v as [a|].
      * do 2 eexists. split; [reflexivity|]. cbn [fs_stream fs_first]. split; [|split; [|discriminate]].
        -- assert (Hla : latest (snd sl') = Some a) by exact HJ. rewrite Hla in *.
           apply Hstep. discriminate.
        -- intros p q Hpq. rewrite yielded_app in Hpq. simpl in Hpq.
           destruct q as [|z q] using rev_ind.
           ++ apply snoc_inj in Hpq. destruct Hpq as [_ Hx]. discriminate.
           ++ apply (Hn p q). assert (E2 : yielded outs ++ [Some a] = (p ++ None :: q) ++ [z])
                by (rewrite Hpq, <- app_assoc; reflexivity).
              apply snoc_inj in E2. apply E2.
      * assert (Hsame : latest (snd sl') = latest (snd sl)).
        { unfold latest. rewrite !latest_last. unfold delivered in HJ. rewrite HJ. reflexivity. }
        specialize (Hstep (fun _ => Hsame)). unfold settle in Hstep. simpl in Hstep.
        destruct first.
        -- assert (Ho : outs = []).
           { destruct outs as [|o outs]; [reflexivity|]. destruct Hs as (_ & _ & H & _).
             destruct H as [H _]; discriminate. }
           do 2 eexists. split; [reflexivity|]. cbn [fs_stream fs_first]. split; [|split; [|discriminate]].
           ++ assert (Hnone : latest (snd sl') = None).
              { rewrite Hsame. unfold latest. rewrite (H0 eq_refl). reflexivity. }
              rewrite Hnone in *. exact Hstep.
           ++ subst outs. intros p q H. destruct p as [|x p]; [reflexivity|]. destruct p; discriminate.
        -- destruct done.
           ++ do 2 eexists. split; [reflexivity|]. cbn [fs_stream fs_first]. split; [exact Hstep|].
              rewrite yielded_app, app_nil_r. split; [exact Hn|discriminate].
           ++ do 2 eexists. split; [reflexivity|]. cbn [fs_stream fs_first]. split; [exact Hstep|].
              rewrite yielded_app, app_nil_r. split; [exact Hn|discriminate].
  - exists st, outs. split; [exact Hr|]. split; [|split; [exact (settled_source_ok _ _ _ _ Hs)|exact Hn]].
    intros Hne. split; [exact (settled_first _ _ _ _ Hs Hne)|exact (settled_latest _ _ _ _ Hs Hne)].
Qed.

(** ** always *)
Lemma sig_always_run {A} (v : A) n : exists st,
  run sig_always_poll n (Some v) = Some (st, firstn n [Ready (Some v); Ready None]).
Proof. destruct n as [|[|[|n]]]; eexists; reflexivity. Qed.

(** ** first *)
Lemma first_run {A} (a : A) script n : exists st,
  run first_poll n (some_slot (Ready (Some a) :: script)) = Some (st, firstn n [Ready (Some a); Ready None])
  /\ past (snd st) = firstn n [Ready (Some a)].
Proof.
  destruct n as [|[|n]].
  - eexists. split; reflexivity.
  - eexists. split; reflexivity.
  - eexists. simpl. rewrite !firstn_nil. split; reflexivity.
Qed.

(** ** option, result *)
Lemma maybe_signal_run {A E C} (f : A -> C) (g : E -> C) script n : exists sr,
  run (maybe_poll f g) n (MSignal (fresh script)) = Some (MSignal sr, answers_mapped f (past sr))
  /\ obeys_end (past sr).
Proof.
  destruct (run_inv0 (@maybe_poll A E C f g) (fun st outs =>
      exists sr, st = MSignal sr /\ outs = answers_mapped f (past sr) /\ obeys_end (past sr))
    (MSignal (fresh script))) with (n := n) as (st & outs & Hr & sr & -> & -> & Ho).
  - eexists. split; [reflexivity|]. split; [reflexivity|apply obeys_end_nil].
  - intros st outs (sr & -> & -> & Ho) Hno. simpl.
    destruct (poll_src_cases sr) as (r & sr' & Ep & Hp & _ & _). rewrite Ep.
    do 2 eexists. split; [reflexivity|]. exists sr'. split; [reflexivity|].
    rewrite Hp, answers_mapped_app. split; [destruct r; reflexivity|].
    apply obeys_end_snoc. intros Hin. apply Hno. unfold answers_mapped.
    apply in_map_iff. exists (Ready None). auto.
  - exists sr. auto.
Qed.

Lemma maybe_value_run {A E C} (f : A -> C) (g : E -> C) (e : E) n : exists st,
  run (maybe_poll f g) n (MValue (Some e)) = Some (st, firstn n [Ready (Some (g e)); Ready None]).
Proof. destruct n as [|[|[|n]]]; eexists; reflexivity. Qed.

(** ** sample_stream_cloned *)
Definition ss_inv {A B} (st : ss_state A B) (outs : list (poll (option (A * B)))) : Prop :=
  slot_ok (ss_signal st)
  /\ (past (snd (ss_signal st)) = [] -> has_initial (todo (snd (ss_signal st))))
  /\ (past (snd (ss_signal st)) <> [] -> latest (snd (ss_signal st)) <> None)
  /\ ss_value st = latest (snd (ss_signal st))
  /\ past (ss_stream st) = answers_mapped snd outs
  /\ obeys_end (past (ss_stream st))
  /\ (forall a b, last_out outs (Ready (Some (a, b))) ->
        latest (snd (ss_signal st)) = Some a
        /\ (awaits (snd (ss_signal st)) \/ ended (snd (ss_signal st)))).

Lemma ss_inv_step {A B} (st : ss_state A B) outs : ss_inv st outs -> ~ In (Ready None) outs ->
  exists st' o, sample_poll st = Some (st', o) /\ ss_inv st' (outs ++ [o]).
Proof.
  destruct st as [sl stream value]. intros (Hok & H0 & H1 & Hv & Hs & Ho & _) Hno.
  cbn [ss_signal ss_stream ss_value] in *. unfold sample_poll. cbn [ss_signal ss_stream ss_value].
  destruct (poll_src_cases stream) as (r & stream' & Ep & Hp & _ & _). rewrite Ep.
  assert (Hoe : forall r, obeys_end (past stream ++ [r])).
  { intros r'. apply obeys_end_snoc. rewrite Hs. intros Hin. apply Hno.
    unfold answers_mapped in Hin. apply in_map_iff in Hin. destruct Hin as ([|[x|]] & Hx & Hin'); try discriminate.
    exact Hin'. }
  destruct r as [|[item|]].
  - do 2 eexists. split; [reflexivity|]. unfold ss_inv. cbn [ss_signal ss_stream ss_value].
    rewrite Hp, answers_mapped_app, <- Hs. split; [exact Hok|]. split; [exact H0|]. split; [exact H1|].
    split; [exact Hv|]. split; [reflexivity|]. split; [apply Hoe|].
    intros a b Hl. rewrite last_out_snoc in Hl. discriminate.
  - pose (step := fun (_ : option A) (v : A) => Some (Some v)).
    destruct (drain_slot_inv step (fun _ => True) (fun _ _ _ => I) (fun v ds => v = last_of ds))
      with (x := value) (sl := sl) as (v & sl' & done & E & HJ & _).
    { intros x ds d _ _. eexists. split; [reflexivity|]. rewrite last_of_snoc. reflexivity. }
    { exact Hv. }
    { exact I. }
    fold step. rewrite E. destruct (drain_slot_ok _ _ _ _ _ _ Hok E) as (Hok' & Hf & Haw).
    assert (Hne : latest (snd sl') <> None /\ past (snd sl') <> []).
    { destruct sl as [live sr]. simpl in H0, H1, E.
      destruct (past sr) as [|r0 p0] eqn:Epast.
      - destruct (H0 eq_refl) as (a & t & Ht).
        destruct live.
        + rewrite Ht in E. simpl in E.
          destruct (loop_drain step (Some a) [Ready (Some a)] t) as [[[v1 sr1] d1]|] eqn:El; [|discriminate].
          injection E as <- <- <-. apply loop_drain_struct in El. destruct El as (ds & Hpast & _).
          simpl. rewrite Hpast. split.
          * unfold latest. rewrite latest_last, Hpast, !yielded_app, yielded_somes. simpl.
            destruct d1; simpl; rewrite app_nil_r, last_of_last; discriminate.
          * destruct (([Ready (Some a)] ++ somes ds)); discriminate.
        + exfalso. destruct Hok as [_ [Hdead _]]. specialize (Hdead eq_refl). unfold ended in Hdead.
          simpl in Hdead. rewrite Epast in Hdead. exact Hdead.
      - assert (Hold : latest sr <> None) by (apply H1; discriminate).
        destruct live.
        + destruct (loop_drain step value (r0 :: p0) (todo sr)) as [[[v1 sr1] d1]|] eqn:El; [|discriminate].
          injection E as <- <- <-. apply loop_drain_struct in El. destruct El as (ds & Hpast & _).
          simpl. rewrite Hpast. split; [|discriminate].
          unfold latest in *. rewrite latest_last in *. rewrite Hpast, !yielded_app, yielded_somes.
          rewrite Epast in Hold. rewrite <- app_assoc.
          destruct ds as [|d ds] using rev_ind.
          * destruct d1; simpl; rewrite app_nil_r; exact Hold.
          * destruct d1; simpl; rewrite app_nil_r, app_assoc, last_of_snoc; discriminate.
        + injection E as <- <- <-. simpl. rewrite Epast. split; [exact Hold|discriminate]. }
    destruct Hne as [Hne Hnp].
    assert (Hvl : v = latest (snd sl')) by exact HJ.
    destruct v as [a|]; [|exfalso; apply Hne; symmetry; exact Hvl].
    do 2 eexists. split; [reflexivity|]. unfold ss_inv. cbn [ss_signal ss_stream ss_value].
    rewrite Hp, answers_mapped_app, <- Hs. split; [exact Hok'|]. split; [congruence|].
    split; [intros _; exact Hne|]. split; [exact Hvl|]. split; [reflexivity|]. split; [apply Hoe|].
    intros a' b' Hl. rewrite last_out_snoc in Hl. injection Hl as -> ->. split; [symmetry; exact Hvl|].
    destruct done.
    + right. apply Hok'. exact Hf.
    + left. apply Haw. reflexivity.
  - do 2 eexists. split; [reflexivity|]. unfold ss_inv. cbn [ss_signal ss_stream ss_value].
    rewrite Hp, answers_mapped_app, <- Hs. split; [exact Hok|]. split; [exact H0|]. split; [exact H1|].
    split; [exact Hv|]. split; [reflexivity|]. split; [apply Hoe|].
    intros a b Hl. rewrite last_out_snoc in Hl. discriminate.
Qed.

Lemma sample_run {A B} (signal : list (poll (option A))) (stream : list (poll (option B))) n :
  has_initial signal -> exists st outs,
  run sample_poll n (sample_init signal stream) = Some (st, outs)
  /\ past (ss_stream st) = answers_mapped snd outs
  /\ (forall a b, last_out outs (Ready (Some (a, b))) ->
        latest (snd (ss_signal st)) = Some a
        /\ (awaits (snd (ss_signal st)) \/ ended (snd (ss_signal st))))
  /\ obeys_end (past (ss_stream st)) /\ obeys_end (past (snd (ss_signal st))).
Proof.
  intros Hi.
  destruct (run_inv0 sample_poll ss_inv (sample_init signal stream)) with (n := n)
    as (st & outs & Hr & Hok & _ & _ & _ & Hs & Ho & Hl).
  - unfold ss_inv. simpl. split; [apply slot_ok_fresh|]. split; [auto|]. split; [congruence|].
    split; [reflexivity|]. split; [reflexivity|]. split; [apply obeys_end_nil|].
    intros a b H. exfalso. exact (last_out_nil _ H).
  - intros st outs. apply ss_inv_step.
  - exists st, outs. split; [exact Hr|]. split; [exact Hs|]. split; [exact Hl|]. split; [exact Ho|apply Hok].
Qed.
