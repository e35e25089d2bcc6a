(** A combinator whose script is supplied on demand does what it does on the script of all the
    answers (VecExec.v). *)
From Verif Require Import Base Conc Spec BaseFacts LoopFacts VecDiff VecFacts VecSpec VecSimple VecSimpleFacts
  EnumerateFacts Sort SortSpec SortFacts Chain ChainFacts Slot MutVec MutVecSpec MutVecFacts MutVecRun VecExec.

(** ** One source *)
Section Machine.
  Context {St D O : Type} (m : St * src (option D) -> option ((St * src (option D)) * poll (option O))).

  (** What a combinator does depends on its script only as far as it reads it. *)
  Definition reads_on_demand : Prop := forall st pst td st' sr r,
    m (st, mkSrc pst td) = Some ((st', sr), r) ->
    (exists used, td = used ++ todo sr /\ past sr = pst ++ used
       /\ forall rest, m (st, mkSrc pst (used ++ rest)) = Some ((st', mkSrc (pst ++ used) rest), r))
    \/ (r = Pending /\ past sr = pst ++ td ++ [Pending] /\ todo sr = []).

  Hypothesis Hd : reads_on_demand.

  Lemma reads_grow st pst td st' sr r : m (st, mkSrc pst td) = Some ((st', sr), r) -> exists p, past sr = pst ++ p.
  Proof. intros H. destruct (Hd _ _ _ _ _ _ H) as [(u & _ & E & _)|(_ & E & _)]; eauto. Qed.

  Lemma run_grow n : forall st sr st' sr' outs, run m n (st, sr) = Some ((st', sr'), outs) -> exists p, past sr' = past sr ++ p.
  Proof.
    induction n as [|n IH]; intros st [pst td] st' sr' outs H; simpl in H.
    - injection H as <- <- <-. exists []. rewrite app_nil_r. reflexivity.
    - destruct (m (st, mkSrc pst td)) as [[[s1 sr1] o]|] eqn:E; [|discriminate].
      destruct (reads_grow _ _ _ _ _ _ E) as (p & Ep). simpl.
      destruct o as [|[o|]].
      3:{ injection H as <- <- <-. eauto. }
      all: destruct (run m n (s1, sr1)) as [[[s2 sr2] os]|] eqn:E2; [|discriminate]; injection H as <- <- <-;
           destruct (IH _ _ _ _ _ E2) as (q & Eq); exists (p ++ q); rewrite Eq, Ep, app_assoc; reflexivity.
  Qed.

  (** The run has read exactly the script [log]. *)
  Definition ran (s0 : St) (log : list (poll (option D))) (st : St) (outs : list (poll (option O))) : Prop :=
    exists k, run m k (s0, fresh log) = Some ((st, mkSrc log []), outs).

  Lemma run_more k : forall st pst td st' outs,
    run m k (st, mkSrc pst td) = Some ((st', mkSrc (pst ++ td) []), outs) ->
    forall rest, run m k (st, mkSrc pst (td ++ rest)) = Some ((st', mkSrc (pst ++ td) rest), outs).
  Proof.
    induction k as [|k IH]; intros st pst td st' outs H rest; simpl in *.
    - injection H as <- _ -> <-. simpl. rewrite app_nil_r. reflexivity.
    - destruct (m (st, mkSrc pst td)) as [[[s1 sr1] o]|] eqn:E; [|discriminate].
      destruct (Hd _ _ _ _ _ _ E) as [(u & E1 & E2 & E3)|(_ & E2 & E3)].
      + destruct sr1 as [p1 t1]. simpl in E1, E2. subst p1 td. rewrite <- app_assoc, E3.
        destruct o as [|[o|]].
        3:{ injection H as <- _ -> <-. rewrite app_nil_r. reflexivity. }
        all: destruct (run m k (s1, mkSrc (pst ++ u) t1)) as [[s2 os]|] eqn:E4; [|discriminate]; injection H as -> <-;
             rewrite app_assoc in E4; rewrite (IH _ _ _ _ _ E4 rest), app_assoc; reflexivity.
      + exfalso. assert (HH : exists p, pst ++ td = past sr1 ++ p).
        { destruct o as [|[o|]].
          3:{ injection H as _ H _. exists []. rewrite app_nil_r. rewrite H. reflexivity. }
          all: destruct (run m k (s1, sr1)) as [[[s2 sr2] os]|] eqn:E4; [|discriminate]; injection H as _ H _;
               destruct (run_grow _ _ _ _ _ _ E4) as (p & Ep); exists p; rewrite H in Ep; exact Ep. }
        destruct HH as (p & Ep). rewrite E2 in Ep. apply (f_equal (@length _)) in Ep. rewrite !app_length in Ep. simpl in Ep. lia.
  Qed.

End Machine.

(** One more poll. *)
Lemma run_snoc {St O} (m : St -> option (St * poll (option O))) k : forall st st1 outs, run m k st = Some (st1, outs) ->
  ~ In (Ready None) outs ->
  match m st1 with
  | None => run m (S k) st = None
  | Some (st2, o) => run m (S k) st = Some (st2, outs ++ [o])
  end.
Proof.
  induction k as [|k IH]; intros st st1 outs H Hn; cbn [run] in H.
  - injection H as <- <-. simpl. destruct (m st) as [[s2 [|[o|]]]|]; reflexivity.
  - assert (X : run m (S (S k)) st = match m st with
                | None => None
                | Some (s1, Ready None) => Some (s1, [Ready None])
                | Some (s1, o) => match run m (S k) s1 with None => None | Some (s2, os) => Some (s2, o :: os) end end).
    { reflexivity. }
    rewrite X. clear X. destruct (m st) as [[s1 o]|] eqn:E; [|discriminate].
    destruct o as [|[o|]].
    3:{ injection H as <- <-. exfalso. apply Hn. left. reflexivity. }
    all: destruct (run m k s1) as [[s2 os]|] eqn:E2; [|discriminate]; injection H as <- <-;
         specialize (IH _ _ _ E2); assert (Hn' : ~ In (Ready None) os) by (intros Hi; apply Hn; right; exact Hi);
         specialize (IH Hn'); destruct (m s2) as [[s3 o3]|]; rewrite IH; reflexivity.
Qed.

(** The last poll of a run. *)
Lemma run_unsnoc {St O} (m : St -> option (St * poll (option O))) k : forall st st1 outs o, run m k st = Some (st1, outs ++ [o]) ->
  exists j st0, run m j st = Some (st0, outs) /\ ~ In (Ready None) outs /\ m st0 = Some (st1, o).
Proof.
  induction k as [|k IH]; intros st st1 outs o H; simpl in H.
  - injection H as _ H. destruct outs; discriminate.
  - destruct (m st) as [[s1 r]|] eqn:E; [|discriminate].
    assert (X : (r = Ready None /\ s1 = st1 /\ outs = [] /\ o = Ready None)
      \/ (r <> Ready None /\ exists os, run m k s1 = Some (st1, os) /\ outs ++ [o] = r :: os)).
    { destruct r as [|[r|]].
      3:{ left. injection H as <- H. destruct outs as [|x [|]]; [|discriminate|discriminate]. injection H as <-. auto. }
      all: right; split; [discriminate|]; destruct (run m k s1) as [[s2 os]|]; [|discriminate]; injection H as <- H; eauto. }
    destruct X as [(-> & -> & -> & ->)|(Hr & os & Hk & Ho)].
    + exists 0, st. split; [reflexivity|]. split; [intros []|exact E].
    + destruct outs as [|x outs].
      * injection Ho as <- <-. exists 0, st. split; [reflexivity|]. split; [intros []|]. rewrite E.
        destruct k as [|k]; simpl in Hk; [injection Hk as <-; reflexivity|].
        destruct (m s1) as [[s2 q]|]; [|discriminate]. destruct q as [|[q|]]; try discriminate;
          destruct (run m k s2) as [[? ?]|]; discriminate.
      * injection Ho as -> Ho. rewrite <- Ho in Hk. destruct (IH _ _ _ _ Hk) as (j & s0 & H1 & H2 & H3).
        exists (S j), s0. split.
        -- simpl. rewrite E. destruct r as [|[r|]]; [rewrite H1; reflexivity|rewrite H1; reflexivity|congruence].
        -- split; [intros [Hi|Hi]; congruence|exact H3].
Qed.

Section Machine2.
  Context {St D O : Type} (m : St * src (option D) -> option ((St * src (option D)) * poll (option O))).
  Hypothesis Hd : reads_on_demand m.

  (** After a run that has read exactly [log]. *)
  Lemma ran_then s0 log st outs k td : run m k (s0, fresh log) = Some ((st, mkSrc log []), outs) -> ~ In (Ready None) outs ->
    match m (st, mkSrc log td) with
    | None => run m (S k) (s0, fresh (log ++ td)) = None
    | Some (st2, o) => run m (S k) (s0, fresh (log ++ td)) = Some (st2, outs ++ [o])
    end.
  Proof.
    intros H Hn. apply (run_more m Hd k s0 [] log st outs) with (rest := td) in H. simpl in H.
    apply run_snoc in H; [exact H|exact Hn].
  Qed.

  Lemma ran_snoc s0 log st outs used st' r : ran m s0 log st outs -> ~ In (Ready None) outs ->
    m (st, mkSrc log used) = Some ((st', mkSrc (log ++ used) []), r) -> ran m s0 (log ++ used) st' (outs ++ [r]).
  Proof.
    intros (k & H) Hn E. pose proof (ran_then s0 log st outs k used H Hn) as X. rewrite E in X. exists (S k). exact X.
  Qed.
End Machine2.

(** ** The combinators read on demand *)

Lemma loop_emit_demand {St D O} (step : St -> D -> option (St * option O)) td : forall s pst s' sr r,
  loop_emit step s pst td = Some (s', sr, r) ->
  (exists used, td = used ++ todo sr /\ past sr = pst ++ used
     /\ forall rest, loop_emit step s pst (used ++ rest) = Some (s', mkSrc (pst ++ used) rest, r))
  \/ (r = Pending /\ past sr = pst ++ td ++ [Pending] /\ todo sr = []).
Proof.
  induction td as [|x td IH]; intros s pst s' sr r H; simpl in H.
  - injection H as <- <- <-. right. auto.
  - destruct x as [|[d|]].
    + injection H as <- <- <-. left. exists [Pending]. auto.
    + destruct (step s d) as [[s1 [o|]]|] eqn:E; [| |discriminate].
      * injection H as <- <- <-. left. exists [Ready (Some d)]. split; [reflexivity|]. split; [reflexivity|].
        intros rest. simpl. rewrite E. reflexivity.
      * destruct (IH _ _ _ _ _ H) as [(u & H1 & H2 & H3)|(H1 & H2 & H3)].
        -- left. exists (Ready (Some d) :: u). split; [simpl; congruence|]. split; [rewrite H2, <- app_assoc; reflexivity|].
           intros rest. simpl. rewrite E, H3, <- app_assoc. reflexivity.
        -- right. split; [exact H1|]. split; [rewrite H2, <- app_assoc; reflexivity|exact H3].
    + injection H as <- <- <-. left. exists [Ready None]. auto.
Qed.

Lemma emit_demand {St D O} (step : St -> D -> option (St * option O)) : reads_on_demand (emit_poll step).
Proof.
  intros st pst td st' sr r H. unfold emit_poll in *. simpl in *.
  destruct (loop_emit step st pst td) as [[[s1 sr1] r1]|] eqn:E; [|discriminate]. injection H as <- <- <-.
  destruct (loop_emit_demand step td _ _ _ _ _ E) as [(u & H1 & H2 & H3)|H]; [left|right; exact H].
  exists u. split; [exact H1|]. split; [exact H2|]. intros rest. rewrite H3. reflexivity.
Qed.

Lemma emit_rearms {St D O} (step : St -> D -> option (St * option O)) st pst td st' sr :
  emit_poll step (st, mkSrc pst td) = Some ((st', sr), Pending) -> exists p, past sr = pst ++ p ++ [Pending].
Proof.
  unfold emit_poll. simpl. destruct (loop_emit step st pst td) as [[[s1 sr1] r1]|] eqn:E; [|discriminate].
  intros H. injection H as <- <- ->. destruct (loop_emit_struct step td _ _ _ _ _ E) as (ds & tl & H1 & _ & ->).
  exists (somes ds). exact H1.
Qed.

Section Combs.
Context {V : Type}.
Implicit Types c : comb V.

Lemma c_demand c : reads_on_demand (cpoll c).
Proof.
  destruct c as [f|p|f|compare|mk|]; cbn [cpoll cstate].
  - apply emit_demand.
  - apply emit_demand.
  - apply emit_demand.
  - intros [pe va ix] pst td st' sr r H. unfold sort_poll in *. destruct pe as [d|].
    + injection H as <- <- <-. left. exists []. simpl. rewrite app_nil_r. auto.
    + exact (emit_demand _ _ _ _ _ _ _ H).
  - intros st pst td st' sr r H. destruct (enumerate_poll (st, mkSrc pst td)) as [[[s1 sr1] r1]|] eqn:E; [|discriminate].
    injection H as <- <- <-.
    destruct (emit_demand _ _ _ _ _ _ _ E) as [(u & H1 & H2 & H3)|(-> & H2 & H3)]; [left|right; auto].
    exists u. split; [exact H1|]. split; [exact H2|]. intros rest. unfold enumerate_poll. rewrite H3. reflexivity.
  - apply emit_demand.
Qed.

(** After Pending, the input was polled and answered Pending last. *)
Lemma c_rearms c st pst td st' sr : cpoll c (st, mkSrc pst td) = Some ((st', sr), Pending) ->
  exists p, past sr = pst ++ p ++ [Pending].
Proof.
  destruct c as [f|p|f|compare|mk|]; cbn [cpoll cstate] in *; try (apply emit_rearms).
  - destruct st as [pe va ix]. unfold sort_poll. destruct pe; [discriminate|]. apply emit_rearms.
  - destruct (enumerate_poll (st, mkSrc pst td)) as [[[s1 sr1] r1]|] eqn:E; [|discriminate].
    intros H. injection H as <- <- H. destruct r1; [|discriminate]. apply (emit_rearms _ _ _ _ _ _ E).
Qed.

Lemma run_map {St A B} (m : St -> option (St * poll (option A))) (g : A -> B) k : forall st,
  let h r := match r with Pending => Pending | Ready o => Ready (option_map g o) end in
  run (fun st => let? (st', r) := m st in Some (st', h r)) k st =
  let? (st', outs) := run m k st in Some (st', map h outs).
Proof.
  induction k as [|k IH]; intros st h; [reflexivity|]. cbn [run].
  destruct (m st) as [[s1 r]|] eqn:E; [|reflexivity]. destruct r as [|[a|]]; cbn [h option_map map]; [| |reflexivity].
  - rewrite IH. destruct (run m k s1) as [[s2 os]|]; reflexivity.
  - rewrite IH. destruct (run m k s1) as [[s2 os]|]; reflexivity.
Qed.

Lemma yielded_map {A B} (g : A -> B) outs :
  yielded (map (fun r => match r with Pending => Pending | Ready o => Ready (option_map g o) end) outs) = map g (yielded outs).
Proof. induction outs as [|[|[a|]] outs IH]; simpl; congruence. Qed.

Lemma run_enumerate (mk : nat -> V -> V) k st :
  run (cpoll (CEnumerate mk)) k st =
  let? (st', outs) := run enumerate_poll k st in
  Some (st', map (fun r => match r with Pending => Pending | Ready o => Ready (option_map (fun d => fst (vd_map (fun cv => mk (fst cv) (snd cv)) d)) o) end) outs).
Proof. exact (run_map enumerate_poll (fun d => fst (vd_map (fun cv => mk (fst cv) (snd cv)) d)) k st). Qed.

Lemma last_out_map {A B} (g : A -> B) outs r :
  last_out (map (fun r => match r with Pending => Pending | Ready o => Ready (option_map g o) end) outs) r ->
  exists r0, last_out outs r0 /\ r = match r0 with Pending => Pending | Ready o => Ready (option_map g o) end.
Proof.
  destruct outs as [|x outs _] using rev_ind; [intros (p & H); destruct p; discriminate|].
  rewrite map_app. simpl. intros H. apply last_out_snoc in H. exists x. split; [eexists; reflexivity|auto].
Qed.

Lemma last_out_map' {A B} (g : A -> B) outs r : last_out outs r ->
  last_out (map (fun r => match r with Pending => Pending | Ready o => Ready (option_map g o) end) outs)
    match r with Pending => Pending | Ready o => Ready (option_map g o) end.
Proof. intros (p & ->). rewrite map_app. eexists. reflexivity. Qed.

Lemma c_wakes c : single_source_ok (cpoll c) (cinit c).
Proof.
  destruct c as [f|p|f|compare|mk|]; cbn [cpoll cstate cinit].
  - apply (simple_vec_wake (fun a => Some a) f (fun _ => true)).
  - apply (simple_vec_wake (fun a => Some a) (fun a => a) p).
  - apply (simple_vec_wake f (fun a => a) (fun _ => true)).
  - apply sort_wake.
  - intros script n s sr outs H. change (run (cpoll (CEnumerate mk)) n (en_init, fresh script) = Some ((s, sr), outs)) in H.
    rewrite run_enumerate in H.
    destruct (run enumerate_poll n (en_init, fresh script)) as [[[s1 sr1] o1]|] eqn:E; [|discriminate].
    injection H as <- <- <-.
    destruct (simple_vec_wake (fun a : V => Some a) (fun a => a) (fun _ => true)) as (_ & _ & _ & X & _).
    destruct (X _ _ _ _ _ E) as (H1 & H2 & H3).
    split; [|split; [split|exact H3]].
    + intros Hl. apply last_out_map in Hl. destruct Hl as (r0 & Hl & Hr). apply H1. destruct r0; [exact Hl|discriminate].
    + intros Hl. apply last_out_map in Hl. destruct Hl as (r0 & Hl & Hr). apply H2. destruct r0 as [|[?|]]; [discriminate|discriminate|exact Hl].
    + intros He. apply H2 in He. apply (last_out_map' (fun d => fst (vd_map (fun cv => mk (fst cv) (snd cv)) d))) in He. exact He.
  - apply (simple_vec_wake (fun a => Some a) (fun a : V => a) (fun _ => true)).
Qed.

(** The side conditions of one combinator, for the diffs that arrived. *)
Definition cgood c (log : list (poll (option (vecdiff V)))) : Prop :=
  match c with
  | CFilter p => backward_moves_ok p (yielded log)
  | CFilterMap f => backward_moves_ok (fun a => is_some (f a)) (yielded log)
  | CSort compare => total_preorder compare
  | _ => True
  end.

Lemma replay_map {A B} (f : A -> B) ds : forall l0 l, apply_all apply_to_vec l0 ds = Some l ->
  apply_all apply_to_vec (map f l0) (map (fun d => fst (vd_map f d)) ds) = Some (map f l).
Proof.
  induction ds as [|d ds IH]; intros l0 l H; simpl in H |- *; [injection H as <-; reflexivity|].
  destruct (apply_to_vec d l0) as [l1|] eqn:E; [|discriminate]. rewrite (apply_map f d l0 l1 E). apply IH. exact H.
Qed.

(** What a combinator shows, after any number of polls. *)
Lemma c_mirror c script : good_vec_script script -> cgood c script -> forall n, exists st sr outs l,
  run (cpoll c) n (cinit c, fresh script) = Some ((st, sr), outs)
  /\ conveyed sr = Some l
  /\ replay (yielded outs) <> None
  /\ (last_out outs Pending \/ last_out outs (Ready None) ->
      exists out, replay (yielded outs) = Some out /\ means c st l out).
Proof.
  intros Hg Hc n. destruct c as [f|p|f|compare|mk|]; cbn [cpoll cstate cinit means cgood] in *.
  - destruct (vmap_mirror f script Hg n) as (st & sr & outs & l & H1 & H2 & H3 & _).
    exists st, sr, outs, l. rewrite H3. split; [exact H1|]. split; [exact H2|]. split; [discriminate|]. eauto.
  - destruct (filter_mirror p script Hg Hc n) as (st & sr & outs & l & H1 & H2 & H3 & _).
    exists st, sr, outs, l. rewrite H3. split; [exact H1|]. split; [exact H2|]. split; [discriminate|]. eauto.
  - destruct (filter_map_mirror f script Hg Hc n) as (st & sr & outs & l & H1 & H2 & H3 & _).
    exists st, sr, outs, l. rewrite H3. split; [exact H1|]. split; [exact H2|]. split; [discriminate|]. eauto.
  - destruct (sort_mirror compare Hc script Hg n) as (st & sr & outs & l & out & H1 & H2 & H3 & H4).
    exists st, sr, outs, l. split; [exact H1|]. split; [exact H2|].
    destruct H4 as [H4|(p & x & q & _ & H4 & H5 & H6 & _)].
    + rewrite H4. split; [discriminate|]. eauto.
    + rewrite H4. split; [discriminate|]. intros [H|H]; contradiction.
  - destruct (enumerate_correct script Hg n) as (st & sr & outs & l & out & H1 & H2 & H3 & H4 & H5 & H6 & _).
    eexists st, sr, _, l. split; [exact (eq_trans (run_enumerate mk n _) (f_equal (fun x => let? (st', outs) := x in Some (st', map _ outs)) H1))|]. split; [exact H2|].
    rewrite yielded_map. pose proof (replay_map (fun cv => mk (fst cv) (snd cv)) (yielded outs) [] out H3) as X.
    unfold replay. simpl in X. rewrite X. split; [discriminate|]. intros _. eexists. split; [reflexivity|].
    exists (map fst out). split; [rewrite <- H4, !map_length; reflexivity|]. split; [exact H5|]. split.
    + intros i c Hi. rewrite nth_error_map in Hi. destruct (nth_error out i) as [[c1 v1]|] eqn:E; [|discriminate].
      injection Hi as <-. exact (H6 i c1 v1 E).
    + f_equal. rewrite <- H4. clear. induction out as [|[a b] out IH]; simpl; congruence.
  - destruct (emit_run_inv (@vdebug_step V) (fun ds => replay ds <> None) (@replay_prefix V)
      (fun _ ds os => os = ds /\ replay ds <> None))
      with (s0 := tt) (script := script) (n := n) as ([] & sr & outs & Hr & H1 & H2).
    + intros [] ds os d [-> _] HP. exists tt, (Some d). split; [reflexivity|]. split; [reflexivity|exact HP].
    + split; [reflexivity|discriminate].
    + exact Hg.
    + destruct (replay (yielded (past sr))) as [l|] eqn:El; [|congruence].
      exists tt, sr, outs, l. split; [exact Hr|]. split; [exact El|]. rewrite H1, El. split; [discriminate|]. eauto.
Qed.
End Combs.

(** ** Chain *)
Section Chains.
Context {V : Type}.
Notation ans := (poll (option (vecdiff V))).
Implicit Types st : chain_state V.

(** A program that polls one source. *)
Inductive prog (X : Type) := Ret (x : X) | Ask (k : ans -> prog X).
Arguments Ret {X} x. Arguments Ask {X} k.
Fixpoint interp {X} (p : prog X) (sr : src (option (vecdiff V))) : X * src (option (vecdiff V)) :=
  match p with
  | Ret x => (x, sr)
  | Ask k => let '(a, sr') := poll_src sr in interp (k a) sr'
  end.

Lemma interp_demand {X} (p : prog X) : forall pst td x sr, interp p (mkSrc pst td) = (x, sr) ->
  (exists used, td = used ++ todo sr /\ past sr = pst ++ used
     /\ forall rest, interp p (mkSrc pst (used ++ rest)) = (x, mkSrc (pst ++ used) rest))
  \/ (todo sr = [] /\ exists p, past sr = pst ++ td ++ Pending :: p).
Proof.
  induction p as [x|k IH]; intros pst td y sr H; cbn [interp] in H.
  - injection H as <- <-. left. exists []. cbn. rewrite app_nil_r. auto.
  - unfold poll_src in H. destruct td as [|a td]; cbn in H.
    + right. destruct (IH _ _ _ _ _ H) as [(u & H1 & H2 & _)|(H1 & p & H2)].
      * destruct u; [|discriminate]. cbn in H1. split; [auto|]. exists []. rewrite H2, app_nil_r. reflexivity.
      * split; [exact H1|]. eexists. rewrite H2, <- app_assoc. reflexivity.
    + destruct (IH _ _ _ _ _ H) as [(u & H1 & H2 & H3)|(H1 & p & H2)].
      * left. exists (a :: u). split; [cbn; congruence|]. split; [rewrite H2, <- app_assoc; reflexivity|].
        intros rest. cbn. rewrite H3, <- app_assoc. reflexivity.
      * right. split; [exact H1|]. exists p. rewrite H2, <- app_assoc. reflexivity.
Qed.

Definition wants_left st : bool := fst (ch_left st) && match ch_pending st with [] => true | _ => false end.

(** What is left of a poll of Chain, as a program that polls the right source, once [left] has been
    polled (with answer [a]) or not. The fields are those of the state. *)
Definition result := option (chain_state V * ans).

Definition finish (x : option (chain_state V * option (vecdiff V))) : result :=
  let? (st2, r) := x in
  match r with
  | Some change => Some (st2, Ready (Some change))
  | None =>
    match pop_front st2 with
    | Some (change, st') => Some (st', Ready (Some change))
    | None =>
        if negb (fst (ch_left st2)) && negb (fst (ch_right st2))
        then Some (st2, Ready None)
        else Some (st2, Pending)
    end
  end.
Definition right_prog st : prog result :=
  if fst (ch_right st) then Ask (fun b => Ret (finish (process_right_change (Some b) st)))
  else Ret (finish (process_right_change None st)).
Definition after_left (x : option (chain_state V * option (vecdiff V))) : prog result :=
  match x with
  | None => Ret None
  | Some (st1, Some change) => Ret (Some (st1, Ready (Some change)))
  | Some (st1, None) =>
      match pop_front st1 with
      | Some (change, st') => Ret (Some (st', Ready (Some change)))
      | None => right_prog st1
      end
  end.
(* the two functions with the answer of the right given: a right source that gives it *)
Definition given st (b : ans) : chain_state V := set_right (fst (ch_right st), mkSrc [] [b]) st.
Definition strip st : chain_state V := mkChain (fst (ch_left st), mkSrc [] []) (fst (ch_right st), mkSrc [] []) (ch_left_len st) (ch_right_len st) (ch_pending st).
Definition strip_all (x : option (chain_state V * option (vecdiff V))) := let? (s, o) := x in Some (strip s, o).
Definition via_right (f : chain_state V -> option (chain_state V * option (vecdiff V))) st : prog result :=
  if fst (ch_right st) then Ask (fun b => after_left (strip_all (f (given st b)))) else after_left (strip_all (f st)).
Definition left_prog (a : option ans) st : prog result :=
  match a with
  | Some (Ready (Some (Replace vs))) => via_right (process_replace vs) st
  | Some (Ready (Some Clear)) => via_right process_clear st
  | Some b => after_left (strip_all (process_left (set_left (fst (ch_left st), mkSrc [] [b]) st)))
  | None => after_left (Some (st, None))
  end.

Definition put sl sr st : chain_state V := mkChain (fst (ch_left st), sl) (fst (ch_right st), sr) (ch_left_len st) (ch_right_len st) (ch_pending st).

Definition out sl (x : result * src (option (vecdiff V))) : result :=
  let '(r, sr) := x in let? (st, o) := r in Some (put sl sr st, o).

Lemma rc_put b sl sr st : process_right_change b (put sl sr st) = let? (s, o) := process_right_change b (strip st) in Some (put sl sr s, o).
Proof.
  destruct b as [[|[d|]]|]; cbn; try reflexivity. destruct d; cbn; try reflexivity.
  - destruct (ch_left_len st =? 0); reflexivity.
  - destruct (usub _ _); reflexivity.
  - destruct (usub _ _); reflexivity.
  - destruct (ch_left_len st =? 0); reflexivity.
Qed.

Lemma finish_put x sl sr :
  finish (let? (s, o) := x in Some (put sl sr s, o)) = out sl (finish x, sr).
Proof.
  destruct x as [[s o]|]; [|reflexivity]. cbn. destruct o; [reflexivity|]. unfold pop_front. cbn.
  destruct (ch_pending s); [|reflexivity]. destruct (negb _ && negb _); reflexivity.
Qed.

Definition rest_of (x : option (chain_state V * option (vecdiff V))) : result :=
  let? (st1, l) := x in
        match l with
        | Some change => Some (st1, Ready (Some change))
        | None =>
            match pop_front st1 with
            | Some (change, st') => Some (st', Ready (Some change))
            | None => finish (process_right st1)
            end
        end.
Lemma chain_poll_rest st : chain_poll st = match pop_front st with
    | Some (change, st') => Some (st', Ready (Some change))
    | None => rest_of (process_left st) end.
Proof. reflexivity. Qed.

Lemma rest_put x sl sr : rest_of (let? (s, o) := x in Some (put sl sr s, o)) = out sl (interp (after_left (strip_all x)) sr).
Proof.
  destruct x as [[s [o|]]|]; [reflexivity| |reflexivity]. cbn. unfold pop_front. cbn.
  destruct (ch_pending s) as [|d ds] eqn:Ep; [|reflexivity].
  unfold right_prog, process_right, poll_right. cbn. destruct (fst (ch_right s)) eqn:Eb; cbn.
  - destruct (poll_src sr) as [b sr1] eqn:E1. cbn.
    transitivity (finish (process_right_change (Some b) (put sl sr1 s))).
    { f_equal. f_equal. unfold put, set_right. cbn. rewrite Eb. reflexivity. }
    rewrite rc_put. rewrite finish_put. f_equal. f_equal. unfold strip. cbn. rewrite Eb, Ep. reflexivity.
  - transitivity (finish (process_right_change None (put sl sr s))).
    { f_equal. f_equal. unfold put, set_right. cbn. rewrite Eb. reflexivity. }
    rewrite rc_put, finish_put. f_equal. f_equal. unfold strip. cbn. rewrite Eb, Ep. reflexivity.
Qed.

(** process_replace and process_clear poll the right source once, if it is there. *)
Definition polls_right (f : chain_state V -> option (chain_state V * option (vecdiff V))) : Prop :=
  forall sl sr st, f (put sl sr st) =
    if fst (ch_right st)
    then let '(b, sr1) := poll_src sr in let? (s, o) := f (given (strip st) b) in Some (put sl sr1 s, o)
    else let? (s, o) := f (strip st) in Some (put sl sr s, o).

Lemma replace_polls vs : polls_right (process_replace vs).
Proof.
  intros sl sr st. unfold process_replace, poll_right, push_some. destruct (fst (ch_right st)) eqn:Eb; cbn; rewrite ?Eb; cbn.
  - destruct (poll_src sr) as [b sr1]. cbn. destruct b as [|[d|]]; cbn; [| |].
    + destruct (ch_right_len st =? 0); cbn; rewrite ?Eb; reflexivity.
    + destruct d; cbn; destruct (ch_right_len st =? 0); cbn; rewrite ?Eb; cbn; try reflexivity;
        try (destruct (length vs =? 0)); cbn; rewrite ?Eb; try reflexivity; try (destruct (usub _ _)); cbn; rewrite ?Eb; reflexivity.
    + destruct (ch_right_len st =? 0); cbn; rewrite ?Eb; reflexivity.
  - destruct (ch_right_len st =? 0); cbn; rewrite ?Eb; reflexivity.
Qed.

Lemma clear_polls : polls_right process_clear.
Proof.
  intros sl sr st. unfold process_clear, poll_right, push_some. destruct (fst (ch_right st)) eqn:Eb; cbn; rewrite ?Eb; cbn.
  - destruct (poll_src sr) as [b sr1]. cbn. destruct b as [|[d|]]; cbn; [| |].
    + destruct (ch_right_len st =? 0); cbn; rewrite ?Eb; reflexivity.
    + destruct d; cbn; destruct (ch_right_len st =? 0); cbn; rewrite ?Eb; cbn; try reflexivity;
        try (destruct (usub _ _)); cbn; rewrite ?Eb; reflexivity.
    + destruct (ch_right_len st =? 0); cbn; rewrite ?Eb; reflexivity.
  - destruct (ch_right_len st =? 0); cbn; rewrite ?Eb; reflexivity.
Qed.

Lemma via_put f sl sr st : polls_right f -> rest_of (f (put sl sr st)) = out sl (interp (via_right f (strip st)) sr).
Proof.
  intros H. rewrite H. unfold via_right. cbn [strip ch_right fst]. destruct (fst (ch_right st)) eqn:Eb.
  - cbn [interp]. destruct (poll_src sr) as [b sr1]. apply rest_put.
  - apply rest_put.
Qed.


Definition direct (a : ans) : bool :=
  match a with Ready (Some (Replace _)) | Ready (Some Clear) => false | _ => true end.

Lemma process_left_direct a pl t sr st : fst (ch_left st) = true -> fst (poll_src (mkSrc pl t)) = a -> direct a = true ->
  process_left (put (mkSrc pl t) sr st) =
  let? (s, o) := process_left (set_left (fst (ch_left (strip st)), mkSrc [] [a]) (strip st)) in
  Some (put (snd (poll_src (mkSrc pl t))) sr s, o).
Proof.
  intros Eb Ea Hd. unfold process_left. cbn [put ch_left poll_slot strip set_left fst]. rewrite Eb.
  destruct (poll_src (mkSrc pl t)) as [a' sl1]. cbn [fst] in Ea. subst a'.
  destruct a as [|[d|]]; cbn; rewrite ?Eb; try reflexivity.
  destruct d; cbn; try reflexivity; try discriminate Hd.
  - destruct (usub _ _); reflexivity.
  - destruct (ch_right_len st =? 0); reflexivity.
  - destruct (usub _ _); [|reflexivity]. destruct (ch_right_len st =? 0); reflexivity.
Qed.

Lemma left_put a t pl sr st : fst (ch_left st) = true -> fst (poll_src (mkSrc pl t)) = a ->
  rest_of (process_left (put (mkSrc pl t) sr st)) = out (snd (poll_src (mkSrc pl t))) (interp (left_prog (Some a) (strip st)) sr).
Proof.
  intros Eb Ea. destruct (direct a) eqn:Hdir.
  - rewrite (process_left_direct a pl t sr st Eb Ea Hdir), rest_put. f_equal. f_equal.
    destruct a as [|[d|]]; try reflexivity. destruct d; try reflexivity; discriminate.
  - unfold process_left. cbn [put ch_left poll_slot]. rewrite Eb.
    destruct (poll_src (mkSrc pl t)) as [a' sl1]. cbn [fst] in Ea. subst a'. cbn [snd].
    assert (X : set_left (true, sl1) (put (mkSrc pl t) sr st) = put sl1 sr st).
    { unfold set_left, put. cbn. rewrite Eb. reflexivity. }
    unfold set_left in X. cbn [put ch_left ch_right ch_left_len ch_right_len ch_pending] in X.
    unfold set_left. cbn [put ch_left ch_right ch_left_len ch_right_len ch_pending].
    destruct a as [|[d|]]; try discriminate. destruct d; try discriminate; rewrite X; apply via_put;
      [apply replace_polls|apply clear_polls].
Qed.

Lemma no_left_put sl sr st : fst (ch_left st) = false ->
  rest_of (process_left (put sl sr st)) = out sl (interp (left_prog None (strip st)) sr).
Proof.
  intros Eb. unfold process_left. cbn [put ch_left poll_slot]. rewrite Eb.
  etransitivity; [|exact (rest_put (Some (st, None)) sl sr)].
  unfold set_left, put. cbn. rewrite Eb. reflexivity.
Qed.

Lemma chain_demand st l r st' o : chain_poll (feed l r st) = Some (st', o) ->
  (if wants_left st
   then snd (ch_left st') = mkSrc (log_of (ch_left st) ++ [match l with [] => Pending | a :: _ => a end]) (tl l)
   else snd (ch_left st') = mkSrc (log_of (ch_left st)) l)
  /\ ((exists ur, r = ur ++ todo (snd (ch_right st')) /\ log_of (ch_right st') = log_of (ch_right st) ++ ur
       /\ forall l' rr, (wants_left st = true -> hd Pending l' = hd Pending l) ->
          chain_poll (feed l' (ur ++ rr) st) = Some (feed (if wants_left st then tl l' else l') rr st', o))
     \/ (todo (snd (ch_right st')) = [] /\ exists p, log_of (ch_right st') = log_of (ch_right st) ++ r ++ Pending :: p)).
Proof.
  assert (F : forall l r, feed l r st = put (mkSrc (log_of (ch_left st)) l) (mkSrc (log_of (ch_right st)) r) st) by reflexivity.
  rewrite F, chain_poll_rest. unfold wants_left, pop_front. cbn [put ch_pending].
  destruct (ch_pending st) as [|d ds] eqn:Ep.
  2:{ intros H. injection H as <- <-. rewrite andb_false_r. cbn. split; [reflexivity|]. left. exists [].
      unfold log_of. cbn. rewrite app_nil_r. split; [reflexivity|]. split; [reflexivity|]. intros l' rr _.
      unfold chain_poll, pop_front, feed. cbn. rewrite Ep. reflexivity. }
  rewrite andb_true_r. destruct (fst (ch_left st)) eqn:Eb.
  - rewrite (left_put _ _ _ _ _ Eb eq_refl). set (a := fst (poll_src _)).
    destruct (interp (left_prog (Some a) (strip st)) (mkSrc (log_of (ch_right st)) r)) as [x sr] eqn:Ei.
    unfold out. destruct x as [[s0 o0]|]; [|discriminate]. intros H. injection H as <- <-. cbn [ch_left put snd ch_right log_of].
    split.
    { destruct l; reflexivity. }
    destruct (interp_demand _ _ _ _ _ Ei) as [(u & H1 & H2 & H3)|H]; [left|right; exact H].
    exists u. split; [exact H1|]. split; [exact H2|]. intros l' rr Hl. rewrite F, chain_poll_rest. unfold pop_front. cbn [put ch_pending].
    rewrite Ep, (left_put _ _ _ _ _ Eb eq_refl).
    replace (fst (poll_src (mkSrc (log_of (ch_left st)) l'))) with a.
    2:{ unfold a. specialize (Hl eq_refl). destruct l, l'; cbn in *; congruence. }
    rewrite H3. cbn [out]. do 2 f_equal. specialize (Hl eq_refl). destruct sr as [ps td]. cbn in H2. subst ps.
    destruct l', l; cbn in Hl |- *; subst; reflexivity.
  - rewrite (no_left_put _ _ _ Eb).
    destruct (interp (left_prog None (strip st)) (mkSrc (log_of (ch_right st)) r)) as [x sr] eqn:Ei.
    unfold out. destruct x as [[s0 o0]|]; [|discriminate]. intros H. injection H as <- <-. cbn [ch_left put snd ch_right log_of].
    split; [reflexivity|].
    destruct (interp_demand _ _ _ _ _ Ei) as [(u & H1 & H2 & H3)|H]; [left|right; exact H].
    exists u. split; [exact H1|]. split; [exact H2|]. intros l' rr Hl. rewrite F, chain_poll_rest. unfold pop_front. cbn [put ch_pending].
    rewrite Ep, (no_left_put _ _ _ Eb). rewrite H3. cbn [out]. do 2 f_equal. destruct sr as [ps td]. cbn in H2. subst ps. reflexivity.
Qed.
End Chains.
