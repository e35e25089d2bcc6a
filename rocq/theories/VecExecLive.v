(** Programs with SignalVec pipelines on an executor (VecExec.v): every poll ends, and the executor becomes idle. *)
From Verif Require Import Base Conc Spec BaseFacts LoopFacts VecDiff VecFacts VecSpec VecSimple Sort SortSpec
  Chain ChainFacts Slot SlotFacts MutVec MutVecSpec MutVecFacts MutVecRun VecExec VecExecFacts VecExecRun VecExecEnd VecExecUse VecExecTame.

(** ** Specification *)

(** What the executor does on its own, together with the futures of the closures. *)
Definition busy {V} (mv : move V) : bool := match mv with MStart _ | MPoll _ _ | MFut _ _ => true | _ => false end.

(** ** Lexicographic order *)
Fixpoint lex (a b : list nat) : Prop :=
  match a, b with
  | x :: a', y :: b' => x < y \/ x = y /\ lex a' b'
  | _, _ => False
  end.
Definition less (a b : list nat) : Prop := length a = length b /\ lex a b.

Lemma lex_app a : forall b a' b', length a = length b -> lex a b -> lex (a ++ a') (b ++ b').
Proof.
  induction a as [|x a IH]; intros [|y b] a' b' L H; try contradiction. simpl in *. destruct H as [H|[-> H]]; [left; exact H|].
  right. split; [reflexivity|]. apply IH; [lia|exact H].
Qed.

Lemma lex_tail a b b' : lex b b' -> lex (a ++ b) (a ++ b').
Proof. induction a as [|x a IH]; simpl; auto. Qed.

Lemma less_app a b a' b' : less a b -> length a' = length b' -> less (a ++ a') (b ++ b').
Proof. intros [L H] L'. split; [rewrite !app_length; lia|]. apply lex_app; assumption. Qed.

Lemma less_tail a b b' : less b b' -> less (a ++ b) (a ++ b').
Proof. intros [L H]. split; [rewrite !app_length; lia|]. apply lex_tail. exact H. Qed.

Lemma lex_trans a : forall b c, lex a b -> lex b c -> lex a c.
Proof.
  induction a as [|x a IH]; intros [|y b] [|z c]; simpl; try tauto. intros [H1|[-> H1]] [H2|[-> H2]]; try (left; lia).
  right. split; [reflexivity|]. exact (IH _ _ H1 H2).
Qed.

Lemma less_trans a b c : less a b -> less b c -> less a c.
Proof. intros [L1 H1] [L2 H2]. split; [congruence|]. exact (lex_trans _ _ _ H1 H2). Qed.

Lemma less_wf : well_founded less.
Proof.
  assert (H : forall n a, length a = n -> Acc less a).
  { induction n as [|n IH]; intros a La.
    - destruct a; [|discriminate]. constructor. intros b [_ Hb]. destruct b; contradiction.
    - destruct a as [|x a]; [discriminate|]. injection La as La. revert a La. induction x as [x IHx] using lt_wf_ind. intros a La.
      pose proof (IH a La) as A. induction A as [a _ IHa]. constructor. intros [|y b] [Lb Hb]; [contradiction|]. simpl in Lb, Hb.
      destruct Hb as [Hb|[-> Hb]].
      + apply (IHx y Hb). lia.
      + apply IHa; [split; [lia|exact Hb]|lia]. }
  intros a. exact (H _ a eq_refl).
Qed.

Definition less_eq (a b : list nat) : Prop := a = b \/ less a b.
Lemma less_eq_trans a b c : less_eq a b -> less_eq b c -> less_eq a c.
Proof. intros [->|H1] [->|H2]; [left; reflexivity|right; exact H2|right; exact H1|right; exact (less_trans _ _ _ H1 H2)]. Qed.
Lemma less_then a b c : less a b -> less_eq b c -> less a c.
Proof. intros H1 [->|H2]; [exact H1|exact (less_trans _ _ _ H1 H2)]. Qed.
Lemma then_less a b c : less_eq a b -> less b c -> less a c.
Proof. intros [->|H1] H2; [exact H2|exact (less_trans _ _ _ H1 H2)]. Qed.
Lemma less_eq_app a b a' b' : less_eq a b -> less_eq a' b' -> less_eq (a ++ a') (b ++ b').
Proof.
  intros [->|H1] H2.
  - destruct H2 as [->|H2]; [left; reflexivity|right; apply less_tail; exact H2].
  - right. apply less_app; [exact H1|]. destruct H2 as [->|[H2 _]]; auto.
Qed.
Lemma less_eq_length a b : less_eq a b -> length a = length b.
Proof. intros [->|[H _]]; auto. Qed.

Section Live.
Context {V : Type}.
Notation ans := (poll (option (vecdiff V))).
Implicit Types (s : sig V) (v : vecs V) (w : world V) (x : task V) (c : comb V).

(** ** What is still to come *)

Definition own c : cstate c -> nat :=
  match c return cstate c -> nat with
  | CSort _ => fun st => match so_pending st with Some _ => 1 | None => 0 end
  | _ => fun _ => 0
  end.

Fixpoint news v s : list nat :=
  match s with
  | GMut m id => [match nth_error (subs (v m)) id with Some y => length (queue y) | None => 0 end]
  | GOne c st _ s => news v s ++ [own c st]
  | GChain st s1 s2 => (news v s1 ++ news v s2) ++ [length (ch_pending st)]
  end.

Fixpoint size (p : pipe V) : nat :=
  match p with PMut _ => 1 | POne _ p => size p + 1 | PChain p q => size p + size q + 1 end.

Lemma news_size v s : length (news v s) = size (pipe_of s).
Proof. induction s; simpl; rewrite ?app_length; simpl; lia. Qed.

Lemma news_same v v' s : (forall m id, In (m, id) (leaves s) -> nth_error (subs (v' m)) id = nth_error (subs (v m)) id) -> news v' s = news v s.
Proof.
  induction s as [m id|c st log s IH|st s1 IH1 s2 IH2]; simpl; intros H.
  - rewrite H; [reflexivity|left; reflexivity].
  - rewrite IH; auto.
  - rewrite IH1, IH2; [reflexivity| |]; intros m id Hi; apply H, in_or_app; auto.
Qed.

Lemma news_frame L v v' s : frame L v v' -> (forall l, In l (leaves s) -> ~ In l L) -> news v' s = news v s.
Proof. intros F H. apply news_same. intros m id Hi. apply (fr_other _ _ _ F). exact (H _ Hi). Qed.

Definition yields (a : ans) : Prop := match a with Ready (Some _) => True | _ => False end.
Definition silent (l : list ans) : Prop := forall a, In a l -> ~ yields a.

Lemma loop_silent {St O} (step : St -> vecdiff V -> option (St * option O)) st log known st' after r : silent known ->
  loop_emit step st log known = Some (st', after, r) -> st' = st /\ forall o, r <> Ready (Some o).
Proof.
  intros H. destruct known as [|[|[d|]] known]; simpl; intros E; try (injection E as <- <- <-; split; [reflexivity|discriminate]).
  exfalso. apply (H (Ready (Some d))); [left; reflexivity|exact I].
Qed.

Lemma emit_silent {St O} (step : St -> vecdiff V -> option (St * option O)) st log known st' after r : silent known ->
  emit_poll step (st, mkSrc log known) = Some ((st', after), r) -> st' = st /\ forall o, r <> Ready (Some o).
Proof.
  intros H. unfold emit_poll. simpl. destruct (loop_emit step st log known) as [[[s1 sr1] r1]|] eqn:E; [|discriminate].
  intros X. injection X as <- <- <-. exact (loop_silent _ _ _ _ _ _ _ H E).
Qed.

(** Without a diff from its input, a combinator gives only what it has kept. *)
Lemma c_silent c st log known st' after r : silent known -> cpoll c (st, mkSrc log known) = Some ((st', after), r) ->
  own c st' <= own c st /\ (yields r -> own c st' < own c st).
Proof.
  intros H E. destruct c as [f|p|f|compare|mk|]; cbn [cpoll cstate own] in *.
  - destruct (emit_silent _ _ _ _ _ _ _ H E) as [_ X]. split; [lia|]. destruct r as [|[o|]]; simpl; try tauto. exfalso. exact (X o eq_refl).
  - destruct (emit_silent _ _ _ _ _ _ _ H E) as [_ X]. split; [lia|]. destruct r as [|[o|]]; simpl; try tauto. exfalso. exact (X o eq_refl).
  - destruct (emit_silent _ _ _ _ _ _ _ H E) as [_ X]. split; [lia|]. destruct r as [|[o|]]; simpl; try tauto. exfalso. exact (X o eq_refl).
  - destruct st as [pe va ix]. unfold sort_poll in E. destruct pe as [d|].
    + injection E as <- <- <-. simpl. lia.
    + destruct (emit_silent _ _ _ _ _ _ _ H E) as [-> X]. split; [lia|]. destruct r as [|[o|]]; simpl; try tauto. exfalso. exact (X o eq_refl).
  - destruct (enumerate_poll (st, mkSrc log known)) as [[[s1 sr1] r1]|] eqn:E1; [|discriminate]. injection E as <- <- <-.
    destruct (emit_silent _ _ _ _ _ _ _ H E1) as [_ X]. split; [lia|]. destruct r1 as [|[o|]]; simpl; try tauto. exfalso. exact (X o eq_refl).
  - destruct (emit_silent _ _ _ _ _ _ _ H E) as [_ X]. split; [lia|]. destruct r as [|[o|]]; simpl; try tauto. exfalso. exact (X o eq_refl).
Qed.

(** It does not poll its input again when that was Pending or has ended. *)
Lemma loop_stops {St O} (step : St -> vecdiff V -> option (St * option O)) td : forall st pst st' after r,
  ~ (forall a, In a td -> yields a) -> loop_emit step st pst td = Some (st', after, r) -> length (past after) <= length pst + length td.
Proof.
  induction td as [|a td IH]; intros st pst st' after r H E; [exfalso; apply H; intros a []|]. destruct a as [|[d|]]; simpl in E.
  - injection E as <- <- <-. simpl. rewrite app_length. simpl. lia.
  - destruct (step st d) as [[s1 [o|]]|]; [| |discriminate].
    + injection E as <- <- <-. simpl. rewrite app_length. simpl. lia.
    + apply IH in E; [simpl; rewrite app_length in E; simpl in E; lia|]. intros Ha. apply H. intros b [<-|Hb]; [exact I|exact (Ha b Hb)].
  - injection E as <- <- <-. simpl. rewrite app_length. simpl. lia.
Qed.

Lemma emit_stops {St O} (step : St -> vecdiff V -> option (St * option O)) st pst td st' after r :
  ~ (forall a, In a td -> yields a) -> emit_poll step (st, mkSrc pst td) = Some ((st', after), r) -> length (past after) <= length pst + length td.
Proof.
  intros H. unfold emit_poll. simpl. destruct (loop_emit step st pst td) as [[[s1 sr1] r1]|] eqn:E; [|discriminate].
  intros X. injection X as <- <- <-. exact (loop_stops _ _ _ _ _ _ _ H E).
Qed.

Lemma c_stops c st pst td st' after r : ~ (forall a, In a td -> yields a) -> cpoll c (st, mkSrc pst td) = Some ((st', after), r) ->
  length (past after) <= length pst + length td.
Proof.
  intros H E. destruct c as [f|p|f|compare|mk|]; cbn [cpoll cstate] in *; try exact (emit_stops _ _ _ _ _ _ _ H E).
  - destruct st as [pe va ix]. unfold sort_poll in E. destruct pe as [d|].
    + injection E as <- <- <-. simpl. lia.
    + exact (emit_stops _ _ _ _ _ _ _ H E).
  - destruct (enumerate_poll (st, mkSrc pst td)) as [[[s1 sr1] r1]|] eqn:E1; [|discriminate]. injection E as <- <- <-.
    exact (emit_stops _ _ _ _ _ _ _ H E1).
Qed.

(** The same for Chain. *)
Lemma slot_silent log known (b : bool) r sl : silent known -> poll_slot (b, mkSrc log known) = (r, sl) ->
  r = None \/ r = Some Pending \/ r = Some (Ready None).
Proof.
  intros H. unfold poll_slot. destruct b; [|intros E; injection E as <- <-; auto]. destruct known as [|a known]; cbn; intros E; injection E as <- <-; auto.
  destruct a as [|[d|]]; auto. exfalso. apply (H (Ready (Some d))); [left; reflexivity|exact I].
Qed.

Lemma chain_silent kl kr (st st' : chain_state V) r : silent kl -> silent kr -> chain_poll (feed kl kr st) = Some (st', r) ->
  length (ch_pending st') <= length (ch_pending st) /\ (yields r -> length (ch_pending st') < length (ch_pending st)).
Proof.
  intros Hl Hr. destruct st as [[bl [pl tl]] [br [pr tr]] nl nr ds]. unfold chain_poll, pop_front, feed. cbn [ch_pending ch_left ch_right fst snd past ch_left_len ch_right_len].
  destruct ds as [|d ds].
  2:{ intros E. injection E as <- <-. simpl. lia. }
  unfold process_left. cbn [ch_left]. destruct (poll_slot (bl, mkSrc pl kl)) as [a sl] eqn:Ea. apply slot_silent in Ea; [|exact Hl].
  unfold set_left, process_right, poll_right. destruct Ea as [->|[->| ->]]; cbn [ch_pending ch_left ch_right ch_left_len ch_right_len];
    destruct (poll_slot (br, mkSrc pr kr)) as [a1 sl1] eqn:Ea1; (apply slot_silent in Ea1; [|exact Hr]);
    destruct Ea1 as [->|[->| ->]]; cbn; try (match goal with |- context [if ?b then _ else _] => destruct b end);
    intros E; injection E as <- <-; simpl; (split; [lia|tauto]).
Qed.

(** Chain polls its right input at most twice. *)
Lemma slot_len (sl : slot (option (vecdiff V))) r sl' : poll_slot sl = (r, sl') -> length (past (snd sl')) <= length (past (snd sl)) + 1.
Proof.
  destruct sl as [b [pst td]]. unfold poll_slot, poll_src. destruct b; [|intros E; injection E as <- <-; simpl; lia].
  destruct td; cbn; intros E; injection E as <- <-; simpl; rewrite app_length; simpl; lia.
Qed.

Lemma rc_len b (st st' : chain_state V) o : process_right_change b st = Some (st', o) -> length (past (rsrc st')) = length (past (rsrc st)).
Proof. intros E. apply rc_right in E. destruct E as [_ E]. unfold rsrc. rewrite E. destruct b as [[|[|]]|]; reflexivity. Qed.

Lemma push_some_len b (st st' : chain_state V) : push_some (process_right_change b st) = Some st' -> length (past (rsrc st')) = length (past (rsrc st)).
Proof. intros E. apply push_some_right in E. destruct E as [_ E]. unfold rsrc. rewrite E. destruct b as [[|[|]]|]; reflexivity. Qed.

Lemma replace_len vs (st st' : chain_state V) o : process_replace vs st = Some (st', o) -> length (past (rsrc st')) <= length (past (rsrc st)) + 1.
Proof.
  unfold process_replace, poll_right. destruct (poll_slot (ch_right st)) as [b sl] eqn:Eb. apply slot_len in Eb.
  destruct (match b with Some (Ready (Some (Replace _))) => true | _ => false end) eqn:Er.
  - destruct b as [[|[[]|]]|]; try discriminate. intros E. injection E as <- <-. exact Eb.
  - intros E. assert (X : exists g3, length (past (rsrc g3)) = length (past (snd sl)) /\ exists g4, push_some (process_right_change b g3) = Some g4 /\ st' = g4).
    { destruct (ch_right_len st =? 0) eqn:E0;
      destruct b as [[|[d|]]|]; try (destruct d); try discriminate; cbn -[push_some process_right_change] in E; rewrite E0 in E;
        match type of E with context [push_some (process_right_change ?b0 ?s0)] => destruct (push_some (process_right_change b0 s0)) as [s4|] eqn:E4; [|discriminate]; injection E as <- <-; exists s0; split; [reflexivity|]; exists s4; auto end. }
    destruct X as (g3 & X1 & g4 & X2 & ->). apply push_some_len in X2. unfold rsrc in *. lia.
Qed.

Lemma clear_len (st st' : chain_state V) o : process_clear st = Some (st', o) -> length (past (rsrc st')) <= length (past (rsrc st)) + 1.
Proof.
  unfold process_clear, poll_right. destruct (poll_slot (ch_right st)) as [b sl] eqn:Eb. apply slot_len in Eb.
  destruct (match b with Some (Ready (Some Clear)) => true | _ => false end) eqn:Er.
  - destruct b as [[|[[]|]]|]; try discriminate. intros E. injection E as <- <-. exact Eb.
  - intros E. assert (X : exists g3, length (past (rsrc g3)) = length (past (snd sl)) /\ exists g4, push_some (process_right_change b g3) = Some g4 /\ st' = g4).
    { destruct (ch_right_len st =? 0) eqn:E0;
      destruct b as [[|[d|]]|]; try (destruct d); try discriminate; cbn -[push_some process_right_change] in E; rewrite E0 in E;
        match type of E with context [push_some (process_right_change ?b0 ?s0)] => destruct (push_some (process_right_change b0 s0)) as [s4|] eqn:E4; [|discriminate]; injection E as <- <-; exists s0; split; [reflexivity|]; exists s4; auto end. }
    destruct X as (g3 & X1 & g4 & X2 & ->). apply push_some_len in X2. unfold rsrc in *. lia.
Qed.

Lemma left_len (st st' : chain_state V) o : process_left st = Some (st', o) -> length (past (rsrc st')) <= length (past (rsrc st)) + 1.
Proof.
  unfold process_left. destruct (poll_slot (ch_left st)) as [b sl]. destruct b as [[|[d|]]|]; try (intros E; injection E as <- <-; unfold rsrc; simpl; lia).
  destruct d; cbn -[process_replace process_clear]; try (intros E; injection E as <- <-; unfold rsrc; simpl; lia).
  - intros E. apply replace_len in E. exact E.
  - destruct (usub _ _); [|discriminate]. intros E; injection E as <- <-; unfold rsrc; simpl; lia.
  - destruct (_ =? _); intros E; injection E as <- <-; unfold rsrc; simpl; lia.
  - destruct (usub _ _); [|discriminate]. destruct (_ =? _); intros E; injection E as <- <-; unfold rsrc; simpl; lia.
  - intros E. apply clear_len in E. exact E.
Qed.

Lemma chain_len (st st' : chain_state V) o : chain_poll st = Some (st', o) -> length (past (rsrc st')) <= length (past (rsrc st)) + 2.
Proof.
  unfold chain_poll, pop_front. destruct (ch_pending st); [|intros E; injection E as <- <-; unfold rsrc; simpl; lia].
  destruct (process_left st) as [[s1 o1]|] eqn:E1; [|discriminate]. apply left_len in E1.
  destruct o1; [intros E; injection E as <- <-; lia|].
  destruct (ch_pending s1); [|intros E; injection E as <- <-; unfold rsrc in *; simpl; lia].
  destruct (process_right s1) as [[s2 o2]|] eqn:E2; [|discriminate].
  assert (L2 : length (past (rsrc s2)) <= length (past (rsrc s1)) + 1).
  { unfold process_right, poll_right in E2. destruct (poll_slot (ch_right s1)) as [b sl] eqn:Eb. apply slot_len in Eb. apply rc_len in E2.
    unfold rsrc in *. simpl in E2. lia. }
  destruct o2; [intros E; injection E as <- <-; lia|].
  destruct (ch_pending s2); [|intros E; injection E as <- <-; unfold rsrc in *; simpl; lia].
  destruct (negb _ && negb _); intros E; injection E as <- <-; lia.
Qed.

(** ** More fuel *)
Definition more (p q : sig V -> vecs V -> pres V) : Prop := forall s v, p s v <> POut -> q s v = p s v.

Lemma drive_more p q : more p q -> forall k k' c st log known s v, k <= k' ->
  drive p k c st log known s v <> POut -> drive q k' c st log known s v = drive p k c st log known s v.
Proof.
  intros Hm. induction k as [|k IH]; intros [|k'] c st log known s v Hk; try lia; cbn [drive];
    destruct (cpoll c (st, mkSrc log known)) as [[[st' after] r]|]; try reflexivity; destruct (starved log known after); try reflexivity; try (intros H; congruence).
  intros H. assert (Hp : p s v <> POut) by (intros E; rewrite E in H; congruence). rewrite (Hm s v Hp).
  destruct (p s v) as [|s1 v1|s1 v1 a]; try reflexivity. apply IH; [lia|exact H].
Qed.

Lemma drive2_more p q : more p q -> forall k k' st kl kr s1 s2 v, k <= k' ->
  drive2 p k st kl kr s1 s2 v <> POut -> drive2 q k' st kl kr s1 s2 v = drive2 p k st kl kr s1 s2 v.
Proof.
  intros Hm. induction k as [|k IH]; intros [|k'] st kl kr s1 s2 v Hk; try lia; cbn [drive2];
    destruct (chain_poll (feed kl kr st)) as [[st' r]|]; try reflexivity; destruct (starved (log_of (ch_left st)) kl (snd (ch_left st')));
    try (intros H; congruence); try (destruct (starved (log_of (ch_right st)) kr (snd (ch_right st'))); try reflexivity; try (intros H; congruence)).
  all: intros H.
  1, 2: assert (Hp : p s1 v <> POut) by (intros E; rewrite E in H; congruence); rewrite (Hm s1 v Hp);
    destruct (p s1 v) as [|s3 v1|s3 v1 a]; try reflexivity; apply IH; [lia|exact H].
  assert (Hp : p s2 v <> POut) by (intros E; rewrite E in H; congruence). rewrite (Hm s2 v Hp).
  destruct (p s2 v) as [|s3 v1|s3 v1 a]; try reflexivity. apply IH; [lia|exact H].
Qed.

Lemma poll_more n : forall n', n <= n' -> more (poll_sig n) (poll_sig n').
Proof.
  induction n as [|n IH]; intros [|n'] Hn s v H; try lia; try (exfalso; apply H; reflexivity). cbn [poll_sig] in *.
  destruct s as [m id|c st log s|st s1 s2]; [reflexivity| |].
  - apply drive_more; [apply IH; lia|lia|exact H].
  - apply drive2_more; [apply IH; lia|lia|exact H].
Qed.

(** ** In the middle of a poll *)

(** What holds before each poll of the input of a combinator (see [drive_good]). *)
Definition mid c (st : cstate c) (log known : list ans) s v outs : Prop :=
  (forall m, inv (v m)) /\ ok v s (log ++ known) /\ VecExecFacts.ran (cpoll c) (cinit c) log st outs /\ ~ In (Ready None) outs /\ NoDup (leaves s).

Lemma mid_asks c st log known s v outs st' after r : mid c st log known s v outs ->
  cpoll c (st, mkSrc log known) = Some ((st', after), r) -> starved log known after = true -> ~ In (Ready None) (log ++ known).
Proof.
  intros (Hv & Hok & Hran & Hn & Hnd) E Hst.
  destruct (c_demand c _ _ _ _ _ _ E) as [(u & E1 & E2 & E3)|(-> & E2 & _)].
  { exfalso. apply starved_iff in Hst. rewrite E2, E1, !app_length in Hst. lia. }
  destruct Hran as (j & Hj). pose proof (ran_then _ (c_demand c) _ _ _ _ _ known Hj Hn) as X. rewrite E in X.
  destruct (c_wakes c _ _ _ _ _ X) as (_ & _ & O). rewrite E2 in O. intros Hi. apply in_split in Hi. destruct Hi as (a & b & Hab).
  specialize (O a (b ++ [Pending])). rewrite app_assoc, Hab, <- app_assoc in O. specialize (O eq_refl). destruct b; discriminate.
Qed.

Lemma mid_next pollin c st log known s v outs st' after r s1 v1 a : good_poll pollin -> mid c st log known s v outs ->
  cpoll c (st, mkSrc log known) = Some ((st', after), r) -> starved log known after = true -> pollin s v = POk s1 v1 a ->
  mid c st log (known ++ [a]) s1 v1 outs /\ pipe_of s1 = pipe_of s.
Proof.
  intros Hp Hm E Hst Ep. pose proof (mid_asks _ _ _ _ _ _ _ _ _ _ Hm E Hst) as Hne. destruct Hm as (Hv & Hok & Hran & Hn & Hnd).
  pose proof (Hp s v _ Hv Hok Hne Hnd) as X. rewrite Ep in X. destruct X as (X1 & X2 & X3 & X4 & _). rewrite <- app_assoc in X1.
  split; [|exact X3]. split; [exact (fr_inv _ _ _ X4 Hv)|]. split; [exact X1|]. split; [exact Hran|]. split; [exact Hn|]. rewrite X2. exact Hnd.
Qed.

Definition mid2 (st : chain_state V) (kl kr : list ans) s1 s2 v outs : Prop :=
  (forall m, inv (v m)) /\ ok v s1 (log_of (ch_left st) ++ kl) /\ ok v s2 (log_of (ch_right st) ++ kr)
  /\ cran st outs /\ ~ In (Ready None) outs /\ NoDup (leaves s1 ++ leaves s2) /\ asked st kl kr.

(** If the left input is asked, nothing else was asked before. *)
Lemma mid2_left st kl kr s1 s2 v outs st' r : mid2 st kl kr s1 s2 v outs -> chain_poll (feed kl kr st) = Some (st', r) ->
  starved (log_of (ch_left st)) kl (lsrc st') = true -> wants_left st = true /\ kl = [] /\ kr = [] /\ ~ In (Ready None) (log_of (ch_left st) ++ []).
Proof.
  intros (Hv & Ho1 & Ho2 & Hran & Hn & Hnd & Hask) E Sl. destruct (chain_demand _ _ _ _ _ E) as [D1 _]. fold (lsrc st') in D1. apply starved_iff in Sl.
  destruct Hask as [A1 A2].
  assert (W : wants_left st = true /\ kl = []).
  { destruct (wants_left st); rewrite D1 in Sl; cbn in Sl; [|lia]. split; [reflexivity|].
    destruct A1 as [->|(_ & a & ->)]; [reflexivity|]. cbn in Sl. rewrite app_length in Sl. simpl in Sl. lia. }
  destruct W as [W ->]. split; [exact W|]. split; [reflexivity|].
  split. { destruct A2 as [->|(A2 & _)]; [reflexivity|]. exfalso. exact (A2 W eq_refl). }
  rewrite app_nil_r. destruct Hran as (_ & _ & j & Hj). destruct (run_slots _ _ _ _ _ Hj) as [[[_ [_ X]] _] _].
  intros Hi. specialize (X Hi). unfold wants_left in W. rewrite X in W. discriminate.
Qed.

Lemma mid2_right st kl kr s1 s2 v outs st' r : mid2 st kl kr s1 s2 v outs -> chain_poll (feed kl kr st) = Some (st', r) ->
  starved (log_of (ch_left st)) kl (lsrc st') = false -> starved (log_of (ch_right st)) kr (rsrc st') = true ->
  (wants_left st = true -> kl <> []) /\ length kr < 2 /\ ~ In (Ready None) (log_of (ch_right st) ++ kr).
Proof.
  intros (Hv & Ho1 & Ho2 & Hran & Hn & Hnd & Hask) E Sl Sr. destruct (chain_demand _ _ _ _ _ E) as [D1 D2]. fold (lsrc st') in D1.
  assert (P : exists p, log_of (ch_right st') = (log_of (ch_right st) ++ kr) ++ Pending :: p).
  { destruct D2 as [(u & E1 & E2 & _)|(_ & p & E2)].
    - exfalso. apply starved_iff in Sr. unfold rsrc in Sr. unfold log_of in E2 at 1. rewrite E2, E1, !app_length in Sr. lia.
    - exists p. rewrite E2, app_assoc. reflexivity. }
  split; [|split].
  - intros W ->. rewrite W in D1. apply Bool.not_true_iff_false in Sl. apply Sl. apply starved_iff. rewrite D1. cbn.
    rewrite app_length. simpl. lia.
  - apply starved_iff in Sr. apply chain_len in E. unfold rsrc at 2 in E. cbn [feed ch_right snd past] in E. unfold log_of in Sr. lia.
  - destruct P as (p & P). destruct Hran as (_ & _ & j & Hj). destruct (run_slots _ _ _ _ _ Hj) as [Hsl _].
    destruct (poll_slots _ _ _ (feed_slots kl kr st Hsl) E) as [[_ [O _]] _]. fold (log_of (ch_right st')) in O. rewrite P in O.
    intros Hi. apply in_split in Hi. destruct Hi as (x & y & Hxy). rewrite Hxy, <- app_assoc in O. specialize (O _ _ eq_refl). destruct y; discriminate.
Qed.

Lemma mid2_next_left pollin st kl kr s1 s2 v outs st' r s1' v1 a : good_poll pollin -> mid2 st kl kr s1 s2 v outs ->
  chain_poll (feed kl kr st) = Some (st', r) -> starved (log_of (ch_left st)) kl (lsrc st') = true -> pollin s1 v = POk s1' v1 a ->
  mid2 st (kl ++ [a]) kr s1' s2 v1 outs /\ pipe_of s1' = pipe_of s1 /\ news v1 s2 = news v s2.
Proof.
  intros Hp Hm E Sl Ep. destruct (mid2_left _ _ _ _ _ _ _ _ _ Hm E Sl) as (W & -> & -> & Hne). destruct Hm as (Hv & Ho1 & Ho2 & Hran & Hn & Hnd & Hask).
  pose proof (proj1 (nodup_app _ _ Hnd)) as Hnd1.
  pose proof (Hp s1 v _ Hv Ho1 Hne Hnd1) as X. rewrite Ep in X. destruct X as (X1 & X2 & X3 & X4 & _). rewrite app_nil_r in X1.
  assert (Dj : forall l, In l (leaves s2) -> ~ In l (leaves s1)).
  { intros l H2 H1. exact (proj2 (proj2 (nodup_app _ _ Hnd)) l H1 H2). }
  split; [|split; [exact X3|exact (news_frame _ _ _ _ X4 Dj)]].
  split; [exact (fr_inv _ _ _ X4 Hv)|]. split; [exact X1|]. split; [exact (ok_frame _ _ _ _ _ X4 Dj Ho2)|]. split; [exact Hran|]. split; [exact Hn|].
  split; [rewrite X2; exact Hnd|]. split; [right; split; [exact W|exists a; reflexivity]|left; reflexivity].
Qed.

Lemma mid2_next_right pollin st kl kr s1 s2 v outs st' r s2' v1 a : good_poll pollin -> mid2 st kl kr s1 s2 v outs ->
  chain_poll (feed kl kr st) = Some (st', r) -> starved (log_of (ch_left st)) kl (lsrc st') = false ->
  starved (log_of (ch_right st)) kr (rsrc st') = true -> pollin s2 v = POk s2' v1 a ->
  mid2 st kl (kr ++ [a]) s1 s2' v1 outs /\ pipe_of s2' = pipe_of s2 /\ news v1 s1 = news v s1.
Proof.
  intros Hp Hm E Sl Sr Ep. destruct (mid2_right _ _ _ _ _ _ _ _ _ Hm E Sl Sr) as (W & _ & Hne). destruct Hm as (Hv & Ho1 & Ho2 & Hran & Hn & Hnd & Hask).
  pose proof (proj1 (proj2 (nodup_app _ _ Hnd))) as Hnd2. pose proof (proj2 (proj2 (nodup_app _ _ Hnd))) as Dj.
  pose proof (Hp s2 v _ Hv Ho2 Hne Hnd2) as X. rewrite Ep in X. destruct X as (X1 & X2 & X3 & X4 & _). rewrite <- app_assoc in X1.
  split; [|split; [exact X3|exact (news_frame _ _ _ _ X4 Dj)]].
  split; [exact (fr_inv _ _ _ X4 Hv)|]. split; [exact (ok_frame _ _ _ _ _ X4 Dj Ho1)|]. split; [exact X1|]. split; [exact Hran|]. split; [exact Hn|].
  split; [rewrite X2; exact Hnd|]. split; [apply Hask|]. right. split; [exact W|]. exists kr, a, st', r. auto.
Qed.

(** ** A poll that gives a diff leaves less to come *)
Definition spends (pollin : sig V -> vecs V -> pres V) : Prop :=
  forall s v outs, (forall m, inv (v m)) -> ok v s outs -> ~ In (Ready None) outs -> NoDup (leaves s) ->
  match pollin s v with POk s' v' r => less_eq (news v' s') (news v s) /\ (yields r -> less (news v' s') (news v s)) | _ => True end.

Lemma silent_or (l : list ans) : silent l \/ exists a, In a l /\ yields a.
Proof.
  induction l as [|a l IH]; [left; intros a []|]. destruct a as [|[d|]].
  - destruct IH as [IH|(b & Hb & Y)]; [left|right; exists b; simpl; auto]. intros b [<-|Hb]; [exact (fun X => X)|exact (IH b Hb)].
  - right. exists (Ready (Some d)). simpl. auto.
  - destruct IH as [IH|(b & Hb & Y)]; [left|right; exists b; simpl; auto]. intros b [<-|Hb]; [exact (fun X => X)|exact (IH b Hb)].
Qed.

Lemma drive_spends pollin : good_poll pollin -> spends pollin -> forall k c st log known s v outs N0,
  mid c st log known s v outs -> less_eq (news v s) N0 -> ((exists a, In a known /\ yields a) -> less (news v s) N0) ->
  match drive pollin k c st log known s v with
  | POk s' v' r => less_eq (news v' s') (N0 ++ [own c st]) /\ (yields r -> less (news v' s') (N0 ++ [own c st]))
  | _ => True
  end.
Proof.
  intros Hg Hs. assert (Hend : forall c st log known s v N0 st' after r, less_eq (news v s) N0 -> ((exists a, In a known /\ yields a) -> less (news v s) N0) ->
    cpoll c (st, mkSrc log known) = Some ((st', after), r) ->
    less_eq (news v s ++ [own c st']) (N0 ++ [own c st]) /\ (yields r -> less (news v s ++ [own c st']) (N0 ++ [own c st]))).
  { intros c st log known s v N0 st' after r H1 H2 E. destruct (silent_or known) as [Q|Q].
    - destruct (c_silent _ _ _ _ _ _ _ Q E) as [O1 O2].
      assert (X : own c st' < own c st -> less (news v s ++ [own c st']) (N0 ++ [own c st])).
      { intros O. destruct H1 as [->|H1]; [apply less_tail; split; [reflexivity|left; exact O]|apply less_app; [exact H1|reflexivity]]. }
      split; [|intros Y; exact (X (O2 Y))]. destruct (Nat.eq_dec (own c st') (own c st)) as [->|Hne]; [|right; apply X; lia].
      apply less_eq_app; [exact H1|left; reflexivity].
    - specialize (H2 Q). split; [right|intros _]; apply less_app; auto. }
  induction k as [|k IH]; intros c st log known s v outs N0 Hm H1 H2; cbn [drive];
    destruct (cpoll c (st, mkSrc log known)) as [[[st' after] r]|] eqn:E; try exact I;
    destruct (starved log known after) eqn:Hst; try exact I; try (exact (Hend _ _ _ _ _ _ _ _ _ _ H1 H2 E)).
  pose proof (mid_asks _ _ _ _ _ _ _ _ _ _ Hm E Hst) as Hne. pose proof Hm as (Hv & Hok & _ & _ & Hnd).
  pose proof (Hs s v _ Hv Hok Hne Hnd) as X. destruct (pollin s v) as [|s1 v1|s1 v1 a] eqn:Ep; try exact I. destruct X as [X1 X2].
  destruct (mid_next _ _ _ _ _ _ _ _ _ _ _ _ _ _ Hg Hm E Hst Ep) as [Hm' _].
  apply (IH c st log (known ++ [a]) s1 v1 outs N0 Hm').
  - exact (less_eq_trans _ _ _ X1 H1).
  - intros (b & Hb & Y). apply in_app_or in Hb. destruct Hb as [Hb|[->|[]]].
    + apply (then_less _ _ _ X1). apply H2. eauto.
    + apply (less_then _ _ _ (X2 Y) H1).
Qed.

Lemma drive2_spends pollin : good_poll pollin -> spends pollin -> forall k st kl kr s1 s2 v outs N0,
  mid2 st kl kr s1 s2 v outs -> less_eq (news v s1 ++ news v s2) N0 ->
  ((exists a, In a (kl ++ kr) /\ yields a) -> less (news v s1 ++ news v s2) N0) ->
  match drive2 pollin k st kl kr s1 s2 v with
  | POk s' v' r => less_eq (news v' s') (N0 ++ [length (ch_pending st)]) /\ (yields r -> less (news v' s') (N0 ++ [length (ch_pending st)]))
  | _ => True
  end.
Proof.
  intros Hg Hs. assert (Hend : forall st kl kr s1 s2 v N0 st' r, less_eq (news v s1 ++ news v s2) N0 ->
    ((exists a, In a (kl ++ kr) /\ yields a) -> less (news v s1 ++ news v s2) N0) -> chain_poll (feed kl kr st) = Some (st', r) ->
    less_eq (news v (GChain st' s1 s2)) (N0 ++ [length (ch_pending st)]) /\ (yields r -> less (news v (GChain st' s1 s2)) (N0 ++ [length (ch_pending st)]))).
  { intros st kl kr s1 s2 v N0 st' r H1 H2 E. cbn [news]. destruct (silent_or (kl ++ kr)) as [Q|Q].
    - assert (Q1 : silent kl) by (intros a Ha; apply Q, in_or_app; auto). assert (Q2 : silent kr) by (intros a Ha; apply Q, in_or_app; auto).
      destruct (chain_silent _ _ _ _ _ Q1 Q2 E) as [O1 O2].
      assert (X : length (ch_pending st') < length (ch_pending st) -> less ((news v s1 ++ news v s2) ++ [length (ch_pending st')]) (N0 ++ [length (ch_pending st)])).
      { intros O. destruct H1 as [->|H1]; [apply less_tail; split; [reflexivity|left; exact O]|apply less_app; [exact H1|reflexivity]]. }
      split; [|intros Y; exact (X (O2 Y))]. destruct (Nat.eq_dec (length (ch_pending st')) (length (ch_pending st))) as [->|Hne]; [|right; apply X; lia].
      apply less_eq_app; [exact H1|left; reflexivity].
    - specialize (H2 Q). split; [right|intros _]; apply less_app; auto. }
  induction k as [|k IH]; intros st kl kr s1 s2 v outs N0 Hm H1 H2; cbn [drive2];
    destruct (chain_poll (feed kl kr st)) as [[st' r]|] eqn:E; try exact I; fold (lsrc st') (rsrc st');
    destruct (starved (log_of (ch_left st)) kl (lsrc st')) eqn:Sl; try exact I;
    try (destruct (starved (log_of (ch_right st)) kr (rsrc st')) eqn:Sr; try exact I; try (exact (Hend _ _ _ _ _ _ _ _ _ H1 H2 E))).
  1, 2: destruct (mid2_left _ _ _ _ _ _ _ _ _ Hm E Sl) as (_ & El & Er & Hne); subst kl kr; pose proof Hm as (Hv & Hok & _ & _ & _ & Hnd & _);
    pose proof (Hs s1 v _ Hv Hok Hne (proj1 (nodup_app _ _ Hnd))) as X; destruct (pollin s1 v) as [|s3 v1|s3 v1 a] eqn:Ep; try exact I; destruct X as [X1 X2];
    destruct (mid2_next_left _ _ _ _ _ _ _ _ _ _ _ _ _ Hg Hm E Sl Ep) as (Hm' & _ & Hn);
    apply (IH st ([] ++ [a]) [] s3 s2 v1 outs N0 Hm'); rewrite Hn;
    [apply (less_eq_trans _ (news v s1 ++ news v s2)); [apply less_eq_app; [exact X1|left; reflexivity]|exact H1]
    |intros (b & Hb & Y); simpl in Hb; destruct Hb as [->|[]]; apply (less_then _ (news v s1 ++ news v s2)); [apply less_app; auto|exact H1]].
  destruct (mid2_right _ _ _ _ _ _ _ _ _ Hm E Sl Sr) as (_ & _ & Hne). pose proof Hm as (Hv & _ & Hok & _ & _ & Hnd & _).
  pose proof (Hs s2 v _ Hv Hok Hne (proj1 (proj2 (nodup_app _ _ Hnd)))) as X. destruct (pollin s2 v) as [|s3 v1|s3 v1 a] eqn:Ep; try exact I. destruct X as [X1 X2].
  destruct (mid2_next_right _ _ _ _ _ _ _ _ _ _ _ _ _ Hg Hm E Sl Sr Ep) as (Hm' & _ & Hn).
  apply (IH st kl (kr ++ [a]) s1 s3 v1 outs N0 Hm'); rewrite Hn.
  - apply (less_eq_trans _ (news v s1 ++ news v s2)); [apply less_eq_app; [left; reflexivity|exact X1]|exact H1].
  - intros (b & Hb & Y). rewrite app_assoc in Hb. apply in_app_or in Hb. destruct Hb as [Hb|[->|[]]].
    + apply (then_less _ (news v s1 ++ news v s2)); [apply less_eq_app; [left; reflexivity|exact X1]|]. apply H2. eauto.
    + apply (less_then _ (news v s1 ++ news v s2)); [apply less_tail; exact (X2 Y)|exact H1].
Qed.

Lemma mid_start c st log s v outs : (forall m, inv (v m)) -> ok v (GOne c st log s) outs -> ~ In (Ready None) outs -> NoDup (leaves s) ->
  mid c st log [] s v outs.
Proof. intros Hv [H1 H2] Hn Hnd. split; [exact Hv|]. rewrite app_nil_r. auto. Qed.

Lemma mid2_start st s1 s2 v outs : (forall m, inv (v m)) -> ok v (GChain st s1 s2) outs -> ~ In (Ready None) outs -> NoDup (leaves s1 ++ leaves s2) ->
  mid2 st [] [] s1 s2 v outs.
Proof. intros Hv (H1 & H2 & H3) Hn Hnd. split; [exact Hv|]. rewrite !app_nil_r. repeat (split; [assumption|]). split; left; reflexivity. Qed.

Lemma poll_spends n : spends (poll_sig n).
Proof.
  induction n as [|n IH]; intros s v outs Hv Hok Hn Hnd; [exact I|]. destruct s as [m id|c st log s|st s1 s2]; cbn [poll_sig].
  - destruct Hok as (y & Hy & Ha & Hg). rewrite Hy. destruct (poll_one (v m) id y Hy Ha) as (P1 & _).
    cbn [news]. rewrite fupd_same, P1, Hy. unfold poll_sub. destruct (queue y) as [|d q] eqn:Eq.
    + destruct (owners (v m) =? 0); cbn; rewrite ?Eq; split; try (left; reflexivity); tauto.
    + cbn. split; [right|intros _]; (split; [reflexivity|left; simpl; lia]).
  - apply (drive_spends (poll_sig n) (poll_sig_good n) IH n c st log [] s v outs (news v s)).
    + apply mid_start; assumption.
    + left; reflexivity.
    + intros (a & [] & _).
  - apply (drive2_spends (poll_sig n) (poll_sig_good n) IH n st [] [] s1 s2 v outs (news v s1 ++ news v s2)).
    + apply mid2_start; assumption.
    + left; reflexivity.
    + intros (a & [] & _).
Qed.

(** ** Every poll ends *)
Definition ends s v : Prop := exists n, poll_sig n s v <> POut.

Lemma drive_ends c st log outs :
  forall p, (forall s v outs', pipe_of s = p -> (forall m, inv (v m)) -> ok v s outs' -> ~ In (Ready None) outs' -> NoDup (leaves s) -> ends s v) ->
  forall N0 known s v, news v s = N0 -> pipe_of s = p -> mid c st log known s v outs ->
  exists n, drive (poll_sig n) n c st log known s v <> POut.
Proof.
  intros p Hp. induction N0 as [N0 IH] using (well_founded_induction less_wf). intros known s v Hn Hpipe Hm.
  destruct (cpoll c (st, mkSrc log known)) as [[[st' after] r]|] eqn:E; [|exists 0; cbn; rewrite E; discriminate].
  destruct (starved log known after) eqn:Hst; [|exists 0; cbn [drive]; rewrite E, Hst; discriminate].
  pose proof (mid_asks _ _ _ _ _ _ _ _ _ _ Hm E Hst) as Hne. pose proof Hm as (Hv & Hok & _ & _ & Hnd).
  destruct (Hp s v _ Hpipe Hv Hok Hne Hnd) as (n0 & Hn0).
  pose proof (poll_spends n0 s v _ Hv Hok Hne Hnd) as X.
  destruct (poll_sig n0 s v) as [|s1 v1|s1 v1 a] eqn:Ep; [congruence| |].
  - exists (S n0). cbn [drive]. rewrite E, Hst. rewrite (poll_more n0 (S n0)); [rewrite Ep; discriminate|lia|rewrite Ep; discriminate].
  - destruct X as [X1 X2]. destruct (mid_next _ _ _ _ _ _ _ _ _ _ _ _ _ _ (poll_sig_good n0) Hm E Hst Ep) as [Hm' Hp'].
    assert (Y : exists n, drive (poll_sig n) n c st log (known ++ [a]) s1 v1 <> POut).
    { assert (D : yields a \/ ~ yields a) by (destruct a as [|[|]]; simpl; tauto). destruct D as [D|D].
      - apply (IH (news v1 s1)); auto; [rewrite <- Hn; exact (X2 D)|congruence].
      - exists 0. cbn [drive]. destruct (cpoll c (st, mkSrc log (known ++ [a]))) as [[[st2 after2] r2]|] eqn:E2; [|discriminate].
        assert (S2 : starved log (known ++ [a]) after2 = false).
        { apply Bool.not_true_iff_false. rewrite starved_iff. intros L. assert (K : length (past after2) <= length log + length (known ++ [a])); [|lia].
          apply (c_stops c st log (known ++ [a]) st2 after2 r2); [|exact E2]. intros H. apply D, H, in_or_app. right. left. reflexivity. }
        rewrite S2. discriminate. }
    destruct Y as (n1 & Y). exists (S (max n0 n1)). cbn [drive]. rewrite E, Hst.
    rewrite (poll_more n0 (S (max n0 n1))); [|lia|rewrite Ep; discriminate]. rewrite Ep.
    rewrite (drive_more (poll_sig n1) (poll_sig (S (max n0 n1))) (poll_more _ _ (Nat.le_trans _ _ _ (Nat.le_max_r n0 n1) (Nat.le_succ_diag_r _))) n1); [exact Y|lia|exact Y].
Qed.

Lemma drive2_ends st outs p1 p2 :
  (forall s v outs', pipe_of s = p1 -> (forall m, inv (v m)) -> ok v s outs' -> ~ In (Ready None) outs' -> NoDup (leaves s) -> ends s v) ->
  (forall s v outs', pipe_of s = p2 -> (forall m, inv (v m)) -> ok v s outs' -> ~ In (Ready None) outs' -> NoDup (leaves s) -> ends s v) ->
  forall b kl kr s1 s2 v, (1 - length kl) + (2 - length kr) <= b -> pipe_of s1 = p1 -> pipe_of s2 = p2 -> mid2 st kl kr s1 s2 v outs ->
  exists n, drive2 (poll_sig n) n st kl kr s1 s2 v <> POut.
Proof.
  intros Hp1 Hp2. induction b as [|b IH]; intros kl kr s1 s2 v Hb E1 E2 Hm;
    (destruct (chain_poll (feed kl kr st)) as [[st' r]|] eqn:E; [|exists 0; cbn; rewrite E; discriminate]);
    (destruct (starved (log_of (ch_left st)) kl (lsrc st')) eqn:Sl;
      [|destruct (starved (log_of (ch_right st)) kr (rsrc st')) eqn:Sr; [|exists 0; cbn [drive2]; rewrite E; fold (lsrc st') (rsrc st'); rewrite Sl, Sr; discriminate]]).
  - exfalso. destruct (mid2_left _ _ _ _ _ _ _ _ _ Hm E Sl) as (_ & -> & _). simpl in Hb. lia.
  - exfalso. destruct (mid2_right _ _ _ _ _ _ _ _ _ Hm E Sl Sr) as (_ & L & _). lia.
  - destruct (mid2_left _ _ _ _ _ _ _ _ _ Hm E Sl) as (_ & El & Er & Hne). pose proof Hm as (Hv & Hok & _ & _ & _ & Hnd & _). rewrite El in Hok.
    destruct (Hp1 s1 v _ E1 Hv Hok Hne (proj1 (nodup_app _ _ Hnd))) as (n0 & Hn0).
    destruct (poll_sig n0 s1 v) as [|s3 v1|s3 v1 a] eqn:Ep; [congruence| |].
    + exists (S n0). cbn [drive2]. rewrite E. fold (lsrc st'). rewrite Sl. rewrite (poll_more n0 (S n0)); [rewrite Ep; discriminate|lia|rewrite Ep; discriminate].
    + destruct (mid2_next_left _ _ _ _ _ _ _ _ _ _ _ _ _ (poll_sig_good n0) Hm E Sl Ep) as (Hm' & Hp' & _).
      destruct (IH (kl ++ [a]) kr s3 s2 v1) as (n1 & Y); [subst; simpl in *; lia|congruence|exact E2|exact Hm'|].
      exists (S (max n0 n1)). cbn [drive2]. rewrite E. fold (lsrc st'). rewrite Sl.
      rewrite (poll_more n0 (S (max n0 n1))); [|lia|rewrite Ep; discriminate]. rewrite Ep.
      rewrite (drive2_more (poll_sig n1) (poll_sig (S (max n0 n1))) (poll_more _ _ (Nat.le_trans _ _ _ (Nat.le_max_r n0 n1) (Nat.le_succ_diag_r _))) n1); [exact Y|lia|exact Y].
  - destruct (mid2_right _ _ _ _ _ _ _ _ _ Hm E Sl Sr) as (_ & L & Hne). pose proof Hm as (Hv & _ & Hok & _ & _ & Hnd & _).
    destruct (Hp2 s2 v _ E2 Hv Hok Hne (proj1 (proj2 (nodup_app _ _ Hnd)))) as (n0 & Hn0).
    destruct (poll_sig n0 s2 v) as [|s3 v1|s3 v1 a] eqn:Ep; [congruence| |].
    + exists (S n0). cbn [drive2]. rewrite E. fold (lsrc st') (rsrc st'). rewrite Sl, Sr. rewrite (poll_more n0 (S n0)); [rewrite Ep; discriminate|lia|rewrite Ep; discriminate].
    + destruct (mid2_next_right _ _ _ _ _ _ _ _ _ _ _ _ _ (poll_sig_good n0) Hm E Sl Sr Ep) as (Hm' & Hp' & _).
      destruct (IH kl (kr ++ [a]) s1 s3 v1) as (n1 & Y); [rewrite app_length; cbn [length]; lia|exact E1|congruence|exact Hm'|].
      exists (S (max n0 n1)). cbn [drive2]. rewrite E. fold (lsrc st') (rsrc st'). rewrite Sl, Sr.
      rewrite (poll_more n0 (S (max n0 n1))); [|lia|rewrite Ep; discriminate]. rewrite Ep.
      rewrite (drive2_more (poll_sig n1) (poll_sig (S (max n0 n1))) (poll_more _ _ (Nat.le_trans _ _ _ (Nat.le_max_r n0 n1) (Nat.le_succ_diag_r _))) n1); [exact Y|lia|exact Y].
Qed.

Lemma poll_ends p : forall s v outs, pipe_of s = p -> (forall m, inv (v m)) -> ok v s outs -> ~ In (Ready None) outs -> NoDup (leaves s) -> ends s v.
Proof.
  induction p as [m|c p IH|p IHp q IHq]; intros s v outs Hp Hv Hok Hn Hnd; destruct s as [m' id|c' st log s|st s1 s2]; try discriminate; simpl in Hp.
  - destruct Hok as (y & Hy & _). exists 1. cbn. rewrite Hy. discriminate.
  - injection Hp as -> Hp.
    destruct (drive_ends c st log outs p IH (news v s) [] s v eq_refl Hp (mid_start _ _ _ _ _ _ Hv Hok Hn Hnd)) as (n & H).
    exists (S n). exact H.
  - injection Hp as Hp1 Hp2.
    destruct (drive2_ends st outs p q IHp IHq 3 [] [] s1 s2 v (le_n _) Hp1 Hp2 (mid2_start _ _ _ _ _ Hv Hok Hn Hnd)) as (n & H).
    exists (S n). exact H.
Qed.

(** ** What the executor still has to do *)
Definition block w (t : nat) : list nat :=
  let x := w_task w t in
  [if t_woken x then 1 else 0; match t_pc x with TRun | TCall => 1 | _ => 0 end]
  ++ news (w_vec w) (t_sig x) ++ [match t_pc x with TCall => 1 | _ => 0 end].
Definition blocks w : list nat := concat (map (block w) (seq 0 (w_nt w))).

Lemma blocks_less_at {T} (f g : nat -> list T) : forall l, (forall u, In u l -> f u = g u) -> concat (map f l) = concat (map g l).
Proof. induction l as [|u l IH]; intros H; [reflexivity|]. simpl. rewrite (H u (or_introl eq_refl)). f_equal. apply IH. intros w Hw. apply H. right. exact Hw. Qed.

Lemma blocks_less w w' t : w_nt w' = w_nt w -> t < w_nt w -> less (block w' t) (block w t) ->
  (forall u, u < w_nt w -> u <> t -> block w' u = block w u) -> less (blocks w') (blocks w).
Proof.
  intros En Ht Hl Ho. unfold blocks. rewrite En. replace (w_nt w) with (t + (1 + (w_nt w - S t))) by lia.
  rewrite !seq_app, !map_app, !concat_app. cbn [seq map concat]. rewrite !app_nil_r, !Nat.add_0_l.
  rewrite (blocks_less_at (block w') (block w) (seq 0 t)) by (intros u Hu; apply in_seq in Hu; apply Ho; lia).
  apply less_tail. rewrite (blocks_less_at (block w') (block w) (seq (t + 1) (w_nt w - S t))) by (intros u Hu; apply in_seq in Hu; apply Ho; lia).
  apply less_app; [exact Hl|reflexivity].
Qed.

Lemma block_news v w t x : w_task w t = x -> w_vec w = v ->
  block w t = [if t_woken x then 1 else 0; match t_pc x with TRun | TCall => 1 | _ => 0 end] ++ news v (t_sig x) ++ [match t_pc x with TCall => 1 | _ => 0 end].
Proof. intros <- <-. reflexivity. Qed.

Lemma news_len v s v' s' : pipe_of s = pipe_of s' -> length (news v s) = length (news v' s').
Proof. intros H. rewrite !news_size, H. reflexivity. Qed.

(** Everything that the executor does itself leaves less to do. *)
Lemma busy_less w mv w' : winv w -> busy mv = true -> step w mv = Some w' -> less (blocks w') (blocks w).
Proof.
  intros Hw Hb E. pose proof Hw as (Hv & Ht & Hd).
  destruct mv as [vs|m|m|m o|p|t|t|t|t n|t r]; try discriminate Hb; cbn [step] in E.
  - destruct (t <? w_nt w) eqn:Lt; [|discriminate]. apply Nat.ltb_lt in Lt. destruct (t_woken (w_task w t)) eqn:Wk; [|discriminate]. cbn [andb] in E.
    destruct (t_pc (w_task w t)) eqn:Pc; try discriminate; injection E as <-; apply (blocks_less _ _ t); auto;
      try (intros u _ Hu; unfold block; cbn; rewrite fupd_other by exact Hu; reflexivity);
      (unfold block; cbn; rewrite fupd_same, Wk, Pc; cbn; split; [simpl; rewrite !app_length; reflexivity|left; lia]).
  - destruct (t_pc (w_task w t)) eqn:Pc; try discriminate. destruct (t <? w_nt w) eqn:Lt; [|discriminate]. apply Nat.ltb_lt in Lt.
    pose proof (Ht t Lt) as (T1 & T2 & T3 & T4). rewrite Pc in T4. destruct T4 as [Hok Hn].
    pose proof (poll_sig_good n _ _ _ Hv Hok Hn T1) as G. pose proof (poll_spends n _ _ _ Hv Hok Hn T1) as X.
    assert (Dj : forall u, u < w_nt w -> u <> t -> forall l, In l (leaves (t_sig (w_task w u))) -> ~ In l (leaves (t_sig (w_task w t)))).
    { intros u Hu Hne l Hl. exact (Hd u t l Hu Lt Hne Hl). }
    destruct (poll_sig n (t_sig (w_task w t)) (w_vec w)) as [|s1 v1|s1 v1 a] eqn:Ep; [discriminate| |].
    + injection E as <-. destruct G as (_ & _ & Q & F & _).
      apply (blocks_less _ _ t); auto.
      * unfold block; cbn; rewrite fupd_same, Pc; cbn. split; [simpl; rewrite !app_length, (news_len v1 s1 (w_vec w) (t_sig (w_task w t))) by congruence; reflexivity|].
        right. split; [reflexivity|]. left. lia.
      * intros u Hu Hne. unfold block; cbn. rewrite fupd_other by exact Hne. rewrite (news_frame _ _ _ _ F (Dj u Hu Hne)). reflexivity.
    + destruct G as (G1 & G2 & G3 & G4 & _). destruct X as [X1 X2]. destruct a as [|[d|]]; injection E as <-; apply (blocks_less _ _ t); auto.
      * unfold block; cbn; rewrite fupd_same, Pc; cbn. split; [simpl; rewrite !app_length, (news_len v1 s1 (w_vec w) (t_sig (w_task w t))) by congruence; reflexivity|].
        right. split; [reflexivity|]. left. lia.
      * intros u Hu Hne. unfold block; cbn. rewrite fupd_other by exact Hne. rewrite (news_frame _ _ _ _ G4 (Dj u Hu Hne)). reflexivity.
      * unfold block; cbn -[less]; rewrite fupd_same, Pc; cbn -[less]. specialize (X2 I).
        apply (less_tail [_; _]). apply less_app; [exact X2|reflexivity].
      * intros u Hu Hne. unfold block; cbn. rewrite fupd_other by exact Hne. rewrite (news_frame _ _ _ _ G4 (Dj u Hu Hne)). reflexivity.
      * unfold block; cbn; rewrite fupd_same, Pc; cbn. split; [simpl; rewrite !app_length, (news_len (drop_sig s1 v1) s1 (w_vec w) (t_sig (w_task w t))) by congruence; reflexivity|].
        right. split; [reflexivity|]. left. lia.
      * intros u Hu Hne. unfold block; cbn. rewrite fupd_other by exact Hne.
        rewrite (news_frame (leaves s1) v1 (drop_sig s1 v1)); [|apply drop_sig_frame|rewrite G2; exact (Dj u Hu Hne)].
        rewrite (news_frame _ _ _ _ G4 (Dj u Hu Hne)). reflexivity.
  - destruct (t_pc (w_task w t)) eqn:Pc; try discriminate. destruct (t <? w_nt w) eqn:Lt; [|discriminate]. apply Nat.ltb_lt in Lt.
    injection E as <-; apply (blocks_less _ _ t); auto;
      try (intros u _ Hu; unfold block; cbn; rewrite fupd_other by exact Hu; reflexivity).
    unfold block; cbn -[less]; rewrite fupd_same, Pc; cbn -[less]. destruct r; cbn -[less].
    + apply (less_tail [_; _]). apply less_tail. split; [reflexivity|left; lia].
    + split; [simpl; rewrite !app_length; reflexivity|right; split; [reflexivity|left; lia]].
Qed.

(** ** The executor always becomes idle *)
Definition bounded w k : Prop := forall mvs w', forallb (@busy V) mvs = true -> exec step w mvs = Some w' -> length mvs <= k.

(** Only finitely many worlds can come next. *)
Lemma task_next w t : winv w -> exists l, forall mv w', (mv = MStart t \/ (exists n, mv = MPoll t n) \/ exists r, mv = MFut t r) ->
  step w mv = Some w' -> exists mv', In mv' l /\ busy mv' = true /\ step w mv' = Some w'.
Proof.
  intros (Hv & Ht & Hd).
  assert (P : exists n0, forall n w', step w (MPoll t n) = Some w' -> step w (MPoll t n0) = Some w').
  { cbn [step]. destruct (t_pc (w_task w t)) eqn:Pc; try (exists 0; discriminate). destruct (t <? w_nt w) eqn:Lt; [|exists 0; discriminate].
    apply Nat.ltb_lt in Lt. destruct (Ht t Lt) as (T1 & _ & _ & T4). rewrite Pc in T4. destruct T4 as [Hok Hn].
    destruct (poll_ends _ _ _ _ eq_refl Hv Hok Hn T1) as (n0 & H0). exists n0. intros n w' E.
    assert (Ee : poll_sig n0 (t_sig (w_task w t)) (w_vec w) = poll_sig n (t_sig (w_task w t)) (w_vec w)).
    { assert (Hn' : poll_sig n (t_sig (w_task w t)) (w_vec w) <> POut) by (intros Q; rewrite Q in E; discriminate).
      destruct (Nat.le_ge_cases n n0) as [L|L]; [exact (poll_more _ _ L _ _ Hn')|symmetry; exact (poll_more _ _ L _ _ H0)]. }
    rewrite Ee. exact E. }
  destruct P as (n0 & P). exists [MStart t; MPoll t n0; MFut t true; MFut t false].
  intros mv w' [->|[(n & ->)|([|] & ->)]] E.
  - exists (MStart t). split; [simpl; tauto|split; [reflexivity|exact E]].
  - exists (MPoll t n0). split; [simpl; tauto|split; [reflexivity|exact (P _ _ E)]].
  - exists (MFut t true). split; [simpl; tauto|split; [reflexivity|exact E]].
  - exists (MFut t false). split; [simpl; tauto|split; [reflexivity|exact E]].
Qed.

Lemma next w : winv w -> exists l, forall mv w', busy mv = true -> step w mv = Some w' -> exists mv', In mv' l /\ busy mv' = true /\ step w mv' = Some w'.
Proof.
  intros Hw. assert (H : forall k, exists l, forall t mv w', t < k -> (mv = MStart t \/ (exists n, mv = MPoll t n) \/ exists r, mv = MFut t r) ->
    step w mv = Some w' -> exists mv', In mv' l /\ busy mv' = true /\ step w mv' = Some w').
  { induction k as [|k (l & IH)]; [exists []; intros; lia|]. destruct (task_next w k Hw) as (l' & Hl'). exists (l ++ l'). intros t mv w' Lt Hm E.
    destruct (Nat.eq_dec t k) as [->|Hne].
    - destruct (Hl' mv w' Hm E) as (mv' & H1 & H2). exists mv'. split; [apply in_or_app; auto|exact H2].
    - destruct (IH t mv w' ltac:(lia) Hm E) as (mv' & H1 & H2). exists mv'. split; [apply in_or_app; auto|exact H2]. }
  destruct (H (w_nt w)) as (l & Hl). exists l. intros mv w' Hb E.
  assert (X : exists t, t < w_nt w /\ (mv = MStart t \/ (exists n, mv = MPoll t n) \/ exists r, mv = MFut t r)).
  { destruct mv as [vs|m|m|m o|p|t|t|t|t n|t r]; try discriminate; exists t; cbn [step] in E.
    - destruct (t <? w_nt w) eqn:Lt; [apply Nat.ltb_lt in Lt; auto|discriminate].
    - destruct (t_pc (w_task w t)); try discriminate. destruct (t <? w_nt w) eqn:Lt; [apply Nat.ltb_lt in Lt|discriminate]. split; [exact Lt|]. eauto.
    - destruct (t_pc (w_task w t)); try discriminate. destruct (t <? w_nt w) eqn:Lt; [apply Nat.ltb_lt in Lt|discriminate]. split; [exact Lt|]. eauto. }
  destruct X as (t & Lt & Hm). exact (Hl t mv w' Lt Hm E).
Qed.

Lemma busy_bounded w : winv w -> exists k, bounded w k.
Proof.
  intros Hw. remember (blocks w) as b eqn:Eb. revert w Hw Eb. induction b as [b IH] using (well_founded_induction less_wf). intros w Hw ->.
  destruct (next w Hw) as (l & Hl).
  assert (X : exists k, forall mv w1, In mv l -> busy mv = true -> step w mv = Some w1 -> bounded w1 k).
  { clear Hl. induction l as [|mv l (k & Hk)]; [exists 0; intros mv w1 []|]. destruct (busy mv) eqn:Eb; [|exists k; intros mv' w1 [<-|Hi] Hb E; [congruence|eauto]].
    destruct (step w mv) as [w1|] eqn:E; [|exists k; intros mv' w1 [<-|Hi] Hb E'; [congruence|eauto]].
    destruct (IH (blocks w1) (busy_less _ _ _ Hw Eb E) w1 (step_winv _ _ _ Hw E) eq_refl) as (k1 & H1).
    exists (max k k1). intros mv' w2 [<-|Hi] Hb E' mvs w' Hm Ex.
    - rewrite E in E'. injection E' as <-. specialize (H1 mvs w' Hm Ex). lia.
    - specialize (Hk mv' w2 Hi Hb E' mvs w' Hm Ex). lia. }
  destruct X as (k & Hk). exists (S k). intros [|mv mvs] w' Hm Ex; [simpl; lia|]. cbn [forallb] in Hm. apply andb_prop in Hm. destruct Hm as [Hb Hm].
  cbn [exec] in Ex. destruct (step w mv) as [w1|] eqn:E; [|discriminate]. destruct (Hl mv w1 Hb E) as (mv' & Hi & Hb' & E').
  specialize (Hk mv' w1 Hi Hb' E' mvs w' Hm Ex). simpl. lia.
Qed.

Lemma busy_or_idle w : winv w -> idle w \/ exists mv w', busy mv = true /\ step w mv = Some w'.
Proof.
  intros (Hv & Ht & Hd).
  assert (H : forall k, k <= w_nt w -> (forall t, t < k -> match t_pc (w_task w t) with
      | TSleep | TFut => t_woken (w_task w t) = false | TRun | TCall => False | TDone | TGone | TPanic => True end)
    \/ exists mv w', busy mv = true /\ step w mv = Some w').
  { induction k as [|k IH]; intros Hk; [left; intros; lia|]. destruct (IH ltac:(lia)) as [H|H]; [|right; exact H].
    assert (Lt : k < w_nt w) by lia. pose proof (proj2 (Nat.ltb_lt k (w_nt w)) Lt) as Lb.
    assert (X : match t_pc (w_task w k) with
      | TSleep | TFut => t_woken (w_task w k) = false | TRun | TCall => False | TDone | TGone | TPanic => True end
      \/ exists mv w', busy mv = true /\ step w mv = Some w').
    { destruct (t_pc (w_task w k)) eqn:Pc; auto.
      - destruct (t_woken (w_task w k)) eqn:Wk; [right|left; reflexivity]. exists (MStart k). cbn [step]. rewrite Lb, Wk, Pc. eexists. split; reflexivity.
      - right. destruct (Ht k Lt) as (T1 & _ & _ & T4). rewrite Pc in T4. destruct T4 as [Hok Hn].
        destruct (poll_ends _ _ _ _ eq_refl Hv Hok Hn T1) as (n & Hp). exists (MPoll k n). cbn [step]. rewrite Lb, Pc.
        destruct (poll_sig n (t_sig (w_task w k)) (w_vec w)) as [|s1 v1|s1 v1 [|[d|]]]; [congruence| | | |]; eexists; split; reflexivity.
      - right. exists (MFut k true). cbn [step]. rewrite Lb, Pc. eexists. split; reflexivity.
      - destruct (t_woken (w_task w k)) eqn:Wk; [right|left; reflexivity]. exists (MStart k). cbn [step]. rewrite Lb, Wk, Pc. eexists. split; reflexivity. }
    destruct X as [X|X]; [left|right; exact X]. intros t Htk. destruct (Nat.eq_dec t k) as [->|Hne]; [exact X|apply H; lia]. }
  destruct (H (w_nt w) (le_n _)) as [X|X]; [left; exact X|right; exact X].
Qed.

Lemma becomes_idle w : winv w -> exists mvs w', forallb (@busy V) mvs = true /\ exec step w mvs = Some w' /\ idle w'.
Proof.
  intros Hw. remember (blocks w) as b eqn:Eb. revert w Hw Eb. induction b as [b IH] using (well_founded_induction less_wf). intros w Hw ->.
  destruct (busy_or_idle w Hw) as [H|(mv & w1 & Hb & E)]; [exists [], w; auto|].
  destruct (IH (blocks w1) (busy_less _ _ _ Hw Hb E) w1 (step_winv _ _ _ Hw E) eq_refl) as (mvs & w' & H1 & H2 & H3).
  exists (mv :: mvs), w'. cbn [forallb exec]. rewrite Hb, E. auto.
Qed.

(** ** What the executor does leaves the MutableVecs alone *)
Lemma busy_step w mv w' : winv w -> busy mv = true -> step w mv = Some w' ->
  w_nt w' = w_nt w /\ forall m, values (w_vec w' m) = values (w_vec w m) /\ owners (w_vec w' m) = owners (w_vec w m) /\ poisoned (w_vec w' m) = poisoned (w_vec w m).
Proof.
  intros (Hv & Ht & Hd) Hb E. destruct mv as [vs|m|m|m o|p|t|t|t|t n|t r]; try discriminate Hb; cbn [step] in E.
  - destruct (t <? w_nt w); [|discriminate]. destruct (t_woken (w_task w t)); [|discriminate]. cbn [andb] in E.
    destruct (t_pc (w_task w t)); try discriminate; injection E as <-; cbn; auto.
  - destruct (t_pc (w_task w t)) eqn:Pc; try discriminate. destruct (t <? w_nt w) eqn:Lt; [|discriminate]. apply Nat.ltb_lt in Lt.
    pose proof (Ht t Lt) as (T1 & T2 & T3 & T4). rewrite Pc in T4. destruct T4 as [Hok Hn].
    pose proof (poll_sig_good n _ _ _ Hv Hok Hn T1) as G.
    destruct (poll_sig n (t_sig (w_task w t)) (w_vec w)) as [|s1 v1|s1 v1 a] eqn:Ep; [discriminate| |].
    + injection E as <-. destruct G as (_ & _ & _ & F & _). split; [reflexivity|]. exact (fr_vals _ _ _ F).
    + destruct G as (_ & _ & _ & F & _). destruct a as [|[d|]]; injection E as <-; split; try reflexivity; try exact (fr_vals _ _ _ F).
      intros m. cbn. destruct (fr_vals _ _ _ F m) as (A & B & C). destruct (fr_vals _ _ _ (drop_sig_frame s1 v1) m) as (A' & B' & C').
      split; [congruence|]. split; congruence.
  - destruct (t_pc (w_task w t)); try discriminate. destruct (t <? w_nt w); [|discriminate]. injection E as <-. cbn. auto.
Qed.

Lemma busy_steps mvs : forall w w', winv w -> forallb (@busy V) mvs = true -> exec step w mvs = Some w' ->
  w_nt w' = w_nt w /\ (forall m, values (w_vec w' m) = values (w_vec w m) /\ owners (w_vec w' m) = owners (w_vec w m) /\ poisoned (w_vec w' m) = poisoned (w_vec w m))
  /\ (forall t, t < w_nt w -> t_pipe (w_task w' t) = t_pipe (w_task w t)) /\ forall F N, careful F N w mvs.
Proof.
  induction mvs as [|mv mvs IH]; intros w w' Hw Hb Ex.
  - injection Ex as <-. split; [reflexivity|]. split; [auto|]. split; [auto|]. intros F N. exact I.
  - cbn [forallb] in Hb. apply andb_prop in Hb. destruct Hb as [Hb Hm]. cbn [exec] in Ex. destruct (step w mv) as [w1|] eqn:E; [|discriminate].
    destruct (busy_step _ _ _ Hw Hb E) as [A1 A2]. destruct (IH w1 w' (step_winv _ _ _ Hw E) Hm Ex) as (B1 & B2 & B3 & B4).
    split; [congruence|]. split; [|split].
    + intros m. destruct (A2 m) as (? & ? & ?), (B2 m) as (? & ? & ?). split; [congruence|]. split; congruence.
    + intros t Ht. rewrite B3 by (rewrite A1; exact Ht). apply (end_grows _ _ _ _ E Ht).
    + intros F N. cbn [careful]. split; [destruct mv; try exact I; discriminate|]. rewrite E. apply B4.
Qed.

Lemma careful_app F N l1 : forall w w1 l2, careful F N w l1 -> exec step w l1 = Some w1 -> careful F N w1 l2 -> careful F N w (l1 ++ l2).
Proof.
  induction l1 as [|mv l1 IH]; intros w w1 l2 H1 E H2; [injection E as <-; exact H2|]. cbn [careful exec app] in *. destruct H1 as [A B]. split; [exact A|].
  destruct (step w mv) as [w'|]; [|exact I]. exact (IH _ _ _ B E H2).
Qed.

Lemma shows_ext (f g : nat -> list V) s : (forall m, f m = g m) -> forall out, shows f s out -> shows g s out.
Proof.
  intros H. induction s as [m id|c st log s IH|st s1 IH1 s2 IH2]; intros out; simpl.
  - rewrite H. exact (fun X => X).
  - intros (l & A & B). exists l. split; [exact (IH _ A)|exact B].
  - intros (l1 & l2 & A & B & C). exists l1, l2. split; [exact (IH1 _ A)|]. split; [exact (IH2 _ B)|exact C].
Qed.

Lemma end_bounded mvs w : exec step w_init mvs = Some w -> exists k, bounded w k.
Proof. intros H. apply busy_bounded. exact (reach_winv _ _ H). Qed.
Lemma end_progress mvs w : exec step w_init mvs = Some w -> idle w \/ exists mv w', busy mv = true /\ step w mv = Some w'.
Proof. intros H. apply busy_or_idle. exact (reach_winv _ _ H). Qed.
Lemma end_idle mvs w : exec step w_init mvs = Some w -> exists mvs' w', forallb (@busy V) mvs' = true /\ exec step w mvs' = Some w' /\ idle w'.
Proof. intros H. apply becomes_idle. exact (reach_winv _ _ H). Qed.

Lemma end_settles F N mvs w mvs' w' : exec step w_init mvs = Some w -> careful F N w_init mvs ->
  forallb (@busy V) mvs' = true -> exec step w mvs' = Some w' -> idle w' ->
  forall t, t < w_nt w -> sound F N (t_pipe (w_task w t)) -> unpoisoned w (t_pipe (w_task w t)) ->
  t_pc (w_task w' t) <> TGone -> t_pc (w_task w' t) <> TFut ->
  pipe_of (t_sig (w_task w' t)) = t_pipe (w_task w t)
  /\ (exists out, replay (seen (w_task w' t)) = Some out /\ shows (contents w) (t_sig (w_task w' t)) out)
  /\ (t_pc (w_task w' t) = TDone <-> forall m, In m (muts (t_pipe (w_task w t))) -> owners (w_vec w m) = 0).
Proof.
  intros H Hc Hb H' Hi t Ht Hs Hu Hg Hf. pose proof (reach_winv _ _ H) as Hw.
  destruct (busy_steps _ _ _ Hw Hb H') as (A1 & A2 & A3 & A4).
  assert (E : exec step w_init (mvs ++ mvs') = Some w') by (rewrite exec_app, H; exact H').
  assert (C : careful F N w_init (mvs ++ mvs')) by exact (careful_app _ _ _ _ _ _ Hc H (A4 F N)).
  assert (Ht' : t < w_nt w') by (rewrite A1; exact Ht). pose proof (A3 t Ht) as Ep.
  assert (Hs' : sound F N (t_pipe (w_task w' t))) by (rewrite Ep; exact Hs).
  assert (Hu' : unpoisoned w' (t_pipe (w_task w' t))).
  { rewrite Ep. revert Hu. clear -A2. induction (t_pipe (w_task w t)) as [m|c p IH|p IHp q IHq]; simpl; [|exact IH|intros [H1 H2]; auto].
    destruct (A2 m) as (_ & _ & ->). exact (fun X => X). }
  assert (X : pipe_of (t_sig (w_task w' t)) = t_pipe (w_task w' t)
    /\ exists out, replay (seen (w_task w' t)) = Some out /\ shows (contents w') (t_sig (w_task w' t)) out).
  { pose proof (Hi t Ht') as Q. destruct (t_pc (w_task w' t)) eqn:Pc; try contradiction; try congruence.
    - exact (sound_shows F N _ _ E C t Ht' Pc Q Hs' Hu').
    - destruct (sound_done F N _ _ E C t Ht' Pc Hs' Hu') as (D1 & _ & D3). auto.
    - exfalso. exact (proj1 (sound_tame F N _ _ E C t Ht' Hs') Pc). }
  destruct X as (X1 & out & X2 & X3). split; [congruence|]. split.
  - exists out. split; [exact X2|]. apply (shows_ext (contents w')); [|exact X3]. intros m. apply A2.
  - rewrite (sound_completes F N _ _ E C t Hi Ht' Hg Hf Hs'), Ep. split; intros Y m Hm; specialize (Y m Hm); destruct (A2 m) as (_ & Q & _); congruence.
Qed.
End Live.
