(** map_mut! with a body that modifies the values. *)
From Verif Require Import Base Spec BaseFacts LoopFacts Slot SlotFacts Sig SigFacts SigSlots SigSlotsFacts SigFutFacts SigFlatFacts.

Lemma called_per_round_app {A B} (f : list A -> list A * B) rs r : forall cur,
  called_per_round f cur (rs ++ [r]) =
  match called_per_round f cur rs with
  | None => None
  | Some (cur', bs) =>
      match called_per_round f cur' [r] with
      | None => None
      | Some (fin, bs') => Some (fin, bs ++ bs')
      end
  end.
Proof.
  induction rs as [|r0 rs IH]; intros cur.
  - simpl. destruct (forallb _ r); [reflexivity|]. destruct (all_some (newer r cur)); reflexivity.
  - cbn [app called_per_round]. destruct (forallb _ r0); [apply IH|].
    destruct (all_some (newer r0 cur)) as [vs|]; [|reflexivity]. rewrite IH.
    destruct (called_per_round f (map Some (fst (f vs))) rs) as [[cur' bs]|]; [|reflexivity].
    fold (called_per_round f cur' [r]).
    destruct (called_per_round f cur' [r]) as [[fin bs']|]; reflexivity.
Qed.

Definition mm_ok {A} (k : nat) (i : mr_input A) : Prop :=
  slot_ok (mr_signal i)
  /\ length (past (mr_src i)) <= k
  /\ (~ ended (mr_src i) -> length (past (mr_src i)) = k)
  /\ (if k then has_initial (todo (mr_src i)) /\ fst (mr_signal i) = true else mr_value i <> None).

Lemma answered_snoc {A} (sr sr' : src (option A)) r : past sr' = past sr ++ [r] ->
  answered (length (past sr)) sr' = match r with Ready (Some a) => Some a | _ => None end
  /\ forall j, j < length (past sr) -> answered j sr' = answered j sr.
Proof.
  intros Hp. unfold answered. rewrite Hp. split.
  - rewrite nth_error_app2, Nat.sub_diag by lia. simpl. destruct r as [|[a|]]; reflexivity.
  - intros j Hj. rewrite nth_error_app1 by lia. reflexivity.
Qed.

Lemma mm_poll_ok {A} k (i i' : mr_input A) d c : mm_ok k i -> mr_poll i = (i', (d, c)) ->
  mm_ok (S k) i'
  /\ (d = true <-> ended (mr_src i'))
  /\ c = match answered k (mr_src i') with Some _ => true | None => false end
  /\ mr_value i' = match answered k (mr_src i') with Some a => Some a | None => mr_value i end
  /\ (forall j, j < k -> answered j (mr_src i') = answered j (mr_src i))
  /\ (c = false -> d = false -> awaits (mr_src i'))
  /\ (k = 0 -> c = true).
Proof.
  intros (Hok & Hlen & Hlen2 & Hk) E. unfold mr_poll in E.
  assert (Hk0 : k = 0 -> exists a sl', poll_slot (mr_signal i) = (Some (Ready (Some a)), sl')).
  { intros ->. destruct Hk as [(a & t & Ht) Hl]. unfold mr_src in Ht. destruct (mr_signal i) as [b [p td]].
    simpl in *. subst b td. do 2 eexists. reflexivity. }
  assert (HkS : k <> 0 -> mr_value i <> None) by (destruct k; [congruence|intros _; exact Hk]).
  pose proof (poll_slot_ok (mr_signal i) Hok) as Hps. unfold mr_src in *.
  destruct (poll_slot (mr_signal i)) as [[[|[a|]]|] sl'].
  - destruct Hps as (Hl & Hok' & Haw & Hp). injection E as <- <- <-.
    assert (Hne : ~ ended (snd (mr_signal i))) by (intros Hz; apply Hok in Hz; congruence).
    assert (Hk' : k <> 0) by (intros Hz; destruct (Hk0 Hz) as (? & ? & ?); discriminate).
    specialize (Hlen2 Hne). destruct (answered_snoc _ _ _ Hp) as [Ha Hj]. rewrite Hlen2 in Ha, Hj.
    unfold mm_ok, mr_src. cbn [mr_signal mr_value]. rewrite Ha, Hp, app_length, Nat.add_1_r, Hlen2.
    split; [|split; [|split; [reflexivity|split; [reflexivity|split; [exact Hj|split; [auto|congruence]]]]]].
    + split; [exact Hok'|]. split; [lia|]. split; [auto|]. exact (HkS Hk').
    + split; [discriminate|]. unfold ended. rewrite Hp. intros Hz. exfalso. revert Hz.
      apply no_end_app; [exact Hne|apply no_end_pending].
  - destruct Hps as (Hl & Hok' & Hp). injection E as <- <- <-.
    assert (Hne : ~ ended (snd (mr_signal i))) by (intros Hz; apply Hok in Hz; congruence).
    specialize (Hlen2 Hne). destruct (answered_snoc _ _ _ Hp) as [Ha Hj]. rewrite Hlen2 in Ha, Hj.
    unfold mm_ok, mr_src. cbn [mr_signal mr_value]. rewrite Ha, Hp, app_length, Nat.add_1_r, Hlen2.
    split; [|split; [|split; [reflexivity|split; [reflexivity|split; [exact Hj|split; [discriminate|auto]]]]]].
    + split; [exact Hok'|]. split; [lia|]. split; [auto|]. discriminate.
    + split; [discriminate|]. unfold ended. rewrite Hp. intros Hz. exfalso. revert Hz.
      apply no_end_app; [exact Hne|apply no_end_some].
  - destruct Hps as (Hl & Hok' & Hen & Hp). injection E as <- <- <-.
    assert (Hne : ~ ended (snd (mr_signal i))) by (intros Hz; apply Hok in Hz; congruence).
    assert (Hk' : k <> 0) by (intros Hz; destruct (Hk0 Hz) as (? & ? & ?); discriminate).
    specialize (Hlen2 Hne). destruct (answered_snoc _ _ _ Hp) as [Ha Hj]. rewrite Hlen2 in Ha, Hj.
    unfold mm_ok, mr_src. cbn [mr_signal mr_value]. change (snd (drop_slot sl')) with (snd sl').
    rewrite Ha, Hp, app_length, Nat.add_1_r, Hlen2.
    split; [|split; [|split; [reflexivity|split; [reflexivity|split; [exact Hj|split; [discriminate|congruence]]]]]].
    + split; [exact Hok'|]. split; [lia|]. split; [auto|]. exact (HkS Hk').
    + split; [intros _; exact Hen|reflexivity].
  - destruct Hps as [-> Hl]. injection E as <- <- <-.
    assert (Hen : ended (snd (mr_signal i))) by (apply Hok; exact Hl).
    assert (Hk' : k <> 0) by (intros Hz; destruct (Hk0 Hz) as (? & ? & ?); discriminate).
    assert (Ha : answered k (snd (mr_signal i)) = None).
    { unfold answered. rewrite (proj2 (nth_error_None _ _) Hlen). reflexivity. }
    unfold mm_ok, mr_src. cbn [mr_signal mr_value]. rewrite Ha.
    split; [|split; [|split; [reflexivity|split; [reflexivity|split; [reflexivity|split; [discriminate|congruence]]]]]].
    + split; [exact Hok|]. split; [lia|]. split; [contradiction|]. exact (HkS Hk').
    + split; [intros _; exact Hen|reflexivity].
Qed.

Lemma mm_poll_all_ok {A} k (is is' : list (mr_input A)) d c :
  Forall (mm_ok k) is -> mr_poll_all is = (is', (d, c)) ->
  Forall (mm_ok (S k)) is'
  /\ length is' = length is
  /\ (d = true <-> Forall (fun i => ended (mr_src i)) is')
  /\ c = negb (forallb (fun v => match v with None => true | Some _ => false end) (map (fun i => answered k (mr_src i)) is'))
  /\ map mr_value is' = newer (map (fun i => answered k (mr_src i)) is') (map mr_value is)
  /\ (forall j, j < k -> map (fun i => answered j (mr_src i)) is' = map (fun i => answered j (mr_src i)) is)
  /\ (c = false -> Forall (fun i => awaits (mr_src i) \/ ended (mr_src i)) is')
  /\ (c = false -> d = false -> Exists (fun i => awaits (mr_src i)) is')
  /\ (k = 0 -> is <> [] -> c = true).
Proof.
  revert is' d c. induction is as [|i is IH]; intros is' d c Hall E.
  - injection E as <- <- <-. split; [constructor|]. split; [reflexivity|].
    split; [split; [constructor|reflexivity]|]. split; [reflexivity|]. split; [reflexivity|].
    split; [reflexivity|]. split; [constructor|]. split; [discriminate|congruence].
  - simpl in E. destruct (mr_poll i) as [i1 [d1 c1]] eqn:E1.
    destruct (mr_poll_all is) as [is1 [d2 c2]] eqn:E2. injection E as <- <- <-.
    inversion Hall as [|? ? Hi His]; subst.
    destruct (mm_poll_ok k i i1 d1 c1 Hi E1) as (P1 & P2 & P3 & P4 & P5 & P6 & P7).
    destruct (IH is1 d2 c2 His eq_refl) as (Q1 & Q2 & Q3 & Q4 & Q5 & Q6 & Q7 & Q8 & Q9).
    split; [constructor; assumption|]. split; [simpl; rewrite Q2; reflexivity|].
    split; [|split; [|split; [|split; [|split; [|split]]]]].
    + rewrite andb_true_iff, Forall_cons_iff, P2, Q3. reflexivity.
    + simpl. rewrite P3, Q4. destruct (answered k (mr_src i1)); reflexivity.
    + simpl. rewrite Q5, P4. destruct (answered k (mr_src i1)); reflexivity.
    + intros j Hj. simpl. rewrite (P5 j Hj), (Q6 j Hj). reflexivity.
    + intros Hc. apply orb_false_iff in Hc. destruct Hc as [Hc1 Hc2]. constructor; [|exact (Q7 Hc2)].
      destruct d1; [right; apply P2; reflexivity|left; exact (P6 Hc1 eq_refl)].
    + intros Hc Hd. apply orb_false_iff in Hc. destruct Hc as [Hc1 Hc2]. apply Exists_cons.
      destruct d1; [right; exact (Q8 Hc2 Hd)|left; exact (P6 Hc1 eq_refl)].
    + intros Hk _. rewrite (P7 Hk). reflexivity.
Qed.

Lemma all_some_values {A} (is : list (mr_input A)) : all_some (map mr_value is) = mr_values is.
Proof.
  induction is as [|i is IH]; [reflexivity|]. simpl. destruct (mr_value i) as [v|]; [|reflexivity].
  rewrite IH. destruct (mr_values is); reflexivity.
Qed.

Lemma mr_values_length {A} (is : list (mr_input A)) vs : mr_values is = Some vs -> length vs = length is.
Proof.
  revert vs. induction is as [|i is IH]; intros vs H; simpl in H.
  - injection H as <-. reflexivity.
  - destruct (mr_value i); [|discriminate]. destruct (mr_values is) as [ws|]; [|discriminate].
    injection H as <-. simpl. rewrite (IH ws eq_refl). reflexivity.
Qed.

Lemma mr_store_ok {A} k (is : list (mr_input A)) vs : length vs = length is -> Forall (mm_ok (S k)) is ->
  Forall (mm_ok (S k)) (mr_store is vs) /\ map mr_value (mr_store is vs) = map Some vs
  /\ map mr_src (mr_store is vs) = map mr_src is.
Proof.
  revert vs. induction is as [|i is IH]; intros [|v vs] Hl Hall; simpl in *; try discriminate.
  - auto.
  - inversion Hall as [|? ? Hi His]; subst. destruct (IH vs ltac:(lia) His) as (H1 & H2 & H3).
    rewrite H2, H3. split; [|auto]. constructor; [|exact H1].
    destruct Hi as (P1 & P2 & P3 & P4). split; [exact P1|]. split; [exact P2|]. split; [exact P3|].
    simpl. discriminate.
Qed.

Definition rounds_of {A} (srs : list (src (option A))) (n : nat) : list (list (option A)) :=
  map (fun k => map (answered k) srs) (seq 0 n).

Lemma rounds_of_S {A} (srs : list (src (option A))) n :
  rounds_of srs (S n) = rounds_of srs n ++ [map (answered n) srs].
Proof. unfold rounds_of. rewrite seq_S, map_app. reflexivity. Qed.

Definition mm_inv {A B} (f : list A -> list A * B) (k0 : nat) (is : list (mr_input A)) (outs : list (poll (option B))) : Prop :=
  Forall (mm_ok (length outs)) is
  /\ length is = k0
  /\ (outs <> [] -> has_initial outs)
  /\ called_per_round f (repeat None k0) (rounds_of (map mr_src is) (length outs)) = Some (map mr_value is, yielded outs)
  /\ (last_out outs Pending ->
        Forall (fun i => awaits (mr_src i) \/ ended (mr_src i)) is /\ Exists (fun i => awaits (mr_src i)) is)
  /\ (last_out outs (Ready None) -> Forall (fun i => ended (mr_src i)) is).

Lemma newer_none {A} (r old : list (option A)) : length r = length old ->
  forallb (fun v => match v with None => true | Some _ => false end) r = true -> newer r old = old.
Proof.
  revert old. induction r as [|v r IH]; intros [|o old] Hl Hf; simpl in *; try discriminate; [reflexivity|].
  apply andb_true_iff in Hf. destruct Hf as [Hv Hf]. destruct v; [discriminate|]. rewrite IH; [reflexivity|lia|exact Hf].
Qed.

Lemma mm_step {A B} (f : list A -> list A * B) k0 (is : list (mr_input A)) outs :
  k0 <> 0 -> (forall vs, length (fst (f vs)) = length vs) -> mm_inv f k0 is outs ->
  exists is' o, map_mut_poll f is = Some (is', o) /\ mm_inv f k0 is' (outs ++ [o]).
Proof.
  intros Hk0 Hf (Hall & Hn & Hi & Hc & _ & _). unfold map_mut_poll.
  destruct (mr_poll_all is) as [is1 [d c]] eqn:E.
  destruct (mm_poll_all_ok (length outs) is is1 d c Hall E) as (Q1 & Q2 & Q3 & Q4 & Q5 & Q6 & Q7 & Q8 & Q9).
  assert (Hlen : forall o : poll (option B), length (outs ++ [o]) = S (length outs)) by (intros o; rewrite app_length, Nat.add_1_r; reflexivity).
  assert (Hval : Forall (fun i => mr_value i <> None) is1).
  { eapply Forall_impl; [|exact Q1]. intros i (_ & _ & _ & Hx). exact Hx. }
  destruct (mr_values_some is1 Hval) as (vs & Ev & Em).
  assert (Hmm : forall j (l : list (mr_input A)), map (answered j) (map mr_src l) = map (fun i => answered j (mr_src i)) l)
    by (intros j l; apply map_map).
  assert (Hold : rounds_of (map mr_src is1) (length outs) = rounds_of (map mr_src is) (length outs)).
  { unfold rounds_of. apply map_ext_in. intros j Hj. apply in_seq in Hj. rewrite !Hmm. apply Q6. lia. }
  assert (Hinit : forall o, outs <> [] -> has_initial (outs ++ [o])).
  { intros o Hne. destruct (Hi Hne) as (a & t & ->). do 2 eexists. reflexivity. }
  destruct c.
  - rewrite Ev. destruct (f vs) as [vs' b] eqn:Ef.
    assert (Hl' : length vs' = length is1).
    { rewrite <- (mr_values_length _ _ Ev), <- (Hf vs), Ef. reflexivity. }
    destruct (mr_store_ok (length outs) is1 vs' Hl' Q1) as (S1 & S2 & S3).
    do 2 eexists. split; [reflexivity|]. unfold mm_inv.
    rewrite Hlen, !last_out_snoc. split; [exact S1|].
    split; [rewrite <- Hn, <- Q2, <- (map_length mr_src (mr_store is1 vs')), S3; apply map_length|].
    split; [|split; [|split; discriminate]].
    + intros _. destruct outs as [|o outs]; [do 2 eexists; reflexivity|apply Hinit; discriminate].
    + rewrite S3, rounds_of_S, Hold, called_per_round_app, Hc, Hmm. cbn [called_per_round].
      symmetry in Q4. apply negb_true_iff in Q4. rewrite Q4, <- Q5, all_some_values, Ev, Ef, S2, yielded_app. reflexivity.
  - symmetry in Q4. apply negb_false_iff in Q4.
    assert (Hne : outs <> []).
    { intros ->. assert (Hx : false = true); [|discriminate]. apply Q9; [reflexivity|]. intros ->. simpl in Hn. congruence. }
    assert (HI : forall o, yielded [o] = [] -> (o = Pending -> d = false) -> (o = Ready None -> d = true) ->
      mm_inv f k0 is1 (outs ++ [o])).
    { intros o Ho Ho1 Ho2. unfold mm_inv. rewrite Hlen, !last_out_snoc. split; [exact Q1|]. split; [congruence|].
      split; [|split; [|split]].
      - intros _. apply Hinit. exact Hne.
      - rewrite rounds_of_S, Hold, called_per_round_app, Hc, Hmm. cbn [called_per_round]. rewrite Q4.
        rewrite Q5, newer_none, yielded_app, Ho; [reflexivity|rewrite !map_length; congruence|exact Q4].
      - intros Hz. split; [exact (Q7 eq_refl)|exact (Q8 eq_refl (Ho1 Hz))].
      - intros Hz. apply Q3. exact (Ho2 Hz). }
    destruct d; do 2 eexists; (split; [reflexivity|]); apply HI; auto; discriminate.
Qed.

Lemma map_mut_modifying {A B} (f : list A -> list A * B) (scripts : list (list (poll (option A)))) n :
  scripts <> [] -> Forall has_initial scripts -> (forall vs, length (fst (f vs)) = length vs) ->
  exists is outs, run (map_mut_poll f) n (map_mut_init scripts) = Some (is, outs)
  /\ (let inputs := map (fun i => snd (mr_signal i)) is in
      length inputs = length scripts
      /\ (outs <> [] -> has_initial outs)
      /\ (exists final, called_per_round f (repeat None (length scripts))
            (map (fun k => map (answered k) inputs) (seq 0 (length outs))) = Some (final, yielded outs))
      /\ (last_out outs Pending -> Forall (fun i => awaits i \/ ended i) inputs /\ Exists awaits inputs)
      /\ (last_out outs (Ready None) -> Forall ended inputs)
      /\ Forall (fun i => obeys_end (past i) /\ length (past i) <= length outs
                         /\ (~ ended i -> length (past i) = length outs)) inputs).
Proof.
  intros Hne Hini Hf.
  destruct (run_inv0 (map_mut_poll f) (mm_inv f (length scripts)) (map_mut_init scripts))
    with (n := n) as (is & outs & Hr & Hall & Hn & Hi & Hc & Hp & He).
  - unfold mm_inv, map_mut_init. split; [|split; [apply map_length|]].
    + apply Forall_map. eapply Forall_impl; [|exact Hini]. intros s Hs. unfold mm_ok, mr_src. simpl.
      split; [apply slot_ok_fresh|]. split; [lia|]. split; [reflexivity|]. auto.
    + split; [congruence|]. split; [|split; intros H; exfalso; exact (last_out_nil _ H)].
      simpl. do 2 f_equal. rewrite map_map. simpl. clear. induction scripts as [|s l IH]; [reflexivity|].
      simpl. rewrite IH. reflexivity.
  - intros is outs HI _. apply mm_step; [|exact Hf|exact HI]. destruct scripts; [congruence|discriminate].
  - exists is, outs. split; [exact Hr|]. cbv zeta.
    split; [rewrite map_length; exact Hn|]. split; [exact Hi|]. split; [|split; [|split]].
    + eexists. exact Hc.
    + intros Hx. rewrite Forall_map, Exists_map. exact (Hp Hx).
    + intros Hx. rewrite Forall_map. exact (He Hx).
    + rewrite Forall_map. eapply Forall_impl; [|exact Hall]. intros i (H1 & H3 & H4 & _).
      split; [apply H1|]. split; [exact H3|exact H4].
Qed.
