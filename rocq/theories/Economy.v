(** What the SignalVec combinators pass on, counted (C69). *)
From Verif Require Import Base Spec BaseFacts VecDiff VecSpec VecSimple Slot Chain Sort DelayRemove SortFacts.

(** The elements carried by some diffs, in order. *)
Definition carried {A} (ds : list (vecdiff A)) : list A := flat_map values_of ds.

Lemma carried_app {A} (a b : list (vecdiff A)) : carried (a ++ b) = carried a ++ carried b.
Proof. apply flat_map_app. Qed.
Lemma carried_one {A} (d : vecdiff A) : carried [d] = values_of d.
Proof. apply app_nil_r. Qed.
Lemma carried_push {A} (l : list A) : carried (map Push l) = l.
Proof. induction l as [|x l IH]; [reflexivity|]. change (x :: carried (map Push l) = x :: l). rewrite IH. reflexivity. Qed.
Lemma carried_pop {A} n : @carried A (repeat Pop n) = [].
Proof. induction n as [|n IH]; [reflexivity|exact IH]. Qed.
Lemma carried_remove {A} l : @carried A (map RemoveAt l) = [].
Proof. induction l as [|x l IH]; [reflexivity|exact IH]. Qed.
Lemma carried_insert {A} (l : list A) : forall n,
  carried (map (fun iv => InsertAt (fst iv) (snd iv)) (combine (seq n (length l)) l)) = l.
Proof. induction l as [|x l IH]; intros n; [reflexivity|]. change (x :: carried (map (fun iv => InsertAt (fst iv) (snd iv)) (combine (seq (S n) (length l)) l)) = x :: l). rewrite IH. reflexivity. Qed.

Lemma yielded_app' {A} (a b : list (poll (option A))) : yielded (a ++ b) = yielded a ++ yielded b.
Proof. induction a as [|[|[x|]] a IH]; simpl; rewrite ?IH; reflexivity. Qed.

(** ** Runs *)
Lemma run_keeps {St O} (m : St -> option (St * poll (option O))) (I : St -> list O -> Prop) :
  (forall s outs s' r, I s outs -> m s = Some (s', r) -> I s' (outs ++ yielded [r])) ->
  forall n s s' os outs, I s outs -> run m n s = Some (s', os) -> I s' (outs ++ yielded os).
Proof.
  intros H. induction n as [|n IH]; intros s s' os outs Hi E; cbn [run] in E.
  - injection E as <- <-. simpl. rewrite app_nil_r. exact Hi.
  - destruct (m s) as [[s1 r]|] eqn:Em; [|discriminate]. specialize (H _ _ _ _ Hi Em).
    assert (E' : (r = Ready None /\ s1 = s' /\ os = [Ready None])
      \/ exists os', run m n s1 = Some (s', os') /\ os = r :: os').
    { destruct r as [|[o|]]; [right|right|left; injection E as <- <-; auto];
        (destruct (run m n s1) as [[s2 os2]|] eqn:Er; [|discriminate]; injection E as <- <-; eexists; split; reflexivity). }
    destruct E' as [(-> & -> & ->)|(os' & Er & ->)]; [exact H|].
    change (r :: os') with ([r] ++ os'). rewrite yielded_app', app_assoc. eapply IH; eauto.
Qed.

Definition tolist {O} (o : option O) : list O := match o with Some x => [x] | None => [] end.

Lemma loop_emit_keeps {St D O} (step : St -> D -> option (St * option O)) (I : St -> list D -> list O -> Prop) :
  (forall s ds os d s' o, I s ds os -> step s d = Some (s', o) -> I s' (ds ++ [d]) (os ++ tolist o)) ->
  forall td s pst os s' sr r, I s (yielded pst) os -> loop_emit step s pst td = Some (s', sr, r) ->
  I s' (yielded (past sr)) (os ++ yielded [r]).
Proof.
  intros H. induction td as [|[|[d|]] td IH]; intros s pst os s' sr r Hi E; cbn [loop_emit] in E.
  - injection E as <- <- <-. simpl. rewrite yielded_app'. simpl. rewrite !app_nil_r. exact Hi.
  - injection E as <- <- <-. simpl. rewrite yielded_app'. simpl. rewrite !app_nil_r. exact Hi.
  - destruct (step s d) as [[s1 [o|]]|] eqn:Es; [| |discriminate].
    + injection E as <- <- <-. simpl. rewrite yielded_app'. apply (H _ _ _ _ _ _ Hi Es).
    + specialize (H _ _ _ _ _ _ Hi Es). simpl in H. rewrite app_nil_r in H.
      apply (IH _ _ os) in E; [exact E|]. rewrite yielded_app'. exact H.
  - injection E as <- <- <-. simpl. rewrite yielded_app'. simpl. rewrite !app_nil_r. exact Hi.
Qed.

Lemma emit_keeps {St D O} (step : St -> D -> option (St * option O)) (I : St -> list D -> list O -> Prop) s0 :
  I s0 [] [] ->
  (forall s ds os d s' o, I s ds os -> step s d = Some (s', o) -> I s' (ds ++ [d]) (os ++ tolist o)) ->
  forall script n s sr outs, run (emit_poll step) n (s0, fresh script) = Some ((s, sr), outs) ->
  I s (yielded (past sr)) (yielded outs).
Proof.
  intros H0 H script n s sr outs E.
  apply (run_keeps _ (fun st os => I (fst st) (yielded (past (snd st))) os)) with (outs := []) in E; [exact E| |exact H0].
  clear -H. intros [s sr] os [s' sr'] r Hi Em. unfold emit_poll in Em.
  destruct (loop_emit step s (past sr) (todo sr)) as [[[s1 sr1] r1]|] eqn:El; [|discriminate]. injection Em as <- <- <-.
  exact (loop_emit_keeps step I H _ _ _ _ _ _ _ Hi El).
Qed.

(** ** One diff in, at most one diff out *)
Lemma vmap_economy {A B} (f : A -> B) script n calls sr outs :
  run (vmap_poll f) n ([], fresh script) = Some ((calls, sr), outs) ->
  carried (yielded outs) = map f (carried (yielded (past sr))) /\ length (yielded outs) = length (yielded (past sr)).
Proof.
  apply (emit_keeps (vmap_step f) (fun _ ds os => carried os = map f (carried ds) /\ length os = length ds)); [auto|].
  clear. intros s ds os d s' o [H1 H2] E. unfold vmap_step in E. destruct (vd_map f d) as [out c] eqn:Ed. injection E as <- <-.
  change (tolist (Some out)) with [out]. rewrite !carried_app, !app_length, map_app, H1, H2, !carried_one. split; [|reflexivity]. f_equal.
  destruct d; injection Ed as <- <-; reflexivity.
Qed.

Lemma filter_map_economy {A B} (f : A -> option B) script n st sr outs :
  run (filter_map_poll f) n (fm_init, fresh script) = Some ((st, sr), outs) ->
  carried (yielded outs) = accepted_values f (carried (yielded (past sr)))
  /\ length (yielded outs) <= length (yielded (past sr)).
Proof.
  apply (emit_keeps (filter_map_step f) (fun _ ds os => carried os = accepted_values f (carried ds) /\ length os <= length ds)); [auto|].
  clear. intros s ds os d s' o [H1 H2] E. rewrite !carried_app, !app_length, carried_one, H1. unfold accepted_values. rewrite flat_map_app.
  assert (G : carried (tolist o) = flat_map (fun a => match f a with Some b => [b] | None => [] end) (values_of d)).
  { destruct d as [l|i v|i v|i|a b|v| |]; cbn [filter_map_step values_of flat_map] in *.
    - injection E as <- <-. simpl. rewrite app_nil_r. induction l as [|x l IH]; [reflexivity|]. simpl. destruct (f x); simpl; rewrite IH; reflexivity.
    - destruct (f v) as [b|]; destruct (vinsert _ _ _); try discriminate; [destruct (find_index _ _); [|discriminate]|];
        injection E as <- <-; reflexivity.
    - destruct (f v) as [b|]; destruct (nth_error _ _) as [[|]|]; try discriminate;
        repeat (match type of E with context [match ?x with Some _ => _ | None => None end] => destruct x; [|discriminate] end);
        injection E as <- <-; reflexivity.
    - destruct (vremove _ _) as [[[|] l1]|]; try discriminate;
        repeat (match type of E with context [match ?x with Some _ => _ | None => None end] => destruct x; [|discriminate] end);
        injection E as <- <-; reflexivity.
    - destruct (vremove _ _) as [[[|] l1]|]; try discriminate;
        repeat (match type of E with context [match ?x with Some _ => _ | None => None end] => destruct x; [|discriminate] end);
        injection E as <- <-; reflexivity.
    - destruct (f v); injection E as <- <-; reflexivity.
    - destruct (vpop _) as [[[|] l1]|]; try discriminate; injection E as <- <-; reflexivity.
    - injection E as <- <-. reflexivity. }
  rewrite G. split; [reflexivity|]. destruct o; simpl; lia.
Qed.

Lemma filter_economy {A} (p : A -> bool) script n st sr outs :
  run (filter_poll p) n (fm_init, fresh script) = Some ((st, sr), outs) ->
  carried (yielded outs) = filter p (carried (yielded (past sr)))
  /\ length (yielded outs) <= length (yielded (past sr)).
Proof.
  intros E. apply filter_map_economy in E. destruct E as [E1 E2]. split; [|exact E2]. rewrite E1. clear.
  unfold accepted_values, filter_closure. induction (carried (yielded (past sr))) as [|x l IH]; [reflexivity|].
  simpl. rewrite IH. destruct (p x); reflexivity.
Qed.

Lemma vdebug_economy {A} (script : list (poll (option (vecdiff A)))) n sr outs :
  run vdebug_poll n (tt, fresh script) = Some ((tt, sr), outs) -> yielded outs = yielded (past sr).
Proof.
  apply (emit_keeps (@vdebug_step A) (fun _ ds os => os = ds)); [reflexivity|]. intros s ds os d s' o -> E. injection E as <- <-. reflexivity.
Qed.

Lemma alloc_cells_values {A} (l : list A) : forall h i h' cs out, alloc_cells h i l = (h', cs, out) -> map snd out = l.
Proof.
  induction l as [|x l IH]; intros h i h' cs out E; cbn [alloc_cells] in E; [injection E as <- <- <-; reflexivity|].
  destruct (alloc_cells (h ++ [Some i]) (i + 1) l) as [[h1 cs1] out1] eqn:E1. injection E as <- <- <-. simpl. f_equal. eapply IH. exact E1.
Qed.

Ltac forward E := repeat (match type of E with
  | context [match ?x with Some _ => _ | None => None end] => destruct x eqn:?; [|discriminate]
  | context [let '(_, _) := ?x in _] => first [is_var x; destruct x | destruct x eqn:?]
  | context [if ?x then _ else _] => destruct x eqn:?
  end).

Lemma enumerate_economy {A} (script : list (poll (option (vecdiff A)))) n st sr outs :
  run enumerate_poll n (en_init, fresh script) = Some ((st, sr), outs) ->
  map snd (carried (yielded outs)) = carried (yielded (past sr)) /\ length (yielded outs) = length (yielded (past sr)).
Proof.
  apply (emit_keeps (@enumerate_step A) (fun _ ds os => map snd (carried os) = carried ds /\ length os = length ds)); [auto|].
  clear. intros s ds os d s' o [H1 H2] E. rewrite !carried_app, !app_length, map_app, H1, H2, !carried_one.
  assert (G : exists out, o = Some out /\ map snd (values_of out) = values_of d).
  { destruct d as [l|i v|i v|i|a b|v| |]; unfold enumerate_step in E.
    - destruct (alloc_cells (clear_cells (en_heap s) (en_mutables s)) 0 l) as [[h2 cs] out] eqn:Ea. injection E as <- <-.
      eexists. split; [reflexivity|]. eapply alloc_cells_values. exact Ea.
    - forward E. injection E as <- <-. eexists. split; reflexivity.
    - forward E. injection E as <- <-. eexists. split; reflexivity.
    - forward E. injection E as <- <-. eexists. split; reflexivity.
    - forward E; injection E as <- <-; eexists; split; reflexivity.
    - forward E. injection E as <- <-. eexists. split; reflexivity.
    - forward E. injection E as <- <-. eexists. split; reflexivity.
    - forward E. injection E as <- <-. eexists. split; reflexivity. }
  destruct G as (out & -> & G). change (tolist (Some out)) with [out]. rewrite carried_one, G. split; reflexivity.
Qed.

(** ** sort_by_cloned *)
Section Sort.
  Context {A : Type} (compare : A -> A -> comparison).

  Lemma sort_insert_perm {X} (f : X -> X -> option comparison) x l : forall r, sort_insert f x l = Some r -> Permutation (x :: l) r.
  Proof.
    induction l as [|y l IH]; intros r E; cbn [sort_insert] in E; [injection E as <-; reflexivity|].
    destruct (f x y) as [[| |]|]; [injection E as <-; reflexivity|injection E as <-; reflexivity| |discriminate].
    destruct (sort_insert f x l) as [r'|]; [|discriminate]. injection E as <-. rewrite perm_swap. constructor. apply IH. reflexivity.
  Qed.
  Lemma sort_unstable_perm {X} (f : X -> X -> option comparison) l : forall r, sort_unstable_by f l = Some r -> Permutation l r.
  Proof.
    induction l as [|x l IH]; intros r E; cbn [sort_unstable_by] in E; [injection E as <-; reflexivity|].
    destruct (sort_unstable_by f l) as [r'|]; [|discriminate]. apply sort_insert_perm in E. rewrite <- E. constructor. apply IH. reflexivity.
  Qed.
  Lemma pick_map (values : list A) idx : forall out, pick values idx = Some out -> map Some out = map (nth_error values) idx.
  Proof.
    induction idx as [|i idx IH]; intros out E; cbn [pick] in E; [injection E as <-; reflexivity|].
    destruct (nth_error values i) as [v|] eqn:Ev; [|discriminate]. destruct (pick values idx) as [r|]; [|discriminate]. injection E as <-.
    simpl. rewrite Ev, (IH r eq_refl). reflexivity.
  Qed.
  Lemma all_positions (values : list A) : map (nth_error values) (seq 0 (length values)) = map Some values.
  Proof.
    induction values as [|x l IH]; [reflexivity|]. cbn [length seq map]. f_equal. rewrite <- seq_shift, map_map. exact IH.
  Qed.
  Lemma pick_perm (values : list A) idx out : Permutation (seq 0 (length values)) idx -> pick values idx = Some out -> Permutation values out.
  Proof.
    intros P E. apply pick_map in E. apply (Permutation_map (nth_error values)) in P. rewrite <- E, all_positions in P.
    assert (G : forall l : list A, flat_map tolist (map Some l) = l). { induction l as [|x l IH]; simpl; rewrite ?IH; reflexivity. }
    rewrite <- (G values), <- (G out). apply Permutation_flat_map. exact P.
  Qed.

  Lemma sort_insert_values idx si i (v : A) idx' out : sort_insert_at idx si i v = Some (idx', out) -> values_of out = [v].
  Proof. unfold sort_insert_at. intros E. forward E; injection E as <- <-; reflexivity. Qed.
  Lemma sort_remove_values idx si idx' (out : vecdiff A) : sort_remove_at idx si = Some (idx', out) -> values_of out = [].
  Proof. unfold sort_remove_at. intros E. forward E; try (destruct (vpop idx) as [[? ?]|]); injection E as <- <-; reflexivity. Qed.

  Ltac sval := match goal with
    | H : sort_insert_at _ _ _ _ = Some (_, ?o) |- context [values_of ?o] => rewrite (sort_insert_values _ _ _ _ _ _ H)
    | H : sort_remove_at _ _ = Some (_, ?o) |- context [values_of ?o] => rewrite (sort_remove_values _ _ _ _ H)
    end.

  Lemma sort_step_economy s d s' o : so_pending s = None -> sort_step compare s d = Some (s', o) ->
    Permutation (values_of d) (carried (tolist o) ++ carried (tolist (so_pending s')))
    /\ length (tolist o) + length (tolist (so_pending s')) <= 2
    /\ (so_pending s' <> None -> exists x, o = Some x).
  Proof.
    destruct s as [p values idx]. simpl. intros -> E.
    assert (G1 : forall x : vecdiff A, Permutation (values_of d) (values_of x) -> Permutation (values_of d) (carried (tolist (Some x)) ++ carried (tolist (@None (vecdiff A))))
      /\ length (tolist (Some x)) + length (tolist (@None (vecdiff A))) <= 2 /\ (@None (vecdiff A) <> None -> exists y, Some x = Some y)).
    { intros x H. simpl. rewrite !app_nil_r. split; [exact H|]. split; [lia|eauto]. }
    destruct d as [l|i v|i v|i|a b|v| |]; cbn [sort_step] in E.
    - forward E. injection E as <- <-. cbn [so_pending]. apply G1. eapply pick_perm; [|eassumption]. eapply sort_unstable_perm. eassumption.
    - forward E. injection E as <- <-. cbn [so_pending]. apply G1. sval. reflexivity.
    - forward E.
      + injection E as <- <-. cbn [so_pending]. apply G1. reflexivity.
      + injection E as <- <-. cbn [so_pending tolist]. rewrite !carried_one. sval; sval. simpl.
        split; [reflexivity|]. split; [lia|eauto].
    - forward E. injection E as <- <-. cbn [so_pending]. apply G1. sval. reflexivity.
    - forward E; injection E as <- <-; cbn [so_pending]; [|apply G1; reflexivity]. simpl. split; [constructor|]. split; [lia|congruence].
    - forward E. injection E as <- <-. cbn [so_pending]. apply G1. sval. reflexivity.
    - forward E. injection E as <- <-. cbn [so_pending]. apply G1. sval. reflexivity.
    - injection E as <- <-. cbn [so_pending]. apply G1. reflexivity.
  Qed.

  Definition sort_acc (s : sort_state (A := A)) (ds os : list (vecdiff A)) : Prop :=
    Permutation (carried ds) (carried os ++ carried (tolist (so_pending s)))
    /\ length os + length (tolist (so_pending s)) <= 2 * length ds.

  Lemma loop_sort td : forall s pst os s' sr r, so_pending s = None -> sort_acc s (yielded pst) os ->
    loop_emit (sort_step compare) s pst td = Some (s', sr, r) -> sort_acc s' (yielded (past sr)) (os ++ yielded [r]).
  Proof.
    induction td as [|[|[d|]] td IH]; intros s pst os s' sr r Hp Hi E; cbn [loop_emit] in E.
    - injection E as <- <- <-. simpl. rewrite yielded_app'. simpl. rewrite !app_nil_r. exact Hi.
    - injection E as <- <- <-. simpl. rewrite yielded_app'. simpl. rewrite !app_nil_r. exact Hi.
    - destruct (sort_step compare s d) as [[s1 o]|] eqn:Es; [|discriminate].
      destruct (sort_step_economy _ _ _ _ Hp Es) as (P & L & N). destruct Hi as [H1 H2]. rewrite Hp in H1, H2. simpl in H1, H2. rewrite app_nil_r in H1.
      assert (Hi : sort_acc s1 (yielded (pst ++ [Ready (Some d)])) (os ++ tolist o)).
      { split; rewrite yielded_app'; change (yielded [Ready (Some d)]) with [d].
        - rewrite !carried_app, carried_one, <- app_assoc. apply Permutation_app; [exact H1|exact P].
        - rewrite !app_length. simpl. lia. }
      destruct o as [o|]; [injection E as <- <- <-; exact Hi|]. simpl in Hi. rewrite app_nil_r in Hi.
      apply (IH _ _ os) in E; [exact E| |exact Hi]. destruct (so_pending s1); [|reflexivity]. destruct N as [x N]; discriminate.
    - injection E as <- <- <-. simpl. rewrite yielded_app'. simpl. rewrite !app_nil_r. exact Hi.
  Qed.

  Lemma sort_economy script n st sr outs :
    run (sort_poll compare) n (sort_init, fresh script) = Some ((st, sr), outs) ->
    Permutation (carried (yielded (past sr))) (carried (yielded outs) ++ carried (tolist (so_pending st)))
    /\ length (yielded outs) <= 2 * length (yielded (past sr)).
  Proof.
    intros E. apply (run_keeps _ (fun st os => sort_acc (fst st) (yielded (past (snd st))) os)) with (outs := []) in E.
    - destruct E as [E1 E2]. split; [exact E1|]. simpl in E2. lia.
    - clear. intros [[p values idx] sr] os [s' sr'] r Hi Em. unfold sort_poll in Em. destruct p as [d|].
      + injection Em as <- <- <-. destruct Hi as [H1 H2]. simpl in *. split; simpl; [|rewrite app_length; simpl; lia].
        rewrite carried_app, <- app_assoc. rewrite H1. simpl. rewrite !app_nil_r. reflexivity.
      + unfold emit_poll in Em. destruct (loop_emit _ _ _ _) as [[[s1 sr1] r1]|] eqn:El; [|discriminate]. injection Em as <- <- <-.
        eapply loop_sort; [|exact Hi|exact El]. reflexivity.
    - split; simpl; [constructor|lia].
  Qed.
End Sort.

(** ** chain *)
(** Permutations of concatenations. *)
Ltac rotate fuel := match fuel with
  | S ?fuel' => first [apply Permutation_app_head
                      |etransitivity; [|apply Permutation_app_comm]; rewrite <- ?app_assoc; rotate fuel']
  end.
Ltac perm := rewrite <- ?app_assoc, ?app_nil_r; repeat first [reflexivity | rotate 8].

Section Chain.
  Context {A : Type}.
  Implicit Types st : chain_state A.

  (** What the two inputs have sent. *)
  Definition ch_ins st : list (vecdiff A) := yielded (past (snd (ch_left st))) ++ yielded (past (snd (ch_right st))).
  Definition ch_lens st : nat := ch_left_len st + ch_right_len st.

  (** [new] are the diffs that the inputs sent between [st] and [st'], [o] what was answered. *)
  Definition ch_acc st st' (o : list (vecdiff A)) : Prop :=
    exists new, Permutation (ch_ins st') (ch_ins st ++ new)
      /\ Permutation (carried (ch_pending st) ++ carried new) (carried o ++ carried (ch_pending st'))
      /\ length o + length (ch_pending st') + ch_lens st' <= length (ch_pending st) + ch_lens st + length new + 2 * length (carried new).

  Lemma ch_acc_trans a b c o1 o2 : ch_acc a b o1 -> ch_acc b c o2 -> ch_acc a c (o1 ++ o2).
  Proof.
    intros (n1 & P1 & Q1 & L1) (n2 & P2 & Q2 & L2). exists (n1 ++ n2). rewrite !carried_app, !app_length. split; [|split].
    - rewrite P2, P1. perm.
    - rewrite app_assoc, Q1, <- !app_assoc, Q2. perm.
    - lia.
  Qed.

  (** [d] are diffs that were received before [st] and are dealt with between [st] and [st']. *)
  Definition ch_deal st d st' (o : list (vecdiff A)) : Prop :=
    ch_ins st' = ch_ins st
    /\ Permutation (carried (ch_pending st) ++ carried d) (carried o ++ carried (ch_pending st'))
    /\ length o + length (ch_pending st') + ch_lens st' <= length (ch_pending st) + ch_lens st + length d + 2 * length (carried d).

  Definition fetched (r : option (poll (option (vecdiff A)))) : list (vecdiff A) :=
    match r with Some (Ready (Some d)) => [d] | _ => [] end.

  Lemma poll_slot_ins {D} (sl : slot (option D)) r sl' : poll_slot sl = (r, sl') ->
    yielded (past (snd sl')) = yielded (past (snd sl)) ++ match r with Some (Ready (Some d)) => [d] | _ => [] end.
  Proof.
    destruct sl as [[] [p t]]; simpl; intros E; [|injection E as <- <-; rewrite app_nil_r; reflexivity].
    unfold poll_src in E. simpl in E. destruct t as [|x t]; injection E as <- <-; simpl; rewrite yielded_app'.
    - reflexivity.
    - destruct x as [|[d|]]; reflexivity.
  Qed.

  Lemma poll_right_ins st r st1 : poll_right st = (r, st1) ->
    Permutation (ch_ins st1) (ch_ins st ++ fetched r) /\ ch_pending st1 = ch_pending st
    /\ ch_left_len st1 = ch_left_len st /\ ch_right_len st1 = ch_right_len st.
  Proof.
    unfold poll_right. destruct (poll_slot (ch_right st)) as [r' sl] eqn:E. intros H. injection H as <- <-. apply poll_slot_ins in E.
    split; [|auto]. unfold ch_ins, set_right. simpl. rewrite E, app_assoc. reflexivity.
  Qed.

  Ltac open_acc := unfold ch_deal, ch_ins, ch_lens, fetched; cbn [set_left set_right set_left_len set_right_len push_back
    ch_left ch_right ch_left_len ch_right_len ch_pending drop_slot snd tolist];
    rewrite ?carried_app, ?carried_one, ?carried_push, ?carried_pop, ?carried_remove, ?carried_insert; cbn [values_of];
    rewrite ?app_length, ?map_length, ?repeat_length, ?combine_length, ?rev_length, ?seq_length, ?app_nil_r.

  Lemma usub_eq a b c : usub a b = Some c -> a = c + b.
  Proof. unfold usub. destruct (Nat.leb_spec b a); intros E; [|discriminate]. injection E as <-. lia. Qed.

  Ltac deal := split; [reflexivity|split; [try perm|simpl; rewrite ?Nat.min_id; lia]].

  Lemma right_change_deal st r st' o : process_right_change r st = Some (st', o) -> ch_deal st (fetched r) st' (tolist o).
  Proof.
    intros E. destruct r as [[|[d|]]|]; cbn [process_right_change] in E; try (injection E as <- <-; open_acc; deal).
    destruct d as [l|i v|i v|i|a b|v| |].
    - destruct (Nat.eqb_spec (ch_left_len st) 0); injection E as <- <-; open_acc; deal.
    - injection E as <- <-; open_acc; deal.
    - injection E as <- <-; open_acc; deal.
    - destruct (usub _ _) as [len|] eqn:Eu; [|discriminate]. apply usub_eq in Eu. injection E as <- <-; open_acc; deal.
    - injection E as <- <-; open_acc; deal.
    - injection E as <- <-; open_acc; deal.
    - destruct (usub _ _) as [len|] eqn:Eu; [|discriminate]. apply usub_eq in Eu. injection E as <- <-; open_acc; deal.
    - destruct (Nat.eqb_spec (ch_left_len st) 0); injection E as <- <-; open_acc; deal.
  Qed.

  Lemma ch_deal_trans a b c d1 d2 o1 o2 : ch_deal a d1 b o1 -> ch_deal b d2 c o2 -> ch_deal a (d1 ++ d2) c (o1 ++ o2).
  Proof.
    intros (P1 & Q1 & L1) (P2 & Q2 & L2). unfold ch_deal. rewrite !carried_app, !app_length. split; [congruence|]. split; [|lia].
    rewrite app_assoc, Q1, <- !app_assoc, Q2. perm.
  Qed.

  Lemma push_some_deal st r st' : push_some (process_right_change r st) = Some st' -> ch_deal st (fetched r) st' [].
  Proof.
    unfold push_some. destruct (process_right_change r st) as [[s1 o]|] eqn:E; [|discriminate]. intros H. injection H as <-.
    apply right_change_deal in E. destruct E as (P & Q & L). unfold ch_deal. destruct o as [d|]; simpl in P, Q, L; [|auto].
    cbn [push_back ch_pending]. unfold ch_ins, ch_lens in *. cbn [push_back ch_left ch_right ch_left_len ch_right_len]. split; [exact P|].
    rewrite carried_app, Q, carried_one, app_length. split; [perm|]. simpl. lia.
  Qed.

  Lemma replace_deal lv st st3 output :
    (if ch_right_len (set_left_len (length lv) st) =? 0 then (set_left_len (length lv) st, Some (Replace lv))
     else (push_back (map (fun iv => InsertAt (fst iv) (snd iv)) (combine (seq 0 (length lv)) lv))
             (push_back (map RemoveAt (rev (seq 0 (ch_left_len st)))) (set_left_len (length lv) st)), None)) = (st3, output) ->
    ch_deal st [Replace lv] st3 (tolist output).
  Proof. intros E. destruct (_ =? 0) eqn:Eb; injection E as <- <-; open_acc; deal. Qed.

  Lemma clear_deal st st3 output :
    (if ch_right_len (set_left_len 0 st) =? 0 then (set_left_len 0 st, Some Clear)
     else (push_back (map RemoveAt (rev (seq 0 (ch_left_len st)))) (set_left_len 0 st), None)) = (st3, output) ->
    ch_deal st [@Clear A] st3 (tolist output).
  Proof. intros E. destruct (_ =? 0) eqn:Eb; injection E as <- <-; open_acc; deal. Qed.

  (** [d] was received before [st], and more may be received between [st] and [st']. *)
  Definition ch_gen st d st' o : Prop :=
    exists new, Permutation (ch_ins st') (ch_ins st ++ new)
      /\ Permutation (carried (ch_pending st) ++ carried (d ++ new)) (carried o ++ carried (ch_pending st'))
      /\ length o + length (ch_pending st') + ch_lens st' <= length (ch_pending st) + ch_lens st + length (d ++ new) + 2 * length (carried (d ++ new)).

  Lemma fetch_deal st r st1 d st' o : poll_right st = (r, st1) -> ch_deal st1 (d ++ fetched r) st' o -> ch_gen st d st' o.
  Proof.
    intros E (P & Q & L). apply poll_right_ins in E. destruct E as (H1 & H2 & H3 & H4). exists (fetched r).
    unfold ch_lens in *. rewrite H2, ?H3, ?H4 in *. rewrite P. auto.
  Qed.

  Lemma replace_gen lv st st' o : process_replace lv st = Some (st', o) -> ch_gen st [Replace lv] st' (tolist o).
  Proof.
    unfold process_replace. destruct (poll_right st) as [r st1] eqn:Ep. intros E. apply (fetch_deal _ _ _ _ _ _ Ep). clear Ep.
    assert (G : (let '(st3, output) :=
          if ch_right_len (set_left_len (length lv) st1) =? 0 then (set_left_len (length lv) st1, Some (Replace lv))
          else (push_back (map (fun iv => InsertAt (fst iv) (snd iv)) (combine (seq 0 (length lv)) lv))
             (push_back (map RemoveAt (rev (seq 0 (ch_left_len st1)))) (set_left_len (length lv) st1)), None) in
        match push_some (process_right_change r st3) with Some st4 => Some (st4, output) | None => None end) = Some (st', o) ->
        ch_deal st1 ([Replace lv] ++ fetched r) st' (tolist o)).
    { match goal with |- (let '(_, _) := ?x in _) = _ -> _ => destruct x as [st3 output] eqn:E3 end. apply replace_deal in E3.
      destruct (push_some _) as [st4|] eqn:E4; [|discriminate]. apply push_some_deal in E4. intros H. injection H as <- <-.
      rewrite <- (app_nil_r (tolist output)). eapply ch_deal_trans; eassumption. }
    destruct r as [[|[[rv|i v|i v|i|a b|v| |]|]]|]; try (apply G; exact E). clear G. injection E as <- <-. open_acc.
    split; [reflexivity|]. split; [simpl; rewrite ?app_nil_r; perm|]. simpl. rewrite ?app_nil_r, ?app_length. lia.
  Qed.

  Lemma clear_gen st st' o : process_clear st = Some (st', o) -> ch_gen st [Clear] st' (tolist o).
  Proof.
    unfold process_clear. destruct (poll_right st) as [r st1] eqn:Ep. intros E. apply (fetch_deal _ _ _ _ _ _ Ep). clear Ep.
    assert (G : (let '(st3, output) :=
          if ch_right_len (set_left_len 0 st1) =? 0 then (set_left_len 0 st1, Some Clear)
          else (push_back (map RemoveAt (rev (seq 0 (ch_left_len st1)))) (set_left_len 0 st1), None) in
        match push_some (process_right_change r st3) with Some st4 => Some (st4, output) | None => None end) = Some (st', o) ->
        ch_deal st1 ([Clear] ++ fetched r) st' (tolist o)).
    { match goal with |- (let '(_, _) := ?x in _) = _ -> _ => destruct x as [st3 output] eqn:E3 end. apply clear_deal in E3.
      destruct (push_some _) as [st4|] eqn:E4; [|discriminate]. apply push_some_deal in E4. intros H. injection H as <- <-.
      rewrite <- (app_nil_r (tolist output)). eapply ch_deal_trans; eassumption. }
    destruct r as [[|[[rv|i v|i v|i|a b|v| |]|]]|]; try (apply G; exact E). clear G. injection E as <- <-. open_acc. deal.
  Qed.

  Lemma deal_gen st d st' o : ch_deal st d st' o -> ch_gen st d st' o.
  Proof. intros (P & Q & L). exists []. rewrite !app_nil_r, P. auto. Qed.

  Lemma left_acc st st' o : process_left st = Some (st', o) -> ch_acc st st' (tolist o).
  Proof.
    unfold process_left. destruct (poll_slot (ch_left st)) as [r sl] eqn:Ep. apply poll_slot_ins in Ep. intros E.
    assert (G : ch_gen (set_left sl st) (fetched r) st' (tolist o) -> ch_acc st st' (tolist o)).
    { intros (new & P & Q & L). exists (fetched r ++ new). split; [|split; [exact Q|exact L]]. rewrite P. unfold ch_ins, set_left. simpl.
      rewrite Ep. fold (fetched r). perm. }
    apply G. clear G Ep. destruct r as [[|[d|]]|]; try (injection E as <- <-; apply deal_gen; open_acc; deal).
    destruct d as [l|i v|i v|i|a b|v| |].
    - apply replace_gen. exact E.
    - injection E as <- <-; apply deal_gen; open_acc; deal.
    - injection E as <- <-; apply deal_gen; open_acc; deal.
    - destruct (usub _ _) as [len|] eqn:Eu; [|discriminate]. apply usub_eq in Eu; cbn [set_left ch_left_len] in Eu. injection E as <- <-; apply deal_gen; open_acc; deal.
    - injection E as <- <-; apply deal_gen; open_acc; deal.
    - destruct (_ =? 0); injection E as <- <-; apply deal_gen; open_acc; deal.
    - destruct (usub _ _) as [len|] eqn:Eu; [|discriminate]. apply usub_eq in Eu; cbn [set_left ch_left_len] in Eu.
      destruct (_ =? 0); injection E as <- <-; apply deal_gen; open_acc; deal.
    - apply clear_gen. exact E.
  Qed.

  Lemma right_acc st st' o : process_right st = Some (st', o) -> ch_acc st st' (tolist o).
  Proof.
    unfold process_right. destruct (poll_right st) as [r st1] eqn:Ep. intros E. apply right_change_deal in E.
    apply (fetch_deal _ _ _ [] _ _ Ep E).
  Qed.

  Lemma pop_acc st d st' : pop_front st = Some (d, st') -> ch_acc st st' [d].
  Proof.
    unfold pop_front. destruct (ch_pending st) as [|x l] eqn:E; [discriminate|]. intros H. injection H as <- <-. exists [].
    unfold ch_ins, ch_lens. simpl. rewrite E, !app_nil_r. split; [reflexivity|]. split; [reflexivity|]. simpl. lia.
  Qed.

  Lemma chain_poll_acc st st' r : chain_poll st = Some (st', r) -> ch_acc st st' (yielded [r]).
  Proof.
    unfold chain_poll. destruct (pop_front st) as [[d s1]|] eqn:E1; [intros H; injection H as <- <-; apply pop_acc; exact E1|].
    destruct (process_left st) as [[s1 [d|]]|] eqn:E2; [|apply left_acc in E2|discriminate];
      [intros H; injection H as <- <-; apply left_acc in E2; exact E2|].
    destruct (pop_front s1) as [[d s2]|] eqn:E3;
      [intros H; injection H as <- <-; apply pop_acc in E3; exact (ch_acc_trans _ _ _ _ _ E2 E3)|].
    destruct (process_right s1) as [[s2 [d|]]|] eqn:E4; [|apply right_acc in E4|discriminate];
      [intros H; injection H as <- <-; apply right_acc in E4; exact (ch_acc_trans _ _ _ _ _ E2 E4)|].
    pose proof (ch_acc_trans _ _ _ _ _ E2 E4) as E5.
    destruct (pop_front s2) as [[d s3]|] eqn:E6;
      [intros H; injection H as <- <-; apply pop_acc in E6; exact (ch_acc_trans _ _ _ _ _ E5 E6)|].
    destruct (_ && _); intros H; injection H as <- <-; exact E5.
  Qed.

  Lemma chain_economy left right n st outs : run chain_poll n (@chain_init A left right) = Some (st, outs) ->
    Permutation (carried (yielded (past (snd (ch_left st)))) ++ carried (yielded (past (snd (ch_right st)))))
                (carried (yielded outs) ++ carried (ch_pending st))
    /\ length (yielded outs) <= length (ch_ins st) + 2 * length (carried (ch_ins st)).
  Proof.
    intros E. apply (run_keeps _ (fun s os => ch_acc (chain_init left right) s os)) with (outs := []) in E.
    - destruct E as (new & P & Q & L). simpl in P, Q, L. rewrite <- carried_app. fold (ch_ins st). split.
      + transitivity (carried new); [|exact Q]. apply Permutation_flat_map. exact P.
      + assert (P' : Permutation (carried (ch_ins st)) (carried new)) by (apply Permutation_flat_map; exact P).
        rewrite (Permutation_length P), (Permutation_length P'). unfold ch_lens in L. simpl in L. lia.
    - intros s os s' r H Em. eapply ch_acc_trans; [exact H|]. apply chain_poll_acc. exact Em.
    - exists []. repeat split; simpl; try reflexivity.
  Qed.
End Chain.

(** ** delay_remove *)
Section Delay.
  Context {K : Type} (future_of : K -> list (poll unit)).
  Notation loop := (dr_loop (K := K)).

  (** The builder and the futures of the loop state. *)
  Definition lp_pending (s : loop) : list (vecdiff K) := snd (fst s).
  Definition lp_futures (s : loop) : list (dstate K) := fst (fst s).
  (** [vs]: the elements of the diffs dealt with, [n]: their number. *)
  Definition lp_acc (s s' : loop) (vs : list K) (n : nat) : Prop :=
    carried (lp_pending s') = carried (lp_pending s) ++ vs
    /\ length (lp_pending s') + length (lp_futures s') <= length (lp_pending s) + length (lp_futures s) + n + 2 * length vs.

  Lemma lp_trans a b c v1 v2 n1 n2 : lp_acc a b v1 n1 -> lp_acc b c v2 n2 -> lp_acc a c (v1 ++ v2) (n1 + n2).
  Proof. intros [P1 L1] [P2 L2]. split; [rewrite P2, P1, app_assoc; reflexivity|]. rewrite app_length. lia. Qed.
  Lemma lp_more a b v n m : lp_acc a b v n -> n <= m -> lp_acc a b v m.
  Proof. intros [P L] H. split; [exact P|lia]. Qed.

  Lemma vinsert_len {X} i (x : X) l l' : vinsert i x l = Some l' -> length l' = S (length l).
  Proof.
    unfold vinsert. destruct (Nat.leb_spec i (length l)); intros E; [|discriminate]. injection E as <-.
    rewrite app_length. simpl. rewrite firstn_length, skipn_length. lia.
  Qed.
  Lemma vset_len {X} i (x : X) l l' : vset i x l = Some l' -> length l' = length l.
  Proof.
    unfold vset. destruct (Nat.ltb_spec i (length l)); intros E; [|discriminate]. injection E as <-.
    rewrite app_length. simpl. rewrite firstn_length, skipn_length. lia.
  Qed.
  Lemma vremove_len {X} i (x : X) l l' : vremove i l = Some (x, l') -> length l = S (length l').
  Proof.
    unfold vremove. destruct (nth_error l i) eqn:En; intros E; [|discriminate]. injection E as <- <-.
    assert (i < length l) by (apply nth_error_Some; congruence). rewrite app_length, firstn_length, skipn_length. lia.
  Qed.
  Lemma vpop_len {X} (x : X) l l' : vpop l = Some (x, l') -> length l = S (length l').
  Proof.
    unfold vpop. destruct (rev l) as [|y r] eqn:Er; [discriminate|]. intros E. injection E as <- <-.
    apply (f_equal (@length X)) in Er. rewrite rev_length in Er. rewrite rev_length. exact Er.
  Qed.

  Lemma remove_index_acc futures index futures' (d : vecdiff K) gone : remove_index futures index = Some (futures', d, gone) ->
    length futures = S (length futures') /\ values_of d = [].
  Proof.
    unfold remove_index. destruct (usub _ _); [|discriminate]. destruct (index =? n).
    - destruct (vpop futures) as [[x l]|] eqn:E; [|discriminate]. intros H. injection H as <- <- <-. apply vpop_len in E. auto.
    - destruct (vremove index futures) as [[x l]|] eqn:E; [|discriminate]. intros H. injection H as <- <- <-. apply vremove_len in E. auto.
  Qed.

  Lemma remove_indexes_acc indexes : forall s s' : loop, remove_indexes indexes s = Some s' -> lp_acc s s' [] 0.
  Proof.
    induction indexes as [|i is IH]; intros s s' E; cbn [remove_indexes] in E.
    - injection E as <-. split; [rewrite app_nil_r; reflexivity|]. simpl. lia.
    - destruct s as [[f p] g]. destruct (remove_index f i) as [[[f1 d] x]|] eqn:Er; [|discriminate].
      apply IH in E. apply remove_index_acc in Er. destruct Er as [L V]. change (@nil K) with (@nil K ++ []). change 0 with (0 + 0).
      eapply lp_trans; [|exact E]. split; cbn [lp_pending lp_futures fst snd].
      + rewrite carried_app, carried_one, V. reflexivity.
      + rewrite app_length. simpl. lia.
  Qed.

  Lemma start_removals_len futures : forall i futures' (is : list nat), @start_removals K i futures = Some (futures', is) -> length futures' = length futures.
  Proof.
    induction futures as [|x l IH]; intros i futures' is E; cbn [start_removals] in E; [injection E as <- <-; reflexivity|].
    destruct (dr_removing x).
    - destruct (start_removals (S i) l) as [[l1 is1]|] eqn:E1; [|discriminate]. injection E as <- <-. simpl. erewrite IH by eassumption. reflexivity.
    - destruct (should_remove x) as [[b x1]|]; [|discriminate].
      destruct (start_removals (S i) l) as [[l1 is1]|] eqn:E1; [|discriminate]. injection E as <- <-. simpl. erewrite IH by eassumption. reflexivity.
  Qed.

  Lemma existing_acc (s s' : loop) : remove_existing_futures s = Some s' -> lp_acc s s' [] 0.
  Proof.
    destruct s as [[f p] g]. unfold remove_existing_futures. destruct (start_removals 0 f) as [[f1 is]|] eqn:E; [|discriminate].
    intros H. apply remove_indexes_acc in H. apply start_removals_len in E. destruct H as [P L]. split; [exact P|].
    cbn [lp_pending lp_futures fst snd] in *. lia.
  Qed.

  Lemma remove_one_acc i (s s' : loop) : remove_one i s = Some s' -> lp_acc s s' [] 0.
  Proof.
    destruct s as [[f p] g]. unfold remove_one. intros E. destruct (nth_error f i) as [x|]; [|discriminate].
    destruct (should_remove x) as [[b x1]|]; [|discriminate]. destruct (vset i x1 f) as [f1|] eqn:Ev; [|discriminate]. apply vset_len in Ev.
    destruct b; [|injection E as <-; split; cbn [lp_pending lp_futures fst snd]; [rewrite app_nil_r; reflexivity|simpl; lia]].
    destruct (remove_index f1 i) as [[[f2 d] y]|] eqn:Er; [|discriminate]. apply remove_index_acc in Er. destruct Er as [L V].
    injection E as <-. split; cbn [lp_pending lp_futures fst snd]; [rewrite carried_app, carried_one, V; reflexivity|rewrite app_length; simpl; lia].
  Qed.

  Lemma delay_step_acc (s s' : loop) d : delay_remove_step future_of s d = Some s' -> lp_acc s s' (values_of d) 1.
  Proof.
    destruct s as [[f p] g]. intros E.
    assert (W : forall f' d', length f' <= length f + 2 * length (values_of d) -> values_of d' = values_of d ->
      lp_acc (f, p, g) (f', p ++ [d'], g) (values_of d) 1).
    { intros f' d' H1 H2. split; cbn [lp_pending lp_futures fst snd]; [rewrite carried_app, carried_one, H2; reflexivity|rewrite app_length; simpl; lia]. }
    destruct d as [l|i v|i v|i|a b|v| |]; cbn [delay_remove_step] in E.
    - destruct (length f =? 0) eqn:El.
      + injection E as <-. apply W; [|reflexivity]. rewrite map_length. simpl. lia.
      + destruct (remove_existing_futures (f, p, g)) as [[[f1 p1] g1]|] eqn:Ee; [|discriminate]. injection E as <-.
        apply existing_acc in Ee. destruct Ee as [P L]. split; cbn [lp_pending lp_futures fst snd values_of] in *.
        * rewrite carried_app, P, app_nil_r. f_equal. apply carried_push.
        * rewrite !app_length, !map_length. simpl in L. lia.
    - destruct (vinsert _ _ _) eqn:Ev; [|discriminate]. injection E as <-. apply vinsert_len in Ev. apply W; [simpl; lia|reflexivity].
    - destruct (dr_find_index _ _); [|discriminate]. destruct (vset _ _ _) eqn:Ev; [|discriminate]. injection E as <-. apply vset_len in Ev. apply W; [simpl; lia|reflexivity].
    - destruct (dr_find_index _ _); [|discriminate]. apply remove_one_acc in E. eapply lp_more; [exact E|lia].
    - destruct (dr_find_index _ _); [|discriminate]. destruct (vremove _ _) as [[x f1]|] eqn:Er; [|discriminate].
      destruct (vinsert _ _ _) eqn:Ev; [|discriminate]. injection E as <-. apply vremove_len in Er. apply vinsert_len in Ev. apply W; [simpl; lia|reflexivity].
    - injection E as <-. apply W; [rewrite app_length; simpl; lia|reflexivity].
    - destruct (find_last_index f); [|discriminate]. apply remove_one_acc in E. eapply lp_more; [exact E|lia].
    - apply existing_acc in E. eapply lp_more; [exact E|lia].
  Qed.

  Lemma drain_acc td : forall (s s' : loop) pst sr done, loop_drain (delay_remove_step future_of) s pst td = Some (s', sr, done) ->
    exists new, yielded (past sr) = yielded pst ++ new /\ lp_acc s s' (carried new) (length new).
  Proof.
    induction td as [|[|[d|]] td IH]; intros s s' pst sr done E; cbn [loop_drain] in E.
    - injection E as <- <- <-. exists []. simpl. rewrite yielded_app'. simpl. split; [reflexivity|]. split; [symmetry; apply app_nil_r|simpl; lia].
    - injection E as <- <- <-. exists []. simpl. rewrite yielded_app'. simpl. split; [reflexivity|]. split; [symmetry; apply app_nil_r|simpl; lia].
    - destruct (delay_remove_step future_of s d) as [s1|] eqn:Es; [|discriminate]. apply delay_step_acc in Es. apply IH in E.
      destruct E as (new & E1 & E2). exists (d :: new). rewrite E1, yielded_app', <- app_assoc. split; [reflexivity|].
      exact (lp_trans _ _ _ _ _ 1 _ Es E2).
    - injection E as <- <- <-. exists []. simpl. rewrite yielded_app'. simpl. split; [reflexivity|]. split; [symmetry; apply app_nil_r|simpl; lia].
  Qed.

  Lemma poll_removals_len futures : forall i futures' is w, @poll_removals K i futures = (futures', is, w) -> length futures' = length futures.
  Proof.
    induction futures as [|x l IH]; intros i futures' is w E; cbn [poll_removals] in E; [injection E as <- <- <-; reflexivity|].
    destruct (poll_removals (S i) l) as [[l1 is1] w1] eqn:E1. apply IH in E1.
    destruct (dr_removing x); [destruct (poll_removal x) as [[|] y]|]; injection E as <- <- <-; simpl; congruence.
  Qed.

  Definition dl_ins (st : delay_remove_state K) : list (vecdiff K) := yielded (past (snd (dlr_signal st))).

  Definition dl_acc (st : delay_remove_state K) (os : list (vecdiff K)) : Prop :=
    carried (dl_ins st) = carried os ++ carried (dlr_pending st)
    /\ length os + length (dlr_pending st) + length (dlr_futures st) <= length (dl_ins st) + 2 * length (carried (dl_ins st)).

  Lemma delay_poll_acc st os st' r : dl_acc st os -> delay_remove_poll future_of st = Some (st', r) -> dl_acc st' (os ++ yielded [r]).
  Proof.
    destruct st as [[live sr] f p g]. unfold dl_acc, dl_ins, delay_remove_poll. cbn [dlr_signal dlr_futures dlr_pending dlr_gone snd]. intros [P L] E.
    destruct p as [|d p].
    2: { injection E as <- <-. cbn [dlr_signal dlr_futures dlr_pending dlr_gone snd]. split.
         - rewrite P. change (d :: p) with ([d] ++ p). rewrite !carried_app, app_assoc. reflexivity.
         - rewrite app_length. simpl in L |- *. lia. }
    destruct (drain_slot _ _ _) as [[[[[f1 p1] g1] sl1] done]|] eqn:Ed; [|discriminate].
    destruct (poll_removals 0 f1) as [[f2 is] w] eqn:Ep. apply poll_removals_len in Ep.
    destruct (remove_indexes (rev is) (f2, p1, g1)) as [[[f3 p3] g3]|] eqn:Er; [|discriminate]. apply remove_indexes_acc in Er.
    assert (G : carried (yielded (past (snd sl1))) = carried os ++ carried p3
      /\ length os + length p3 + length f3 <= length (yielded (past (snd sl1))) + 2 * length (carried (yielded (past (snd sl1))))).
    { assert (H : exists new, yielded (past (snd sl1)) = yielded (past sr) ++ new /\ lp_acc (f, [], g) (f1, p1, g1) (carried new) (length new)).
      { unfold drain_slot in Ed. destruct live.
        - destruct (loop_drain _ _ _ _) as [[[s2 sr2] dn]|] eqn:El; [|discriminate]. injection Ed as -> <- <-. apply drain_acc in El. exact El.
        - injection Ed as <- <- <- <- <-. exists []. simpl. rewrite app_nil_r. split; [reflexivity|]. split; [reflexivity|simpl; lia]. }
      destruct H as (new & H1 & H2 & H3). destruct Er as [R1 R2]. rewrite H1, !carried_app, !app_length.
      cbn [lp_pending lp_futures fst snd] in *. rewrite app_nil_r in *. simpl in R1, H2, H3. simpl in P. rewrite ?app_nil_r in P.
      rewrite P, R1, H2. split; [rewrite ?app_nil_r; reflexivity|]. simpl in L, R2. rewrite P in L. lia. }
    destruct p3 as [|d p3].
    - assert (E' : st' = mkDlr sl1 f3 [] g3 /\ yielded [r] = []) by (destruct (done && negb w); injection E as <- <-; auto).
      destruct E' as [-> ->]. rewrite (app_nil_r os). exact G.
    - injection E as <- <-. cbn [dlr_signal dlr_futures dlr_pending dlr_gone]. destruct G as [G1 G2]. split.
      + rewrite G1. change (d :: p3) with ([d] ++ p3). rewrite !carried_app, app_assoc. reflexivity.
      + rewrite app_length. simpl in G2 |- *. lia.
  Qed.

  Lemma delay_economy script n st outs : run (delay_remove_poll future_of) n (delay_remove_init script) = Some (st, outs) ->
    carried (dl_ins st) = carried (yielded outs) ++ carried (dlr_pending st)
    /\ length (yielded outs) <= length (dl_ins st) + 2 * length (carried (dl_ins st)).
  Proof.
    intros E. apply (run_keeps _ dl_acc) with (outs := []) in E.
    - destruct E as [P L]. split; [exact P|]. simpl in L. lia.
    - intros s os s' r H Em. exact (delay_poll_acc _ _ _ _ H Em).
    - split; [reflexivity|]. simpl. lia.
  Qed.
End Delay.
