(** Handles of MutableVec and MutableBTreeMap: the count of the models against the clones and drops of the history. *)
From Verif Require Import Shared Views Base Conc Spec VecDiff VecSpec MutVec MutVecSpec MutVecFacts MutVecRun MapDiff MapSpec MapFacts Mpsc MutMap MutMapFacts.

(** In the history [es], which begins with one handle, some moment was the drop of the last one: until then as many handles had been
    dropped as there had been. *)
Definition all_dropped {E} (clones drops : E -> bool) (es : list E) : Prop :=
  exists before after, es = before ++ after /\ count drops before = 1 + count clones before.

Definition v_clones {A} (e : event A) : bool := match e with EClone => true | _ => false end.
Definition v_drops {A} (e : event A) : bool := match e with EDrop => true | _ => false end.
Definition m_clones {K V} (e : mevent K V) : bool := match e with MClone => true | _ => false end.
Definition m_drops {K V} (e : mevent K V) : bool := match e with MDrop => true | _ => false end.
Definition a_clones {O} (a : act O) : bool := match a with AClone => true | _ => false end.
Definition a_drops {O} (a : act O) : bool := match a with ADrop => true | _ => false end.

Definition x_clones {D O} (x : xact D O) : bool := match x with XDo AClone => true | _ => false end.
Definition x_drops {D O} (x : xact D O) : bool := match x with XDo ADrop => true | _ => false end.

(** ** Counting *)

Section Tally.
Context {E : Type} (clones drops : E -> bool).
Definition tick (n : nat) (e : E) : nat := match n with 0 => 0 | S k => if clones e then S n else if drops e then k else n end.
Hypothesis distinct : forall e, clones e = true -> drops e = false.

Lemma count_snoc (f : E -> bool) l e : count f (l ++ [e]) = count f l + if f e then 1 else 0.
Proof. unfold count. rewrite filter_app, app_length. simpl. destruct (f e); reflexivity. Qed.

Lemma tally_spec es : let n := fold_left tick es 1 in
  (0 < n -> n + count drops es = 1 + count clones es) /\ (n = 0 <-> all_dropped clones drops es).
Proof.
  induction es as [|e es [IH1 IH2]] using rev_ind; cbn zeta in *.
  - split; [reflexivity|]. split; [discriminate|]. intros (b & a & E1 & H). destruct b; [discriminate|discriminate].
  - rewrite fold_left_app. cbn [fold_left]. set (n := fold_left tick es 1) in *.
    assert (Hold : all_dropped clones drops es -> all_dropped clones drops (es ++ [e])).
    { intros (b & a & -> & H). exists b, (a ++ [e]). rewrite app_assoc. auto. }
    assert (Hnew : all_dropped clones drops (es ++ [e]) -> all_dropped clones drops es \/ count drops (es ++ [e]) = 1 + count clones (es ++ [e])).
    { intros (b & a & E1 & H). destruct a as [|x a _] using rev_ind.
      - rewrite app_nil_r in E1. subst b. auto.
      - rewrite app_assoc in E1. apply app_inj_tail in E1 as [E1 _]. left. exists b, a. auto. }
    rewrite !count_snoc in *. unfold tick. destruct n as [|k].
    + split; [lia|]. split; [|reflexivity]. intros _. apply Hold, IH2. reflexivity.
    + specialize (IH1 ltac:(lia)). pose proof (distinct e) as Hd.
      destruct (clones e) eqn:E1; [rewrite Hd in * by reflexivity|destruct (drops e) eqn:E2];
        (split; [lia|]); (split; [intros Hz|intros Ha; destruct (Hnew Ha) as [Ha'|Ha']; [apply IH2 in Ha'; lia|lia]]).
      * lia.
      * exists (es ++ [e]), []. rewrite app_nil_r, !count_snoc, E1, E2. split; [reflexivity|lia].
      * lia.
Qed.
End Tally.

(** ** The models count so *)

Lemma mv_tick {A} (e : event A) st : owners (mv_event e st) = tick v_clones v_drops (owners st) e.
Proof.
  assert (Hs : tick v_clones v_drops (owners st) (EPoll 0 : event A) = owners st) by (unfold tick; simpl; destruct (owners st); reflexivity).
  destruct e; unfold mv_event.
  - transitivity (owners st); [|symmetry; exact Hs]. destruct (0 <? owners st); cbn [andb]; [|reflexivity]. destruct (poisoned st); cbn [negb]; [reflexivity|].
    destruct (op_cases o (values st)) as [(_ & v' & H)|(_ & v' & ds & r & H & _)]; rewrite (H st eq_refl); [reflexivity|].
    cbn [set_values owners]. apply owners_notify_all.
  - transitivity (owners st); [|symmetry; exact Hs]. destruct ((0 <? owners st) && negb (poisoned st)); reflexivity.
  - transitivity (owners st); [|symmetry; exact Hs]. destruct (nth_error (subs st) id); [destruct (alive s)|]; reflexivity.
  - transitivity (owners st); [|symmetry; exact Hs]. destruct (nth_error (subs st) id); reflexivity.
  - unfold tick. cbn [v_clones]. destruct (owners st) eqn:E; cbn [Nat.ltb Nat.leb]; [exact E|]. cbn [owners]. lia.
  - unfold tick. cbn [v_clones v_drops]. destruct (owners st) as [|[|n]] eqn:E; [exact E|reflexivity|reflexivity].
Qed.

Lemma mv_handles A (v : list A) es : let n := owners (mv_run es (mv_new v)) in
  (0 < n -> n + count v_drops es = 1 + count v_clones es) /\ (n = 0 <-> all_dropped v_clones v_drops es).
Proof.
  cbn zeta. assert (E : owners (mv_run es (mv_new v)) = fold_left (tick v_clones v_drops) es 1).
  { unfold mv_run. change 1 with (owners (mv_new v)). generalize (mv_new v). induction es as [|e es IH]; intros st; [reflexivity|].
    cbn [fold_left]. rewrite IH, mv_tick. reflexivity. }
  rewrite E. apply tally_spec. intros [] H; try discriminate H; reflexivity.
Qed.

Lemma mm_tick {K V} cmp (TO : total_order cmp) (e : mevent K V) st st' : minv cmp st -> mm_event cmp e st = Some st' ->
  mm_owners st' = tick m_clones m_drops (mm_owners st) e.
Proof.
  intros [W _] E. assert (Hs : tick m_clones m_drops (mm_owners st) (MPoll 0 : mevent K V) = mm_owners st) by (unfold tick; simpl; destruct (mm_owners st); reflexivity).
  destruct e; unfold mm_event in E.
  - transitivity (mm_owners st); [|symmetry; exact Hs]. destruct (Nat.ltb_spec 0 (mm_owners st)) as [H0|H0]; [|injection E as <-; reflexivity].
    destruct (mop_event cmp TO o (mm_values st) (mwf_map _ _ W)) as (m' & ds & r & _ & _ & _ & _ & H).
    destruct (H st eq_refl W H0) as (st1 & E1 & _ & _ & _ & _ & Ho & _). rewrite E1 in E. injection E as <-. exact Ho.
  - transitivity (mm_owners st); [|symmetry; exact Hs]. injection E as <-. destruct (0 <? mm_owners st); reflexivity.
  - transitivity (mm_owners st); [|symmetry; exact Hs]. injection E as <-. destruct (nth_error (mm_chans st) id) as [s|]; [destruct (calive s)|]; reflexivity.
  - transitivity (mm_owners st); [|symmetry; exact Hs]. injection E as <-. destruct (nth_error (mm_chans st) id); reflexivity.
  - injection E as <-. unfold tick. cbn [m_clones]. destruct (mm_owners st) eqn:E; cbn [Nat.ltb Nat.leb]; [exact E|]. cbn [mm_owners]. lia.
  - injection E as <-. unfold tick. cbn [m_clones m_drops]. destruct (mm_owners st) as [|[|n]] eqn:E; [exact E|reflexivity|reflexivity].
Qed.

Lemma mm_handles K V (cmp : K -> K -> comparison) (TO : total_order cmp) (init : list (K * V)) es st : mm_run cmp es (mm_new cmp init) = Some st ->
  (0 < mm_owners st -> mm_owners st + count m_drops es = 1 + count m_clones es) /\ (mm_owners st = 0 <-> all_dropped m_clones m_drops es).
Proof.
  intros Hr. assert (E : mm_owners st = fold_left (tick m_clones m_drops) es 1).
  { change 1 with (mm_owners (mm_new cmp init)). revert Hr. pose proof (mm_new_inv cmp TO init) as Hi. revert Hi. generalize (mm_new cmp init).
    induction es as [|e es IH]; intros s Hi Hr; [injection Hr as <-; reflexivity|].
    cbn [mm_run] in Hr. destruct (mevent_inv cmp TO e s Hi) as (s1 & E1 & Hi1 & _). rewrite E1 in Hr.
    cbn [fold_left]. rewrite <- (mm_tick cmp TO e s s1 Hi E1). apply IH; assumption. }
  rewrite E. apply tally_spec. intros [] H; try discriminate H; reflexivity.
Qed.

Lemma sh_count C D O R run first s a s' : @sh_step C D O R run first s a = Some s' ->
  Shared.owners s' + (if a_drops a then 1 else 0) = Shared.owners s + (if a_clones a then 1 else 0).
Proof.
  intros E. destruct a; cbn [a_drops a_clones]; cbn [sh_step] in E;
    repeat match type of E with
    | (let '(_, _) := ?x in _) = _ => destruct x
    | match ?x with _ => _ end = _ => destruct x eqn:?
    | (if ?x then _ else _) = _ => destruct x eqn:?
    end; try discriminate E; injection E as <-; cbn [set_lock set_chans set_job set_owners Shared.owners]; lia.
Qed.

Lemma sh_handles C D O R run first (c : C) acts st : exec (@sh_step C D O R run first) (sh_init c) acts = Some st ->
  Shared.owners st + count a_drops acts = 1 + count a_clones acts.
Proof.
  revert st. induction acts as [|a acts IH] using rev_ind; intros st H; [injection H as <-; reflexivity|].
  rewrite exec_app in H. destruct (exec _ _ acts) as [s|]; [|discriminate H]. specialize (IH s eq_refl).
  cbn [exec] in H. destruct (sh_step run first s a) as [s'|] eqn:E; [|discriminate H]. injection H as <-.
  apply sh_count in E. rewrite !count_snoc. lia.
Qed.

Lemma sys_handles C D O R run first (c : C) acts s : exec (@sys_step C D O R run first) (sys_init c) acts = Some s ->
  Shared.owners (sh s) + count x_drops acts = 1 + count x_clones acts.
Proof.
  revert s. induction acts as [|x acts IH] using rev_ind; intros s' H; [injection H as <-; reflexivity|].
  rewrite exec_app in H. destruct (exec _ _ acts) as [s|]; [|discriminate H]. specialize (IH s eq_refl).
  cbn [exec] in H. destruct (sys_step run first s x) as [s1|] eqn:E; [|discriminate H]. injection H as <-.
  rewrite !count_snoc. destruct x as [a|B p|i|i|i]; cbn [sys_step] in E.
  - destruct (outside a); [|discriminate E]. destruct (sh_step run first (sh s) a) as [h|] eqn:E1; [|discriminate E]. injection E as <-. cbn [sh].
    apply sh_count in E1. destruct a; cbn [a_drops a_clones x_drops x_clones] in *; lia.
  - destruct (sh_step run first (sh s) ASubscribe) as [h|] eqn:E1; [|discriminate E]. injection E as <-. cbn [sh x_drops x_clones].
    apply sh_count in E1. cbn [a_drops a_clones] in E1. lia.
  - destruct (nth_error (tasks s) i) as [t|]; [|discriminate E]. destruct (nth_error (chans (sh s)) i); [|discriminate E].
    destruct (tat t); try discriminate E. injection E as <-. cbn [sh x_drops x_clones]. lia.
  - destruct (nth_error (tasks s) i) as [t|]; [|discriminate E]. destruct (nth_error (chans (sh s)) i) as [ch|]; [|discriminate E].
    destruct (tat t); try discriminate E. destruct (advance _ (tpipe t) (tstate t) ch) as [[[ps c'] r]|];
      injection E as <-; cbn [sh set_chans Shared.owners x_drops x_clones]; lia.
  - destruct (nth_error (tasks s) i) as [t|]; [|discriminate E]. destruct (tat t); try discriminate E.
    destruct (sh_step run first (sh s) (ADropSub i)) as [h|] eqn:E1; [|discriminate E]. injection E as <-. cbn [sh x_drops x_clones].
    apply sh_count in E1. cbn [a_drops a_clones] in E1. lia.
Qed.
