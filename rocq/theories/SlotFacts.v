(** Facts about [Option<source>] fields. *)
From Verif Require Import Base Spec BaseFacts LoopFacts Slot.

(** The source behind the field was not polled after its end, and the field is dropped exactly
    when the source has ended. *)
Definition slot_ok {A} (sl : slot (option A)) : Prop :=
  obeys_end (past (snd sl)) /\ (fst sl = false <-> ended (snd sl)).

Lemma slot_ok_fresh {A} (script : list (poll (option A))) : slot_ok (some_slot script).
Proof. split; simpl; [apply obeys_end_nil|]. split; [discriminate|intros []]. Qed.

Lemma slot_ok_live {A} (sr : src (option A)) : slot_ok (true, sr) -> ~ In (Ready None) (past sr).
Proof. intros [_ H] Hin. destruct H as [_ H]. specialize (H Hin). discriminate. Qed.

Lemma drain_slot_ok {St D} (step : St -> D -> option St) s sl s' sl' done :
  slot_ok sl -> drain_slot step s sl = Some (s', sl', done) ->
  slot_ok sl' /\ fst sl' = negb done /\ (done = false -> awaits (snd sl')).
Proof.
  intros Hok H. destruct sl as [[|] sr]; simpl in H.
  - destruct (loop_drain step s (past sr) (todo sr)) as [[[s1 sr1] d1]|] eqn:E; [|discriminate].
    injection H as <- <- <-.
    apply loop_drain_struct in E. destruct E as (ds & Hp & _).
    apply slot_ok_live in Hok.
    assert (Hpre : ~ In (Ready None) (past sr ++ somes ds))
      by (apply no_end_app; [exact Hok|apply somes_no_end]).
    unfold slot_ok, ended, awaits. simpl. rewrite Hp. split; [split|split].
    + apply obeys_end_snoc. exact Hpre.
    + destruct d1; simpl.
      * split; [|reflexivity]. intros _. apply in_or_app. right. left. reflexivity.
      * split; [discriminate|]. intros Hin. exfalso. revert Hin.
        apply no_end_app; [exact Hpre|apply no_end_pending].
    + reflexivity.
    + intros ->. eexists. reflexivity.
  - injection H as <- <- <-. split; [exact Hok|]. simpl. split; [reflexivity|discriminate].
Qed.

Lemma poll_slot_ok {A} (sl : slot (option A)) :
  slot_ok sl ->
  match poll_slot sl with
  | (None, sl') => sl' = sl /\ fst sl = false
  | (Some Pending, sl') => fst sl = true /\ slot_ok sl' /\ awaits (snd sl')
       /\ past (snd sl') = past (snd sl) ++ [Pending]
  | (Some (Ready None), sl') => fst sl = true /\ slot_ok (drop_slot sl') /\ ended (snd sl')
       /\ past (snd sl') = past (snd sl) ++ [Ready None]
  | (Some (Ready (Some a)), sl') => fst sl = true /\ slot_ok sl'
       /\ past (snd sl') = past (snd sl) ++ [Ready (Some a)]
  end.
Proof.
  intros Hok. destruct sl as [[|] sr].
  2:{ simpl. auto. }
  pose proof (slot_ok_live _ Hok) as Hne. simpl. unfold poll_src.
  assert (HP : slot_ok (true, mkSrc (past sr ++ [Pending]) (tl (todo sr)))).
  { split; simpl; [apply obeys_end_snoc; exact Hne|]. split; [discriminate|].
    intros Hin. exfalso. revert Hin. apply no_end_app; [exact Hne|apply no_end_pending]. }
  destruct (todo sr) as [|[|[a|]] t]; simpl.
  - split; [reflexivity|]. split; [exact HP|]. split; [eexists; reflexivity|reflexivity].
  - split; [reflexivity|]. split; [exact HP|]. split; [eexists; reflexivity|reflexivity].
  - split; [reflexivity|]. split; [|reflexivity].
    split; simpl; [apply obeys_end_snoc; exact Hne|]. split; [discriminate|].
    intros Hin. exfalso. revert Hin. apply no_end_app; [exact Hne|apply no_end_some].
  - split; [reflexivity|].
    assert (He : ended (mkSrc (past sr ++ [Ready None]) t)).
    { unfold ended. simpl. apply in_or_app. right. left. reflexivity. }
    split; [|split; [exact He|reflexivity]].
    split; simpl; [apply obeys_end_snoc; exact Hne|]. split; [|reflexivity].
    intros _. exact He.
Qed.

(** ** One drain with an invariant *)
Section DrainInv.
  Context {X D : Type} (step : X -> D -> option X).
  Variable P : list D -> Prop.
  Hypothesis P_prefix : forall a b, P (a ++ b) -> P a.
  Variable J : X -> list D -> Prop.
  Hypothesis J_step : forall x ds d, J x ds -> P (ds ++ [d]) ->
    exists x', step x d = Some x' /\ J x' (ds ++ [d]).

  (** What has been delivered, and what will be. *)
  Definition delivered (sl : slot (option D)) : list D := yielded (past (snd sl)).
  Definition deliverable (sl : slot (option D)) : list D := delivered sl ++ yielded (todo (snd sl)).

  Lemma drain_slot_inv x sl :
    J x (delivered sl) -> P (deliverable sl) ->
    exists x' sl' done, drain_slot step x sl = Some (x', sl', done)
      /\ J x' (delivered sl') /\ P (deliverable sl').
  Proof.
    intros HJ HP. destruct sl as [[|] sr]; simpl.
    - destruct (loop_drain_inv step P P_prefix J J_step (todo sr) x (past sr) HJ HP)
        as (x' & sr' & done & E & HJ' & HP').
      rewrite E. do 3 eexists. split; [reflexivity|]. split; assumption.
    - do 3 eexists. split; [reflexivity|]. split; assumption.
  Qed.
End DrainInv.

(** ** Combinators that drain one slot and then settle on an answer *)

(** Everything that is claimed of such a combinator, after some polls. *)
Definition settled {A B} (value : B) (first : bool) (sl : slot (option A))
  (outs : list (poll (option B))) : Prop :=
  slot_ok sl
  /\ (outs = [] -> first = true)
  /\ (outs <> [] -> first = false /\ latest_of outs = Some value /\ exists b t, outs = Ready (Some b) :: t)
  /\ (last_out outs Pending -> awaits (snd sl))
  /\ (last_out outs (Ready None) -> ended (snd sl))
  /\ (outs <> [] -> fst sl = true -> awaits (snd sl)).

Definition settle {B} (changed first done : bool) (value : B) : poll (option B) :=
  if changed || first then Ready (Some value) else if done then Ready None else Pending.

Lemma settled_init {A B} (value : B) (script : list (poll (option A))) :
  settled value true (some_slot script) [].
Proof.
  split; [apply slot_ok_fresh|]. split; [reflexivity|]. split; [congruence|].
  split; [intros H; exfalso; exact (last_out_nil _ H)|].
  split; [intros H; exfalso; exact (last_out_nil _ H)|congruence].
Qed.

Lemma settled_step {A B} (value value' : B) (first changed done : bool) (sl sl' : slot (option A)) outs :
  settled value first sl outs ->
  slot_ok sl' -> fst sl' = negb done -> (done = false -> awaits (snd sl')) ->
  (changed = false -> value' = value) ->
  settled value' (if changed || first then false else first) sl'
          (outs ++ [settle changed first done value']).
Proof.
  intros (Hok & H0 & H1 & _ & _) Hok' Hf Haw Hch. unfold settled, settle.
  assert (Hlive : forall (o : poll (option B)), outs ++ [o] <> [] -> fst sl' = true -> awaits (snd sl')).
  { intros o _ Ht. apply Haw. rewrite Hf in Ht. destruct done; [discriminate|reflexivity]. }
  rewrite !last_out_snoc.
  assert (Hnil : forall (o : poll (option B)), outs ++ [o] <> []).
  { intros o Hx. apply app_eq_nil in Hx. destruct Hx as [_ Hx]. discriminate. }
  destruct (changed || first) eqn:Ecf.
  - split; [exact Hok'|]. split; [intros Hx; exfalso; exact (Hnil _ Hx)|].
    split; [|split; [congruence|split; [congruence|apply Hlive]]].
    intros _. split; [reflexivity|]. split; [apply latest_of_app|].
    destruct outs as [|o outs]; [do 2 eexists; reflexivity|].
    destruct H1 as (_ & _ & b & t & E); [discriminate|]. rewrite E. do 2 eexists. reflexivity.
  - apply orb_false_iff in Ecf. destruct Ecf as [-> ->].
    rewrite (Hch eq_refl).
    assert (Hne : outs <> []) by (intros Hx; specialize (H0 Hx); discriminate).
    destruct (H1 Hne) as (_ & Hl & b & t & E).
    split; [exact Hok'|]. split; [intros Hx; exfalso; exact (Hnil _ Hx)|].
    destruct done.
    + split; [|split; [discriminate|split; [|apply Hlive]]].
      * intros _. split; [reflexivity|]. rewrite latest_of_end. split; [exact Hl|].
        rewrite E. do 2 eexists. reflexivity.
      * intros _. apply Hok'. exact Hf.
    + split; [|split; [|split; [discriminate|apply Hlive]]].
      * intros _. split; [reflexivity|]. rewrite latest_of_pending. split; [exact Hl|].
        rewrite E. do 2 eexists. reflexivity.
      * intros _. apply Haw. reflexivity.
Qed.

Lemma settled_source_ok {A B} (value : B) first (sl : slot (option A)) outs :
  settled value first sl outs -> source_ok outs (snd sl).
Proof.
  intros ([Hoe _] & _ & _ & Hp & He & _). split; [exact Hp|]. split; [exact He|exact Hoe].
Qed.

Lemma settled_latest {A B} (value : B) first (sl : slot (option A)) outs :
  settled value first sl outs -> outs <> [] -> latest_of outs = Some value.
Proof. intros (_ & _ & H & _) Hne. apply H. exact Hne. Qed.

Lemma settled_first {A B} (value : B) first (sl : slot (option A)) outs :
  settled value first sl outs -> outs <> [] -> has_initial outs.
Proof. intros (_ & _ & H & _) Hne. apply H in Hne. destruct Hne as (_ & _ & H1). exact H1. Qed.

(** One drain of a loop that keeps a [changed] flag. *)
Section SettleInv.
  Context {X D B : Type} (step : X * bool -> D -> option (X * bool)) (out : X -> B).
  Variable P : list D -> Prop.
  Hypothesis P_prefix : forall a b, P (a ++ b) -> P a.
  Variable J : X -> list D -> Prop.
  Hypothesis J_step : forall x ch ds d, J x ds -> P (ds ++ [d]) ->
    exists x' ch', step (x, ch) d = Some (x', ch') /\ J x' (ds ++ [d])
      /\ (ch' = false -> ch = false /\ out x' = out x).

  Lemma settle_drain x first sl outs :
    J x (delivered sl) -> P (deliverable sl) -> settled (out x) first sl outs ->
    exists x' ch sl' done,
      drain_slot step (x, false) sl = Some ((x', ch), sl', done)
      /\ J x' (delivered sl') /\ P (deliverable sl')
      /\ settled (out x') (if ch || first then false else first) sl'
                 (outs ++ [settle ch first done (out x')]).
  Proof.
    intros HJ HP Hs.
    destruct (drain_slot_inv step P P_prefix
      (fun s ds => J (fst s) ds /\ (snd s = false -> out (fst s) = out x))) with (x := (x, false)) (sl := sl)
      as ([x' ch] & sl' & done & E & [HJ' Hch] & HP').
    - intros [y cy] ds d [HJy Hcy] HPd. simpl in *.
      destruct (J_step y cy ds d HJy HPd) as (y' & cy' & Es & HJy' & Hcy').
      exists (y', cy'). split; [exact Es|]. split; [exact HJy'|].
      simpl. intros Hf. destruct (Hcy' Hf) as [Hf1 Hf2]. rewrite Hf2. apply Hcy. exact Hf1.
    - split; [exact HJ|reflexivity].
    - exact HP.
    - exists x', ch, sl', done. split; [exact E|]. split; [exact HJ'|]. split; [exact HP'|].
      assert (Hok : slot_ok sl) by apply Hs.
      destruct (drain_slot_ok _ _ _ _ _ _ Hok E) as (Hok' & Hf & Haw).
      apply settled_step with (value := out x) (sl := sl); assumption.
  Qed.
End SettleInv.
