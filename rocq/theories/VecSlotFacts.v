(** [Option<SignalVec>] fields. *)
From Verif Require Import Base Spec BaseFacts VecDiff VecSpec LoopFacts VecFacts Slot SlotFacts.

Lemma armed_intro {X} (a b : src X) : past b = past a ++ [Pending] -> armed a b.
Proof. intros H. exists []. exact H. Qed.

(** Polled some more. *)
Definition grew {X} (a b : src X) : Prop := exists p, past b = past a ++ p.

Lemma grew_refl {X} (a : src X) : grew a a.
Proof. exists []. rewrite app_nil_r. reflexivity. Qed.

Lemma grew_trans {X} (a b c : src X) : grew a b -> grew b c -> grew a c.
Proof. intros [p Hp] [q Hq]. exists (p ++ q). rewrite Hq, Hp, app_assoc. reflexivity. Qed.

Lemma grew_armed {X} (a b c : src X) : grew a b -> armed b c -> armed a c.
Proof. intros [p Hp] [q Hq]. exists (p ++ q). rewrite Hq, Hp, <- !app_assoc. reflexivity. Qed.

Lemma armed_grew {X} (a b : src X) : armed a b -> grew a b.
Proof. intros [p Hp]. exists (p ++ [Pending]). exact Hp. Qed.

(** A run, and the poll after it. *)
Lemma run_then {St O} (m : St -> option (St * poll (option O))) (Inv : St -> list (poll (option O)) -> Prop)
  (T : St -> St -> poll (option O) -> Prop) s0 :
  Inv s0 [] ->
  (forall s outs, Inv s outs -> ~ In (Ready None) outs ->
     exists s' o, m s = Some (s', o) /\ Inv s' (outs ++ [o]) /\ T s s' o) ->
  forall n, exists s outs, run m n s0 = Some (s, outs) /\ Inv s outs
    /\ (~ In (Ready None) outs -> forall s' o, m s = Some (s', o) -> T s s' o).
Proof.
  intros H0 Hs n. destruct (run_inv0 m Inv s0 H0) with (n := n) as (s & outs & Hr & HI).
  - intros s outs HI Hno. destruct (Hs s outs HI Hno) as (s' & o & Hm & HI' & _). exists s', o. auto.
  - exists s, outs. split; [exact Hr|]. split; [exact HI|]. intros Hno s' o Hm.
    destruct (Hs s outs HI Hno) as (s1 & o1 & Hm1 & _ & HT). rewrite Hm in Hm1. injection Hm1 as <- <-. exact HT.
Qed.

(** The assumptions on a source: its diffs can be applied, and (if [strict]) it never empties
    what is empty. *)
Definition vgood {A} (strict : bool) (ds : list (vecdiff A)) : Prop :=
  replay ds <> None /\ (strict = true -> never_empties_empty ds).

Lemma vgood_prefix {A} strict (a b : list (vecdiff A)) : vgood strict (a ++ b) -> vgood strict a.
Proof.
  intros [H1 H2]. split; [exact (replay_prefix a b H1)|]. intros Hs pre d post E.
  apply (H2 Hs pre d (post ++ b)). rewrite E, <- app_assoc. reflexivity.
Qed.

(** What a poll of such a field did: answer [r], contents before and after. *)
Definition polled {A} (strict : bool) (sl : slot (option (vecdiff A))) (r : option (poll (option (vecdiff A))))
  (sl' : slot (option (vecdiff A))) (l l' : list A) : Prop :=
  replay (delivered sl') = Some l' /\ vgood strict (deliverable sl') /\ grew (snd sl) (snd sl')
  /\ match r with
     | None => sl' = sl /\ l' = l /\ slot_ok sl' /\ fst sl' = false
     | Some Pending => slot_ok sl' /\ l' = l /\ armed (snd sl) (snd sl')
     | Some (Ready None) => slot_ok (drop_slot sl') /\ l' = l
     | Some (Ready (Some d)) => slot_ok sl' /\ apply_to_vec d l = Some l'
         /\ (strict = true -> l = [] -> d <> Clear /\ d <> Replace [])
     end.

Lemma poll_polled {A} strict (sl : slot (option (vecdiff A))) l :
  slot_ok sl -> replay (delivered sl) = Some l -> vgood strict (deliverable sl) ->
  exists l', polled strict sl (fst (poll_slot sl)) (snd (poll_slot sl)) l l'.
Proof.
  intros Hok Hl Hg. assert (Hp := poll_slot_ok sl Hok).
  destruct sl as [[|] sr]; unfold poll_slot in *.
  2:{ simpl. exists l. split; [exact Hl|]. split; [exact Hg|]. split; [apply grew_refl|]. auto. }
  unfold poll_src in *. unfold polled, deliverable, delivered in *. cbn [fst snd] in *.
  destruct (todo sr) as [|[|[d|]] t]; cbn [fst snd past todo] in *.
  - exists l. rewrite yielded_app. cbn [yielded] in *. rewrite ?app_nil_r in *.
    split; [exact Hl|]. split; [exact Hg|]. split; [exists [Pending]; reflexivity|].
    split; [apply Hp|]. split; [reflexivity|]. exists []. reflexivity.
  - exists l. rewrite yielded_app. cbn [yielded] in *. rewrite !app_nil_r in *.
    split; [exact Hl|]. split; [exact Hg|]. split; [exists [Pending]; reflexivity|].
    split; [apply Hp|]. split; [reflexivity|]. exists []. reflexivity.
  - rewrite yielded_app. cbn [yielded] in *.
    assert (Hg' : vgood strict (yielded (past sr) ++ [d])).
    { apply vgood_prefix with (b := yielded t). rewrite <- app_assoc. exact Hg. }
    assert (Hr := replay_snoc (yielded (past sr)) d). rewrite Hl in Hr.
    destruct Hg' as [Hg1 Hg2]. rewrite Hr in *. destruct (apply_to_vec d l) as [l'|]; [|congruence].
    exists l'. split; [reflexivity|]. split; [rewrite <- app_assoc; exact Hg|].
    split; [exists [Ready (Some d)]; reflexivity|]. split; [apply Hp|]. split; [reflexivity|].
    intros Hs ->. exact (Hg2 Hs (yielded (past sr)) d [] eq_refl Hl).
  - exists l. rewrite yielded_app. cbn [yielded] in *. rewrite !app_nil_r in *.
    split; [exact Hl|]. split; [exact Hg|]. split; [exists [Ready None]; reflexivity|].
    split; [apply Hp|reflexivity].
Qed.
