(** Proofs about to_signal_map, len, is_empty and sum. *)
From Verif Require Import Base Spec BaseFacts LoopFacts Slot SlotFacts VecDiff VecSpec VecFacts VecToSignal.

Definition good_diffs {A} (ds : list (vecdiff A)) : Prop := replay ds <> None.

Lemma good_prefix {A} (a b : list (vecdiff A)) : good_diffs (a ++ b) -> good_diffs a.
Proof. apply replay_prefix. Qed.

Lemma good_snoc {A} (ds : list (vecdiff A)) d l :
  replay ds = Some l -> good_diffs (ds ++ [d]) ->
  exists l', apply_to_vec d l = Some l' /\ replay (ds ++ [d]) = Some l'.
Proof.
  unfold good_diffs. rewrite replay_snoc. intros ->.
  destruct (apply_to_vec d l) as [l'|]; [|congruence]. intros _. exists l'. auto.
Qed.

(** ** to_signal_map *)
Lemma tsm_change_apply {A} (l : list A) d : tsm_change l d = apply_to_vec d l.
Proof. destruct d; reflexivity. Qed.

Lemma tsm_run {A B} (f : list A -> B) script : good_vec_script script -> forall n,
  exists st outs,
    run (tsm_poll f) n (tsm_init script) = Some (st, outs)
    /\ conveyed (snd (tsm_signal st)) = Some (tsm_values st)
    /\ settled (f (tsm_values st)) (tsm_first st) (tsm_signal st) outs.
Proof.
  intros Hg n.
  destruct (run_inv0 (tsm_poll f) (fun st outs =>
      replay (delivered (tsm_signal st)) = Some (tsm_values st)
      /\ good_diffs (deliverable (tsm_signal st))
      /\ settled (f (tsm_values st)) (tsm_first st) (tsm_signal st) outs)
    (tsm_init script)) with (n := n) as (st & outs & Hr & HJ & _ & Hs).
  - split; [reflexivity|]. split; [exact Hg|]. apply settled_init.
  - intros [sl fi vs] outs (HJ & HP & Hs) _. cbn [tsm_signal tsm_first tsm_values] in *.
    destruct (settle_drain (fun (s : list A * bool) change =>
        let? values' := tsm_change (fst s) change in Some (values', true)) f
      good_diffs good_prefix (fun vs ds => replay ds = Some vs)) with (x := vs) (first := fi) (sl := sl) (outs := outs)
      as (vs' & ch & sl' & done & E & HJ' & HP' & Hs').
    + intros x c ds d Hx Hd. destruct (good_snoc ds d x Hx Hd) as (l' & Ha & Hr).
      exists l', true. simpl. rewrite tsm_change_apply, Ha. split; [reflexivity|].
      split; [exact Hr|discriminate].
    + exact HJ.
    + exact HP.
    + exact Hs.
    + unfold tsm_poll. cbn [tsm_signal tsm_first tsm_values]. rewrite E.
      unfold settle in Hs'. destruct (ch || fi); [|destruct done];
      (do 2 eexists; split; [reflexivity|]; split; [exact HJ'|]; split; [exact HP'|exact Hs']).
  - exists st, outs. split; [exact Hr|]. split; [exact HJ|exact Hs].
Qed.

Lemma tsm_shows {A B} (f : list A -> B) script : good_vec_script script -> forall n,
  exists st outs l,
    run (tsm_poll f) n (tsm_init script) = Some (st, outs)
    /\ conveyed (snd (tsm_signal st)) = Some l
    /\ (outs <> [] -> has_initial outs /\ latest_of outs = Some (f l))
    /\ source_ok outs (snd (tsm_signal st)).
Proof.
  intros Hg n. destruct (tsm_run f script Hg n) as (st & outs & Hr & Hc & Hs).
  exists st, outs, (tsm_values st). split; [exact Hr|]. split; [exact Hc|]. split.
  - intros Hne. split; [exact (settled_first _ _ _ _ Hs Hne)|exact (settled_latest _ _ _ _ Hs Hne)].
  - exact (settled_source_ok _ _ _ _ Hs).
Qed.

(** ** sum *)
Lemma apply_move_perm {A} (l l' : list A) o n :
  apply_to_vec (Move o n) l = Some l' -> Permutation l l'.
Proof.
  intros H. apply apply_inv in H. destruct H as (l1 & x & l2 & m1 & m2 & -> & _ & E & -> & _).
  apply Permutation_trans with (x :: l1 ++ l2).
  - symmetry. apply Permutation_middle.
  - rewrite E. apply Permutation_middle.
Qed.

Lemma sum_change_apply {A} (l l' : list A) ch d :
  apply_to_vec d l = Some l' ->
  exists ch', sum_change (l, ch) d = Some (l', ch') /\ (ch' = false -> ch = false /\ Permutation l l').
Proof.
  intros H. pose proof H as H0. destruct d as [vs|i x|i x|i|o k|x| |]; simpl in H |- *.
  - injection H as <-. exists true. split; [reflexivity|discriminate].
  - rewrite H. exists true. split; [reflexivity|discriminate].
  - rewrite H. exists true. split; [reflexivity|discriminate].
  - destruct (vremove i l) as [[y v]|]; [|discriminate]. injection H as <-.
    exists true. split; [reflexivity|discriminate].
  - destruct (vremove o l) as [[y v]|]; [|discriminate]. rewrite H.
    exists ch. split; [reflexivity|]. intros Hc. split; [exact Hc|].
    apply apply_move_perm with (o := o) (n := k). exact H0.
  - injection H as <-. exists true. split; [reflexivity|discriminate].
  - destruct (vpop l) as [[y v]|]; [|discriminate]. injection H as <-.
    exists true. split; [reflexivity|discriminate].
  - injection H as <-. exists true. split; [reflexivity|discriminate].
Qed.

Lemma sum_shows {A} (sum : list A -> A) script :
  (forall l l', Permutation l l' -> sum l = sum l') ->
  good_vec_script script -> forall n,
  exists st outs l,
    run (sum_poll sum) n (sum_init script) = Some (st, outs)
    /\ conveyed (snd (tsm_signal st)) = Some l
    /\ (outs <> [] -> has_initial outs /\ latest_of outs = Some (sum l))
    /\ source_ok outs (snd (tsm_signal st)).
Proof.
  intros Hsum Hg n.
  destruct (run_inv0 (sum_poll sum) (fun st outs =>
      replay (delivered (tsm_signal st)) = Some (tsm_values st)
      /\ good_diffs (deliverable (tsm_signal st))
      /\ settled (sum (tsm_values st)) (tsm_first st) (tsm_signal st) outs)
    (sum_init script)) with (n := n) as (st & outs & Hr & HJ & _ & Hs).
  - split; [reflexivity|]. split; [exact Hg|]. apply settled_init.
  - intros [sl fi vs] outs (HJ & HP & Hs) _. cbn [tsm_signal tsm_first tsm_values] in *.
    destruct (settle_drain sum_change sum
      good_diffs good_prefix (fun vs ds => replay ds = Some vs)) with (x := vs) (first := fi) (sl := sl) (outs := outs)
      as (vs' & ch & sl' & done & E & HJ' & HP' & Hs').
    + intros x c ds d Hx Hd. destruct (good_snoc ds d x Hx Hd) as (l' & Ha & Hr).
      destruct (sum_change_apply x l' c d Ha) as (c' & E & Hc').
      exists l', c'. split; [exact E|]. split; [exact Hr|]. intros Hf.
      destruct (Hc' Hf) as [Hc1 Hp]. split; [exact Hc1|]. symmetry. apply Hsum. exact Hp.
    + exact HJ.
    + exact HP.
    + exact Hs.
    + unfold sum_poll. cbn [tsm_signal tsm_first tsm_values]. rewrite E.
      unfold settle in Hs'. destruct (ch || fi); [|destruct done];
      (do 2 eexists; split; [reflexivity|]; split; [exact HJ'|]; split; [exact HP'|exact Hs']).
  - exists st, outs, (tsm_values st). split; [exact Hr|]. split; [exact HJ|]. split.
    + intros Hne. split; [exact (settled_first _ _ _ _ Hs Hne)|exact (settled_latest _ _ _ _ Hs Hne)].
    + exact (settled_source_ok _ _ _ _ Hs).
Qed.

(** ** len *)
Definition len_is {A} (n : nat) (ds : list (vecdiff A)) : Prop :=
  exists l, replay ds = Some l /\ length l = n.

Lemma len_change_apply {A} (l l' : list A) ch d :
  apply_to_vec d l = Some l' ->
  exists ch', len_change (length l, ch) d = Some (length l', ch')
    /\ (ch' = false -> ch = false /\ length l' = length l).
Proof.
  intros H. pose proof (apply_inv _ _ _ H) as Hi. destruct d as [vs|i x|i x|i|o k|x| |]; simpl len_change.
  - subst l'. destruct (Nat.eqb_spec (length l) (length vs)) as [E|E]; simpl.
    + rewrite E. exists ch. auto.
    + exists true. split; [reflexivity|discriminate].
  - destruct Hi as (l1 & l2 & -> & -> & _). exists true. split; [|discriminate].
    rewrite !app_length. simpl. do 2 f_equal. lia.
  - destruct Hi as (l1 & y & l2 & -> & -> & _). exists ch.
    rewrite !app_length. simpl. auto.
  - destruct Hi as (l1 & y & l2 & -> & -> & _). exists true. split; [|discriminate].
    rewrite !app_length. simpl. rewrite usub_Some by lia. do 2 f_equal. lia.
  - exists ch. rewrite (Permutation_length (apply_move_perm _ _ _ _ H)). auto.
  - subst l'. exists true. split; [|discriminate]. rewrite app_length. reflexivity.
  - destruct Hi as (y & ->). exists true. split; [|discriminate].
    rewrite !app_length. simpl. rewrite usub_Some by lia. do 2 f_equal. lia.
  - subst l'. simpl. destruct (Nat.eqb_spec (length l) 0) as [E|E]; simpl.
    + rewrite E. exists ch. auto.
    + exists true. split; [reflexivity|discriminate].
Qed.

Definition len_inv {A} (st : len_state A) (outs : list (poll (option nat))) : Prop :=
  len_is (len_len st) (delivered (len_signal st))
  /\ good_diffs (deliverable (len_signal st))
  /\ settled (len_len st) (len_first st) (len_signal st) outs.

Lemma len_inv_init {A} (script : list (poll (option (vecdiff A)))) :
  good_vec_script script -> len_inv (len_init script) [].
Proof.
  intros Hg. split; [exists []; split; reflexivity|]. split; [exact Hg|]. apply settled_init.
Qed.

Lemma len_inv_step {A} (st : len_state A) outs : len_inv st outs ->
  exists st' o, len_poll st = Some (st', o) /\ len_inv st' (outs ++ [o]).
Proof.
  destruct st as [sl fi len]. intros (HJ & HP & Hs). cbn [len_signal len_first len_len] in *.
  destruct (settle_drain (@len_change A) (fun x => x)
    good_diffs good_prefix len_is) with (x := len) (first := fi) (sl := sl) (outs := outs)
    as (vs' & ch & sl' & done & E & HJ' & HP' & Hs').
  - intros x c ds d (l & Hl & <-) Hd. destruct (good_snoc ds d l Hl Hd) as (l' & Ha & Hr).
    destruct (len_change_apply l l' c d Ha) as (c' & E & Hc').
    exists (length l'), c'. split; [exact E|]. split; [exists l'; auto|exact Hc'].
  - exact HJ.
  - exact HP.
  - exact Hs.
  - unfold len_poll. cbn [len_signal len_first len_len]. rewrite E.
    unfold settle in Hs'. destruct (ch || fi); [|destruct done];
    (do 2 eexists; split; [reflexivity|]; split; [exact HJ'|]; split; [exact HP'|exact Hs']).
Qed.

Lemma len_shows {A} (script : list (poll (option (vecdiff A)))) : good_vec_script script -> forall n,
  exists st outs l,
    run len_poll n (len_init script) = Some (st, outs)
    /\ conveyed (snd (len_signal st)) = Some l
    /\ (outs <> [] -> has_initial outs /\ latest_of outs = Some (length l))
    /\ source_ok outs (snd (len_signal st)).
Proof.
  intros Hg n.
  destruct (run_inv0 len_poll len_inv (len_init script)) with (n := n) as (st & outs & Hr & HJ & _ & Hs).
  - apply len_inv_init. exact Hg.
  - intros st outs HI _. apply len_inv_step. exact HI.
  - destruct HJ as (l & Hl & Hlen). exists st, outs, l. split; [exact Hr|]. split; [exact Hl|]. split.
    + intros Hne. rewrite Hlen.
      split; [exact (settled_first _ _ _ _ Hs Hne)|exact (settled_latest _ _ _ _ Hs Hne)].
    + exact (settled_source_ok _ _ _ _ Hs).
Qed.

(** ** is_empty *)
Lemma obool_eqb_spec a b : obool_eqb a b = true <-> a = b.
Proof.
  destruct a as [[|]|], b as [[|]|]; simpl; split; congruence.
Qed.

Lemma no_repeats_snoc {A} (eqb : A -> A -> bool) (l : list A) a :
  no_repeats eqb l -> (forall p b, l = p ++ [b] -> eqb b a = false) -> no_repeats eqb (l ++ [a]).
Proof.
  intros Hn Hl p x y q E.
  destruct q as [|z q] using rev_ind.
  - assert (E' : l ++ [a] = (p ++ [x]) ++ [y]) by (rewrite E, <- app_assoc; reflexivity).
    apply snoc_inj in E'. destruct E' as [-> ->]. apply (Hl p x eq_refl).
  - assert (E' : l ++ [a] = (p ++ x :: y :: q) ++ [z])
      by (rewrite E, <- app_assoc; reflexivity).
    apply snoc_inj in E'. destruct E' as [-> _]. apply (Hn p x y q eq_refl).
Qed.

Lemma latest_of_snoc_val {A} (outs : list (poll (option A))) p b :
  yielded outs = p ++ [b] -> latest_of outs = Some b.
Proof. intros H. unfold latest_of. rewrite H, rev_app_distr. reflexivity. Qed.

Definition ie_inv {A} (st : ie_state A) (outs : list (poll (option bool))) : Prop :=
  (exists louts, len_inv (ie_len st) louts /\ (louts = [] <-> outs = [])
     /\ (last_out outs Pending -> last_out louts Pending \/ exists x, last_out louts (Ready (Some x)))
     /\ (last_out outs (Ready None) -> last_out louts (Ready None)))
  /\ latest_of outs = ie_old st
  /\ (outs <> [] -> has_initial outs /\ ie_old st = Some (len_len (ie_len st) =? 0))
  /\ no_repeats Bool.eqb (yielded outs).

Lemma ie_inv_step {A} (st : ie_state A) outs : ie_inv st outs ->
  exists st' o, ie_poll st = Some (st', o) /\ ie_inv st' (outs ++ [o]).
Proof.
  destruct st as [len old]. intros ((louts & HL & Hnil & _ & _) & Hlat & Hne & Hrep).
  cbn [ie_len ie_old] in *.
  destruct (len_inv_step len louts HL) as (len' & a & E & HL').
  unfold ie_poll. cbn [ie_len ie_old]. rewrite E.
  assert (Hn1 : forall X (x : X) l, l ++ [x] <> []).
  { intros X x l Hx. apply app_eq_nil in Hx. destruct Hx as [_ Hx]. discriminate. }
  assert (Hiff : forall (o : poll (option bool)), louts ++ [a] = [] <-> outs ++ [o] = []).
  { intros o. split; intros Hx; exfalso; exact (Hn1 _ _ _ Hx). }
  assert (Hcur : latest_of (louts ++ [a]) = Some (len_len len')).
  { destruct HL' as (_ & _ & Hs). apply (settled_latest _ _ _ _ Hs). apply Hn1. }
  assert (Hsame : (a = Pending \/ a = Ready None) -> outs <> [] /\ len_len len' = len_len len).
  { intros Ha. assert (Hl : latest_of (louts ++ [a]) = latest_of louts)
      by (destruct Ha as [-> | ->]; [apply latest_of_pending|apply latest_of_end]).
    rewrite Hcur in Hl. assert (Hlne : louts <> []) by (intros ->; discriminate Hl).
    split; [rewrite <- Hnil; exact Hlne|].
    destruct HL as (_ & _ & Hs). rewrite (settled_latest _ _ _ _ Hs Hlne) in Hl. congruence. }
  assert (Hinit : forall o, outs <> [] -> has_initial (outs ++ [o])).
  { intros o Ho. destruct (Hne Ho) as [(b & t & ->) _]. exists b, (t ++ [o]). reflexivity. }
  destruct a as [|[x|]].
  - destruct (Hsame (or_introl eq_refl)) as [Ho Hlen]. destruct (Hne Ho) as [_ Hold].
    do 2 eexists. split; [reflexivity|]. split; [exists (louts ++ [Pending])|split; [|split]]; cbn [ie_len ie_old].
    + split; [exact HL'|]. split; [apply Hiff|]. rewrite !last_out_snoc.
      split; [left; reflexivity|discriminate].
    + rewrite latest_of_pending. exact Hlat.
    + intros _. rewrite Hlen. split; [apply Hinit; exact Ho|exact Hold].
    + rewrite yielded_app, app_nil_r. exact Hrep.
  - rewrite latest_of_app in Hcur. injection Hcur as ->.
    destruct (obool_eqb old (Some (len_len len' =? 0))) eqn:Eq; simpl.
    + apply obool_eqb_spec in Eq.
      assert (Ho : outs <> []) by (intros ->; rewrite Eq in Hlat; discriminate Hlat).
      do 2 eexists. split; [reflexivity|].
      split; [exists (louts ++ [Ready (Some (len_len len'))])|split; [|split]]; cbn [ie_len ie_old].
      * split; [exact HL'|]. split; [apply Hiff|]. rewrite !last_out_snoc.
        split; [|discriminate]. intros _. right. exists (len_len len'). apply last_out_snoc. reflexivity.
      * rewrite latest_of_pending. exact Hlat.
      * intros _. split; [apply Hinit; exact Ho|exact Eq].
      * rewrite yielded_app, app_nil_r. exact Hrep.
    + do 2 eexists. split; [reflexivity|].
      split; [exists (louts ++ [Ready (Some (len_len len'))])|split; [|split]]; cbn [ie_len ie_old].
      * split; [exact HL'|]. split; [apply Hiff|]. rewrite !last_out_snoc.
        split; discriminate.
      * apply latest_of_app.
      * intros _. split; [|reflexivity]. destruct outs as [|o outs].
        -- do 2 eexists; reflexivity.
        -- apply Hinit. discriminate.
      * rewrite yielded_app. simpl. apply no_repeats_snoc; [exact Hrep|].
        intros p b Hp. rewrite (latest_of_snoc_val _ _ _ Hp) in Hlat. rewrite <- Hlat in Eq.
        simpl in Eq. exact Eq.
  - destruct (Hsame (or_intror eq_refl)) as [Ho Hlen]. destruct (Hne Ho) as [_ Hold].
    do 2 eexists. split; [reflexivity|]. split; [exists (louts ++ [Ready None])|split; [|split]]; cbn [ie_len ie_old].
    + split; [exact HL'|]. split; [apply Hiff|]. rewrite !last_out_snoc.
      split; [discriminate|reflexivity].
    + rewrite latest_of_end. exact Hlat.
    + intros _. rewrite Hlen. split; [apply Hinit; exact Ho|exact Hold].
    + rewrite yielded_app, app_nil_r. exact Hrep.
Qed.

Lemma ie_inv_init {A} (script : list (poll (option (vecdiff A)))) :
  good_vec_script script -> ie_inv (ie_init script) [].
Proof.
  intros Hg. split; [|split; [|split]].
  - exists []. split; [apply len_inv_init; exact Hg|]. split; [tauto|].
    split; intros H; exfalso; exact (last_out_nil _ H).
  - reflexivity.
  - congruence.
  - intros p a b q E. destruct p; discriminate.
Qed.

Lemma is_empty_shows {A} (script : list (poll (option (vecdiff A)))) : good_vec_script script -> forall n,
  exists st outs l,
    run ie_poll n (ie_init script) = Some (st, outs)
    /\ conveyed (snd (len_signal (ie_len st))) = Some l
    /\ (outs <> [] -> has_initial outs /\ exists b, latest_of outs = Some b /\ (b = true <-> l = []))
    /\ no_repeats Bool.eqb (yielded outs)
    /\ (last_out outs Pending -> awaits (snd (len_signal (ie_len st))) \/ ended (snd (len_signal (ie_len st))))
    /\ (last_out outs (Ready None) -> ended (snd (len_signal (ie_len st))))
    /\ obeys_end (past (snd (len_signal (ie_len st))))
    /\ (last_out outs Pending -> ended (snd (len_signal (ie_len st))) ->
          exists st', ie_poll st = Some (st', Ready None)).
Proof.
  intros Hg n.
  destruct (run_inv0 ie_poll ie_inv (ie_init script)) with (n := n)
    as (st & outs & Hr & (louts & HL & Hnil & Hp & He) & Hlat & Hne & Hrep).
  - apply ie_inv_init. exact Hg.
  - intros st outs HI _. apply ie_inv_step. exact HI.
  - destruct HL as ((l & Hl & Hlen) & HP & Hs).
    exists st, outs, l. split; [exact Hr|]. split; [exact Hl|].
    assert (Hok : slot_ok (len_signal (ie_len st))) by apply Hs.
    assert (Hlo : forall X (os : list (poll X)) o, last_out os o -> os <> []).
    { intros X os o H ->. exact (last_out_nil _ H). }
    split; [|split; [|split; [|split; [|split]]]].
    + intros Ho. destruct (Hne Ho) as [Hi Hold]. split; [exact Hi|].
      rewrite Hlat, Hold, <- Hlen. eexists. split; [reflexivity|].
      rewrite Nat.eqb_eq. destruct l; split; simpl; congruence.
    + exact Hrep.
    + intros Hpe. pose proof (Hlo _ _ _ Hpe) as Ho.
      destruct (fst (len_signal (ie_len st))) eqn:Ef.
      * left. apply Hs; [rewrite Hnil; exact Ho|exact Ef].
      * right. apply Hok. exact Ef.
    + intros Hen. apply He in Hen. apply Hs. exact Hen.
    + apply Hok.
    + intros Hpe Hen. pose proof (Hlo _ _ _ Hpe) as Ho. apply Hok in Hen.
      assert (Hlno : louts <> []) by (rewrite Hnil; exact Ho).
      destruct Hs as (_ & _ & Hf & _). destruct (Hf Hlno) as [Hf1 _].
      unfold ie_poll, len_poll, drain_slot.
      destruct (len_signal (ie_len st)) as [lv sr] eqn:El. simpl in Hen. subst lv.
      rewrite Hf1. simpl. eexists. reflexivity.
Qed.
