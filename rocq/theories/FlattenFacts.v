(** Proofs for Flatten (the SignalVec one). *)
From Verif Require Import Base Spec BaseFacts VecDiff VecSpec LoopFacts VecFacts Slot SlotFacts VecSlotFacts ChainFacts
  VecSimpleFacts WakeFacts Flatten.

(** ** Scripts *)
Lemma plays_fresh {X} (script : list (poll X)) : plays script (fresh script).
Proof. exists 0. simpl. rewrite app_nil_r. reflexivity. Qed.

Lemma plays_next {X} script (pst : list (poll X)) r td : plays script (mkSrc pst (r :: td)) ->
  plays script (mkSrc (pst ++ [r]) td).
Proof. intros [n H]. exists n. simpl in *. rewrite <- app_assoc. exact H. Qed.

Lemma plays_beyond {X} script (pst : list (poll X)) : plays script (mkSrc pst []) ->
  plays script (mkSrc (pst ++ [Pending]) []).
Proof.
  intros [n H]. exists (n + 1). simpl in *. rewrite app_nil_r in *. rewrite H, repeat_app, app_assoc. reflexivity.
Qed.

Lemma poll_src_plays {X} script (s : src X) : plays script s -> plays script (snd (poll_src s)).
Proof.
  destruct s as [pst [|r td]]; unfold poll_src; simpl; [apply plays_beyond|apply plays_next].
Qed.

Lemma poll_slot_plays {X} script (sl : slot X) : plays script (snd sl) -> plays script (snd (snd (poll_slot sl))).
Proof.
  destruct sl as [[|] sr]; simpl; [|auto]. intros H. apply poll_src_plays in H. destruct (poll_src sr). exact H.
Qed.

Lemma loop_drain_plays {St D} (step : St -> D -> option St) script td : forall s pst s' sr done,
  plays script (mkSrc pst td) -> loop_drain step s pst td = Some (s', sr, done) -> plays script sr.
Proof.
  induction td as [|[|[d|]] td IH]; intros s pst s' sr done HP H; simpl in H.
  - injection H as <- <- <-. apply plays_beyond. exact HP.
  - injection H as <- <- <-. apply plays_next. exact HP.
  - destruct (step s d) as [s1|]; [|discriminate]. apply IH in H; [exact H|]. apply plays_next. exact HP.
  - injection H as <- <- <-. apply plays_next. exact HP.
Qed.

Lemma drain_slot_plays {St D} (step : St -> D -> option St) script s sl s' sl' done :
  plays script (snd sl) -> drain_slot step s sl = Some (s', sl', done) -> plays script (snd sl').
Proof.
  destruct sl as [[|] sr]; simpl.
  - destruct (loop_drain step s (past sr) (todo sr)) as [[[s1 sr1] d1]|] eqn:E; [|discriminate].
    intros HP H. injection H as <- <- <-. refine (loop_drain_plays _ _ _ _ _ _ _ _ _ E). destruct sr. exact HP.
  - intros HP H. injection H as <- <- <-. exact HP.
Qed.

Lemma loop_emit_plays {St D O} (step : St -> D -> option (St * option O)) script td : forall s pst s' sr r,
  plays script (mkSrc pst td) -> loop_emit step s pst td = Some (s', sr, r) -> plays script sr.
Proof.
  induction td as [|[|[d|]] td IH]; intros s pst s' sr r HP H; simpl in H.
  - injection H as <- <- <-. apply plays_beyond. exact HP.
  - injection H as <- <- <-. apply plays_next. exact HP.
  - destruct (step s d) as [[s1 [o|]]|]; [| |discriminate].
    + injection H as <- <- <-. apply plays_next. exact HP.
    + apply IH in H; [exact H|]. apply plays_next. exact HP.
  - injection H as <- <- <-. apply plays_next. exact HP.
Qed.

Lemma yielded_pendings {D} n : @yielded D (repeat Pending n) = [].
Proof. induction n; [reflexivity|assumption]. Qed.

Lemma plays_yields {D} script (s : src (option D)) : plays script s ->
  yielded (past s) ++ yielded (todo s) = yielded script.
Proof.
  intros [n H]. rewrite <- yielded_app, H, yielded_app, yielded_pendings, app_nil_r. reflexivity.
Qed.

(** ** Draining an inner SignalVec *)
Notation vside := (side false).

Section DrainVec.
  Context {A X : Type} (step : nat * X -> vecdiff A -> option (nat * X)) (R : X -> list A -> Prop).
  Hypothesis step_ok : forall x d l l', R x l -> apply_to_vec d l = Some l' ->
    exists x', step (length l, x) d = Some (length l', x') /\ R x' l'.

  Lemma drain_vec sl len l x : vside sl len l -> R x l ->
    exists x' sl' done l', drain_slot step (len, x) sl = Some ((length l', x'), sl', done)
      /\ vside sl' (length l') l' /\ R x' l'
      /\ (done = true <-> ended (snd sl'))
      /\ listening (snd sl) (snd sl')
      /\ (forall script, plays script (snd sl) -> plays script (snd sl')).
  Proof.
    intros (Hok & Hl & Hg & ->) HR.
    destruct (drain_slot_inv step (vgood false) (@vgood_prefix A false)
      (fun s ds => exists l1, replay ds = Some l1 /\ fst s = length l1 /\ R (snd s) l1)) with (x := (length l, x)) (sl := sl)
      as ([n x'] & sl' & done & E & (l' & Hl' & Hn & HR') & Hg').
    - intros [n y] ds d (l1 & Hl1 & Hn & Hy) [Hgd _]. simpl in *. subst n.
      assert (Hs := replay_snoc ds d). rewrite Hl1 in Hs. rewrite Hs in Hgd.
      destruct (apply_to_vec d l1) as [l2|] eqn:Ed; [|congruence].
      destruct (step_ok y d l1 l2 Hy Ed) as (y' & Es & Hy').
      exists (length l2, y'). split; [exact Es|]. exists l2. split; [rewrite Hs; reflexivity|]. split; [reflexivity|exact Hy'].
    - exists l. auto.
    - exact Hg.
    - simpl in Hn, HR'. subst n. exists x', sl', done, l'. split; [exact E|].
      destruct (drain_slot_ok _ _ _ _ _ _ Hok E) as (Hok' & Hf & _).
      split; [split; [exact Hok'|]; split; [exact Hl'|]; split; [exact Hg'|reflexivity]|].
      split; [exact HR'|]. split; [|split].
      + destruct Hok' as [_ Hok']. rewrite <- Hok', Hf. destruct done; split; intros H; try reflexivity; discriminate.
      + exact (drain_listening _ _ _ _ _ _ Hok E).
      + intros script HP. exact (drain_slot_plays _ _ _ _ _ _ _ HP E).
  Qed.
End DrainVec.

(** ** Applicability only depends on the length, and grows with it *)
Lemma apply_longer {A} (d : vecdiff A) (a a' b : list A) : apply_to_vec d a = Some a' -> length a <= length b ->
  exists b', apply_to_vec d b = Some b' /\ length a' <= length b'.
Proof.
  intros H Hle.
  assert (Hlen := apply_length d a a' H).
  destruct d as [vs|i x|i x|i|o n|x| |]; cbn [apply_to_vec] in *.
  - exists vs. split; [reflexivity|]. lia.
  - unfold vinsert in *. destruct (i <=? length a) eqn:Ei; [|discriminate]. apply Nat.leb_le in Ei.
    rewrite (proj2 (Nat.leb_le i (length b))) by lia. eexists. split; [reflexivity|].
    rewrite app_length. cbn [length]. rewrite firstn_length, skipn_length. lia.
  - unfold vset in *. destruct (i <? length a) eqn:Ei; [|discriminate]. apply Nat.ltb_lt in Ei.
    rewrite (proj2 (Nat.ltb_lt i (length b))) by lia. eexists. split; [reflexivity|].
    rewrite app_length. cbn [length]. rewrite firstn_length, skipn_length. lia.
  - unfold vremove in *. destruct (nth_error a i) eqn:Ea; [|discriminate].
    assert (Hi : i < length a) by (apply nth_error_Some; congruence).
    destruct (nth_error b i) eqn:Eb; [|apply nth_error_None in Eb; lia]. eexists. split; [reflexivity|].
    rewrite app_length, firstn_length, skipn_length. lia.
  - unfold vremove, vinsert in *. destruct (nth_error a o) eqn:Ea; [|discriminate].
    assert (Hi : o < length a) by (apply nth_error_Some; congruence).
    destruct (nth_error b o) eqn:Eb; [|apply nth_error_None in Eb; lia].
    destruct (n <=? length (firstn o a ++ skipn (o + 1) a)) eqn:En; [|discriminate].
    apply Nat.leb_le in En. rewrite app_length, firstn_length, skipn_length in En.
    rewrite (proj2 (Nat.leb_le n (length (firstn o b ++ skipn (o + 1) b))))
      by (rewrite app_length, firstn_length, skipn_length; lia).
    eexists. split; [reflexivity|].
    rewrite app_length. cbn [length]. rewrite firstn_length, skipn_length, app_length, firstn_length, skipn_length. lia.
  - eexists. split; [reflexivity|]. rewrite app_length. cbn [length]. lia.
  - unfold vpop in *. destruct (rev b) as [|y r] eqn:Er.
    + apply (f_equal (@length A)) in Er. rewrite rev_length in Er. simpl in Er. lia.
    + apply (f_equal (@length A)) in Er. rewrite rev_length in Er. simpl in Er.
      eexists. split; [reflexivity|]. rewrite rev_length. lia.
  - exists []. split; [reflexivity|]. lia.
Qed.

Lemma applies_longer {A} (ds : list (vecdiff A)) : forall a a' b,
  apply_all apply_to_vec a ds = Some a' -> length a <= length b ->
  exists b', apply_all apply_to_vec b ds = Some b' /\ length a' <= length b'.
Proof.
  induction ds as [|d ds IH]; intros a a' b H Hle; simpl in *.
  - injection H as <-. exists b. auto.
  - destruct (apply_to_vec d a) as [a1|] eqn:E; [|discriminate].
    destruct (apply_longer d a a1 b E Hle) as (b1 & Eb & Hle1). rewrite Eb. exact (IH a1 a' b1 H Hle1).
Qed.

(** ** The loop over the outer source *)
Section EmitSlot.
  Context {St D O : Type} (step : St -> D -> option (St * option O)).
  Variable P : list D -> Prop.
  Hypothesis P_prefix : forall a b, P (a ++ b) -> P a.
  Variable Inv : St -> list D -> list O -> Prop.
  Hypothesis Inv_step : forall s ds os d, Inv s ds os -> P (ds ++ [d]) ->
    exists s' oo, step s d = Some (s', oo) /\ Inv s' (ds ++ [d]) (os ++ olist oo).

  Lemma emit_slot_inv s sl os : Inv s (delivered sl) os -> P (deliverable sl) -> slot_ok sl ->
    exists s' sl' r, emit_slot step s sl = Some (s', sl', r)
      /\ Inv s' (delivered sl') (os ++ rlist r) /\ P (deliverable sl') /\ slot_ok sl'
      /\ match r with
         | Pending => armed (snd sl) (snd sl')
         | Ready None => ended (snd sl')
         | Ready (Some _) => True
         end.
  Proof.
    intros HI HP Hok. destruct sl as [[|] sr]; simpl.
    - destruct (loop_emit_inv step P P_prefix Inv Inv_step (todo sr) s (past sr) os HI HP)
        as (s' & sr' & r & E & HI' & HP').
      rewrite E. apply loop_emit_struct in E. destruct E as (ds & tl & Hp & _ & Htl).
      apply slot_ok_live in Hok.
      assert (Hpre : ~ In (Ready None) (past sr ++ somes ds))
        by (apply no_end_app; [exact Hok|apply somes_no_end]).
      rewrite app_assoc in Hp.
      assert (Hlive : ~ In (Ready None) (past sr') -> slot_ok (true, sr')).
      { intros Hn. split; simpl; [apply obeys_end_no_end; exact Hn|]. split; [discriminate|]. intros Hx. contradiction. }
      destruct r as [|[o|]].
      + exists s', (true, sr'), Pending. split; [reflexivity|]. split; [exact HI'|]. split; [exact HP'|]. subst tl.
        split; [apply Hlive; rewrite Hp; apply no_end_app; [exact Hpre|apply no_end_pending]|].
        exists (somes ds). simpl. rewrite Hp, app_assoc. reflexivity.
      + exists s', (true, sr'), (Ready (Some o)). split; [reflexivity|]. split; [exact HI'|]. split; [exact HP'|].
        destruct Htl as [-> _]. rewrite app_nil_r in Hp. split; [apply Hlive; rewrite Hp; exact Hpre|exact I].
      + exists s', (false, sr'), (Ready None). split; [reflexivity|]. split; [exact HI'|]. split; [exact HP'|]. subst tl.
        assert (He : ended sr') by (unfold ended; rewrite Hp; apply in_or_app; right; left; reflexivity).
        split; [|exact He]. split; simpl; [rewrite Hp; apply obeys_end_snoc; exact Hpre|]. split; auto.
    - exists s, (false, sr), (Ready None). split; [reflexivity|]. unfold rlist; simpl. rewrite app_nil_r.
      split; [exact HI|]. split; [exact HP|]. split; [exact Hok|]. apply Hok. reflexivity.
  Qed.
End EmitSlot.

Lemma touches_only_prefix {A} (Q : A -> Prop) a b : touches_only Q (a ++ b) -> touches_only Q a.
Proof.
  intros H pre d post l x E. apply (H pre d (post ++ b) l x). rewrite E, <- app_assoc. reflexivity.
Qed.

Lemma touches_last {A} (Q : A -> Prop) ds d l x : touches_only Q (ds ++ [d]) -> replay ds = Some l ->
  In x (touches d l) -> Q x.
Proof. intros H Hr. exact (H ds d [] l x eq_refl Hr). Qed.

Section Flatten.
  Context {K A : Type} (inner_of : K -> list (poll (option (vecdiff A)))).
  Hypothesis inner_good : forall k, good_vec_script (inner_of k).
  Notation applies := (@apply_all (vecdiff A) (list A) apply_to_vec).
  Notation fsrc f := (snd (fv_signal_vec f)).

  (** An inner SignalVec with its contents. *)
  Definition iok (f : fstate K A) (l : list A) : Prop :=
    vside (fv_signal_vec f) (fv_len f) l /\ plays (inner_of (fv_origin f)) (fsrc f).

  Lemma iok_new k : iok (fv_new inner_of k) [].
  Proof.
    split; [|apply plays_fresh]. split; [apply slot_ok_fresh|]. split; [reflexivity|].
    split; [|reflexivity]. split; [exact (inner_good k)|discriminate].
  Qed.

  Lemma iok_silent f l : iok f l -> yielded (inner_of (fv_origin f)) = [] -> l = [].
  Proof.
    intros ((_ & Hl & _) & HP) Hs. apply plays_yields in HP. rewrite Hs in HP.
    apply app_eq_nil in HP. destruct HP as [HP _]. unfold delivered in Hl. rewrite HP in Hl.
    injection Hl as <-. reflexivity.
  Qed.

  Lemma update_len_ok d (l l' : list A) : apply_to_vec d l = Some l' -> update_len (length l) d = Some (length l').
  Proof.
    intros H. apply apply_length in H. unfold update_len, usub.
    destruct d as [vs|i x|i x|i|o n|x| |]; rewrite ?H; try reflexivity.
    - destruct (1 <=? length l' + 1) eqn:E; [f_equal; lia|apply Nat.leb_gt in E; lia].
    - destruct (1 <=? length l' + 1) eqn:E; [f_equal; lia|apply Nat.leb_gt in E; lia].
  Qed.

  Lemma poll_values_ok f l : iok f l -> l = [] -> exists f' l', poll_values f = Some (f', l')
    /\ iok f' l' /\ fv_origin f' = fv_origin f /\ listening (fsrc f) (fsrc f').
  Proof.
    intros [Hs HP] ->. unfold poll_values.
    destruct (drain_vec (fun (s : nat * list A) diff =>
      let? len' := update_len (fst s) diff in
      let? output' := apply_to_vec diff (snd s) in
      Some (len', output')) (fun out l => out = l)) with (sl := fv_signal_vec f) (len := fv_len f) (l := @nil A) (x := @nil A)
      as (x' & sl' & done & l' & E & Hs' & -> & Hd & Hli & Hpl).
    - intros x d l0 l' -> H. cbn [fst snd]. rewrite (update_len_ok d l0 l' H), H. exists l'. auto.
    - exact Hs.
    - reflexivity.
    - rewrite E. exists (mkFv (fv_origin f) sl' (length l')), l'. split; [reflexivity|].
      split; [split; [exact Hs'|exact (Hpl _ HP)]|]. split; [reflexivity|exact Hli].
  Qed.

  Lemma poll_all_values_ok ks : exists inner ls, poll_all_values (map (fv_new inner_of) ks) = Some (inner, concat ls)
    /\ Forall2 iok inner ls /\ map fv_origin inner = ks
    /\ Forall (fun f => listening (fresh (inner_of (fv_origin f))) (fsrc f)) inner.
  Proof.
    induction ks as [|k ks (inner & ls & E & HF & Hk & Hli)].
    - exists [], []. split; [reflexivity|]. split; [constructor|]. split; [reflexivity|constructor].
    - cbn [map poll_all_values].
      destruct (poll_values_ok _ _ (iok_new k) eq_refl) as (f & l & Ef & Hf & Ho & Hl). rewrite Ef, E.
      exists (f :: inner), (l :: ls). split; [reflexivity|]. split; [constructor; assumption|].
      split; [cbn [map]; rewrite Ho, Hk; reflexivity|]. constructor; [|exact Hli].
      rewrite Ho. exact Hl.
  Qed.

  (** What poll_pending pushes for one diff does the same to the whole. *)
  Lemma pushed_ok (P S : list A) d l l' : apply_to_vec d l = Some l' ->
    exists ds, pushed (length P) (length l) d = Some ds /\ applies (P ++ l ++ S) ds = Some (P ++ l' ++ S).
  Proof.
    intros H. assert (Hone : forall e, apply_to_vec e (P ++ l ++ S) = Some (P ++ l' ++ S) ->
      applies (P ++ l ++ S) [e] = Some (P ++ l' ++ S)).
    { intros e He. cbn [apply_all]. rewrite He. reflexivity. }
    assert (Hrem : forall n (m : list A), length m = n ->
      applies (P ++ m ++ S) (map (fun index => RemoveAt (length P + index)) (rev (seq 0 n))) = Some (P ++ S)).
    { induction n as [|n IH]; intros m Hm.
      - destruct m; [reflexivity|discriminate].
      - rewrite seq_S, rev_app_distr. cbn [rev app map apply_all].
        destruct (exists_last (l := m)) as (m' & x & ->); [intros ->; discriminate|].
        rewrite app_length in Hm. simpl in Hm. rewrite <- app_assoc. cbn [app]. rewrite app_assoc.
        rewrite apply_remove_app by (rewrite app_length; simpl; lia).
        rewrite <- app_assoc. apply IH. lia. }
    assert (Hins : forall vs (m : list A) n, n = length m ->
      applies (P ++ m ++ S) (map (fun iv => InsertAt (length P + fst iv) (snd iv)) (combine (seq n (length vs)) vs))
      = Some (P ++ m ++ vs ++ S)).
    { induction vs as [|v vs IH]; intros m n Hn; [reflexivity|].
      cbn [length seq combine map apply_all fst snd]. rewrite (app_assoc P), apply_insert_app by (rewrite app_length; lia).
      replace ((P ++ m) ++ v :: S) with (P ++ (m ++ [v]) ++ S) by (rewrite <- !app_assoc; reflexivity).
      rewrite IH by (rewrite app_length; simpl; lia). rewrite <- !app_assoc. reflexivity. }
    assert (Hi := H). apply apply_inv in Hi.
    destruct d as [vs|i x|i x|i|o n|x| |]; cbn [pushed].
    - subst l'. eexists. split; [reflexivity|]. rewrite (applies_app _ _ _ (P ++ S)) by (apply Hrem; reflexivity).
      exact (Hins vs [] 0 eq_refl).
    - destruct Hi as (l1 & l2 & -> & -> & <-). eexists. split; [reflexivity|]. apply Hone.
      rewrite <- !app_assoc, (app_assoc P), (app_assoc P l1 _). cbn [app]. apply apply_insert_app. rewrite app_length. lia.
    - destruct Hi as (l1 & y & l2 & -> & -> & <-). eexists. split; [reflexivity|]. apply Hone.
      rewrite <- !app_assoc, !(app_assoc P). cbn [app]. apply apply_update_app. rewrite app_length. lia.
    - destruct Hi as (l1 & y & l2 & -> & -> & <-). eexists. split; [reflexivity|]. apply Hone.
      rewrite <- !app_assoc, !(app_assoc P). cbn [app]. apply apply_remove_app. rewrite app_length. lia.
    - eexists. split; [reflexivity|]. apply Hone.
      assert (H1 := apply_left (Move o n) l l' S H). cbn in H1.
      assert (H2 := apply_right (Move o n) P (l ++ S) (l' ++ S) (length P) eq_refl H1). cbn beta iota in H2.
      rewrite (Nat.add_comm o), (Nat.add_comm n) in H2. exact H2.
    - subst l'. eexists. split; [reflexivity|]. apply Hone.
      rewrite <- !app_assoc, !(app_assoc P). cbn [app]. apply apply_insert_app. rewrite app_length. lia.
    - destruct Hi as (x & ->). rewrite app_length. simpl. unfold usub.
      destruct (1 <=? length l' + 1) eqn:E; [|apply Nat.leb_gt in E; lia].
      eexists. split; [reflexivity|]. apply Hone.
      rewrite <- !app_assoc, !(app_assoc P). cbn [app]. apply apply_remove_app. rewrite app_length. lia.
    - subst l'. eexists. split; [reflexivity|]. exact (Hrem (length l) l eq_refl).
  Qed.

  Lemma poll_pending_ok f l (P S start : list A) pend : iok f l ->
    applies start pend = Some (P ++ l ++ S) ->
    exists f' l' pend' done, poll_pending (length P) pend f = Some (f', pend', done)
      /\ iok f' l' /\ fv_origin f' = fv_origin f
      /\ applies start pend' = Some (P ++ l' ++ S)
      /\ (done = true <-> ended (fsrc f')) /\ listening (fsrc f) (fsrc f').
  Proof.
    intros [Hs HP] Ha. unfold poll_pending.
    destruct (drain_vec (fun (s : nat * list (vecdiff A)) diff =>
      let? len' := update_len (fst s) diff in
      let? ds := pushed (length P) (fst s) diff in
      Some (len', snd s ++ ds)) (fun pend l => applies start pend = Some (P ++ l ++ S)))
      with (sl := fv_signal_vec f) (len := fv_len f) (l := l) (x := pend)
      as (pend' & sl' & done & l' & E & Hs' & Ha' & Hd & Hli & Hpl).
    - intros x d l0 l' Hx H. cbn [fst snd]. rewrite (update_len_ok d l0 l' H).
      destruct (pushed_ok P S d l0 l' H) as (ds & -> & Hds). eexists. split; [reflexivity|].
      rewrite (applies_app _ _ _ _ Hx). exact Hds.
    - exact Hs.
    - exact Ha.
    - cbv zeta. rewrite E. exists (mkFv (fv_origin f) sl' (length l')), l', pend', done. split; [reflexivity|].
      split; [split; [exact Hs'|exact (Hpl _ HP)]|]. split; [reflexivity|]. split; [exact Ha'|]. split; [exact Hd|exact Hli].
  Qed.

  Lemma poll_inner_ok (start : list A) inner : forall ls P pend,
    Forall2 iok inner ls -> applies start pend = Some (P ++ concat ls) ->
    exists inner' ls' pend' done, poll_inner (length P) pend inner = Some (inner', pend', done)
      /\ Forall2 iok inner' ls' /\ map fv_origin inner' = map fv_origin inner
      /\ applies start pend' = Some (P ++ concat ls')
      /\ (done = true <-> Forall (fun f => ended (fsrc f)) inner')
      /\ Forall2 (fun f f' => listening (fsrc f) (fsrc f')) inner inner'.
  Proof.
    induction inner as [|f inner IH]; intros ls P pend HF Ha.
    - inversion HF; subst. exists [], [], pend, true. split; [reflexivity|]. split; [constructor|].
      split; [reflexivity|]. split; [exact Ha|]. split; [|constructor]. split; [constructor|reflexivity].
    - inversion HF as [|? l ? ls0 Hf HF']; subst. cbn [concat] in Ha. cbn [poll_inner].
      destruct (poll_pending_ok f l P (concat ls0) start pend Hf Ha) as (f' & l' & pend1 & d1 & E1 & Hf' & Ho & Ha1 & Hd1 & Hl1).
      rewrite E1.
      assert (Hlen : length P + fv_len f' = length (P ++ l')).
      { rewrite app_length. destruct Hf' as [(_ & _ & _ & ->) _]. reflexivity. }
      rewrite Hlen. destruct (IH ls0 (P ++ l') pend1 HF') as (inner' & ls' & pend2 & d2 & E2 & HF2 & Ho2 & Ha2 & Hd2 & Hl2).
      { rewrite <- app_assoc. exact Ha1. }
      rewrite E2. exists (f' :: inner'), (l' :: ls'), pend2, (d1 && d2). split; [reflexivity|].
      split; [constructor; assumption|]. split; [cbn [map]; rewrite Ho, Ho2; reflexivity|].
      split; [cbn [concat]; rewrite Ha2, <- app_assoc; reflexivity|]. split; [|constructor; assumption].
      rewrite andb_true_iff, Hd1, Hd2. split; [intros [H1 H2]; constructor; assumption|].
      intros H. inversion H; subst. auto.
  Qed.

  (** The outer values with nothing in them. *)
  Definition silent (k : K) : Prop := yielded (inner_of k) = [].

  (** The inner SignalVecs at hand, the outer diffs that led to them, and the outputs so far.
      [olds]: the inner SignalVecs when the poll began, and the diffs and outputs before it. *)
  Definition finv (olds : list (fstate K A)) (ds0 : list (vecdiff K)) (os0 : list (vecdiff A)) (inner : list (fstate K A))
    (ds : list (vecdiff K)) (os : list (vecdiff A)) : Prop :=
    exists ls shown, replay ds = Some (map fv_origin inner) /\ Forall2 iok inner ls
      /\ replay os = Some shown /\ length (concat ls) <= length shown
      /\ (touches_only silent ds -> concat ls = shown)
      /\ (os = os0 -> exists new, ds = ds0 ++ new /\ carried (fv_new inner_of) new olds = Some inner).

  Lemma map_mid {X Y} (g : X -> Y) l l1 y l2 : map g l = l1 ++ y :: l2 ->
    exists a x b, l = a ++ x :: b /\ map g a = l1 /\ g x = y /\ map g b = l2.
  Proof.
    intros H. apply map_eq_app in H. destruct H as (a & b & -> & <- & H).
    destruct b as [|x b]; [discriminate|]. injection H as <- <-. exists a, x, b. auto.
  Qed.

  Lemma concat_mid {X} (a b : list (list X)) x : concat (a ++ x :: b) = concat a ++ x ++ concat b.
  Proof. rewrite concat_app. reflexivity. Qed.

  Lemma forall_mid {X} (Q : X -> Prop) a x b : Forall Q (a ++ x :: b) -> Forall Q a /\ Q x /\ Forall Q b.
  Proof. intros H. apply Forall_app in H. destruct H as [H1 H2]. inversion H2; subst. auto. Qed.

  Lemma carried_snoc {X} (make : K -> X) new d l l' l'' : carried make new l = Some l' ->
    apply_to_vec (fst (vd_map make d)) l' = Some l'' -> carried make (new ++ [d]) l = Some l''.
  Proof.
    intros H1 H2. unfold carried in *. rewrite map_app. rewrite (applies_app _ _ _ _ H1).
    cbn [map apply_all]. rewrite H2. reflexivity.
  Qed.

  Lemma finv_step olds ds0 os0 inner ds os d : finv olds ds0 os0 inner ds os -> replay (ds ++ [d]) <> None ->
    (exists tl, os = os0 ++ tl) ->
    exists inner' oo, flatten_step inner_of inner d = Some (inner', oo) /\ finv olds ds0 os0 inner' (ds ++ [d]) (os ++ olist oo).
  Proof.
    intros (ls & shown & Hr & HF & Hsh & Hle & Hex & Hpr) Hg (tl & Htl).
    assert (Hs := replay_snoc ds d). rewrite Hr in Hs. rewrite Hs in Hg.
    destruct (apply_to_vec d (map fv_origin inner)) as [ks'|] eqn:Ea; [|congruence].
    assert (Hex' : touches_only silent (ds ++ [d]) -> concat ls = shown).
    { intros Ht. apply Hex. exact (touches_only_prefix _ _ _ Ht). }
    assert (Htouch : forall x, touches_only silent (ds ++ [d]) -> In x (touches d (map fv_origin inner)) -> silent x).
    { intros x Ht. exact (touches_last _ _ _ _ x Ht Hr). }
    assert (Hi := Ea). apply apply_inv in Hi.
    assert (Hquiet : forall inner' ls', map fv_origin inner' = ks' -> Forall2 iok inner' ls' ->
      length (concat ls') <= length shown -> (touches_only silent (ds ++ [d]) -> concat ls' = shown) ->
      apply_to_vec (fst (vd_map (fv_new inner_of) d)) inner = Some inner' ->
      finv olds ds0 os0 inner' (ds ++ [d]) (os ++ olist (@None (vecdiff A)))).
    { intros inner' ls' Ho HF' Hl He Hp. exists ls', shown. rewrite Hs, Ho. simpl olist. rewrite app_nil_r.
      split; [reflexivity|]. split; [exact HF'|]. split; [exact Hsh|]. split; [exact Hl|]. split; [exact He|].
      intros Hos. destruct (Hpr Hos) as (new & -> & Hc). exists (new ++ [d]). split; [rewrite app_assoc; reflexivity|].
      exact (carried_snoc _ _ _ _ _ _ Hc Hp). }
    assert (Hloud : forall inner' ls' e, map fv_origin inner' = ks' -> Forall2 iok inner' ls' ->
      apply_to_vec e shown = Some (concat ls') ->
      finv olds ds0 os0 inner' (ds ++ [d]) (os ++ olist (Some e))).
    { intros inner' ls' e Ho HF' He. exists ls', (concat ls'). rewrite Hs, Ho. simpl olist.
      split; [reflexivity|]. split; [exact HF'|]. split; [rewrite replay_snoc, Hsh; exact He|].
      split; [apply le_n|]. split; [reflexivity|]. intros Hc. exfalso. rewrite Htl, <- app_assoc in Hc.
      apply (f_equal (@length _)) in Hc. rewrite !app_length in Hc. simpl in Hc. lia. }
    destruct d as [vs|i k|i k|i|o n|k| |]; cbn [flatten_step].
    - destruct (poll_all_values_ok vs) as (inner' & ls' & E & HF' & Ho & _). rewrite E.
      exists inner', (Some (Replace (concat ls'))). split; [reflexivity|].
      subst ks'. exact (Hloud inner' ls' (Replace (concat ls')) Ho HF' eq_refl).
    - destruct Hi as (l1 & l2 & Hl & -> & <-). apply map_eq_app in Hl. destruct Hl as (a & b & -> & <- & <-).
      apply Forall2_app_inv_l in HF. destruct HF as (la & lb & HFa & HFb & ->).
      rewrite vinsert_app by (rewrite ?map_length; reflexivity). eexists _, None. split; [reflexivity|].
      apply (Hquiet _ (la ++ [] :: lb)).
      + rewrite map_app. reflexivity.
      + apply Forall2_app; [exact HFa|]. constructor; [apply iok_new|exact HFb].
      + rewrite concat_mid; cbn [app]; rewrite <- concat_app. exact Hle.
      + rewrite concat_mid; cbn [app]; rewrite <- concat_app. exact Hex'.
      + apply apply_insert_app. rewrite ?map_length. reflexivity.
    - destruct Hi as (l1 & y & l2 & Hl & -> & <-). apply map_mid in Hl. destruct Hl as (a & f & b & -> & <- & <- & <-).
      apply Forall2_app_inv_l in HF. destruct HF as (la & lb & HFa & HFb & ->).
      inversion HFb as [|? lf ? lb' Hf HFb']; subst.
      rewrite vset_app by (rewrite ?map_length; reflexivity). eexists _, None. split; [reflexivity|].
      rewrite concat_mid in Hle, Hex, Hex'.
      apply (Hquiet _ (la ++ [] :: lb')).
      + rewrite map_app. reflexivity.
      + apply Forall2_app; [exact HFa|]. constructor; [apply iok_new|exact HFb'].
      + rewrite concat_mid. rewrite !app_length in *. simpl. lia.
      + intros Ht. rewrite <- (Hex' Ht), concat_mid. rewrite (iok_silent f lf Hf); [reflexivity|].
        apply Htouch; [exact Ht|]. unfold touches. rewrite map_app. cbn [map].
        rewrite nth_error_app2, Nat.sub_diag by (rewrite ?map_length; apply le_n). left. reflexivity.
      + apply apply_update_app. rewrite ?map_length. reflexivity.
    - destruct Hi as (l1 & y & l2 & Hl & -> & <-). apply map_mid in Hl. destruct Hl as (a & f & b & -> & <- & <- & <-).
      apply Forall2_app_inv_l in HF. destruct HF as (la & lb & HFa & HFb & ->).
      inversion HFb as [|? lf ? lb' Hf HFb']; subst.
      rewrite vremove_app by (rewrite ?map_length; reflexivity). eexists _, None. split; [reflexivity|].
      rewrite concat_mid in Hle, Hex, Hex'.
      apply (Hquiet _ (la ++ lb')).
      + rewrite map_app. reflexivity.
      + apply Forall2_app; assumption.
      + rewrite concat_app. rewrite !app_length in *. lia.
      + intros Ht. rewrite <- (Hex' Ht), concat_app. rewrite (iok_silent f lf Hf); [reflexivity|].
        apply Htouch; [exact Ht|]. unfold touches. rewrite map_app. cbn [map].
        rewrite nth_error_app2, Nat.sub_diag by (rewrite ?map_length; apply le_n). left. reflexivity.
      + apply apply_remove_app. rewrite ?map_length. reflexivity.
    - destruct Hi as (l1 & y & l2 & m1 & m2 & Hl & <- & Hm & -> & <-).
      apply map_mid in Hl. destruct Hl as (a & f & b & -> & <- & <- & <-).
      rewrite <- map_app in Hm. apply map_eq_app in Hm. destruct Hm as (c & e & Hce & <- & <-).
      apply Forall2_app_inv_l in HF. destruct HF as (la & lb & HFa & HFb & ->).
      inversion HFb as [|? lf ? lb' Hf HFb']; subst.
      rewrite vremove_app by (rewrite ?map_length; reflexivity). rewrite Hce, vinsert_app by (rewrite ?map_length; reflexivity).
      eexists _, None. split; [reflexivity|].
      assert (HFab : Forall2 iok (c ++ e) (la ++ lb')) by (rewrite <- Hce; apply Forall2_app; assumption).
      apply Forall2_app_inv_l in HFab. destruct HFab as (lc & le & HFc & HFe & Hlce).
      assert (Hcat := f_equal (@concat A) Hlce). rewrite !concat_app in Hcat.
      rewrite concat_mid in Hle, Hex, Hex'.
      apply (Hquiet _ (lc ++ lf :: le)).
      + rewrite map_app. reflexivity.
      + apply Forall2_app; [exact HFc|]. constructor; assumption.
      + rewrite concat_mid. apply (f_equal (@length A)) in Hcat. rewrite !app_length in *. lia.
      + intros Ht. rewrite <- (Hex' Ht), concat_mid.
        assert (Hlf : lf = []).
        { apply (iok_silent f lf Hf). apply Htouch; [exact Ht|]. unfold touches. rewrite map_app. cbn [map].
          rewrite nth_error_app2, Nat.sub_diag by (rewrite ?map_length; apply le_n). left. reflexivity. }
        rewrite Hlf. symmetry. exact Hcat.
      + cbn [vd_map fst apply_to_vec]. rewrite vremove_app by (rewrite ?map_length; reflexivity).
        rewrite Hce. apply vinsert_app. rewrite ?map_length. reflexivity.
    - subst ks'. eexists _, None. split; [reflexivity|]. apply (Hquiet _ (ls ++ [[]])).
      + rewrite map_app. reflexivity.
      + apply Forall2_app; [exact HF|]. constructor; [apply iok_new|constructor].
      + rewrite concat_app. simpl. rewrite app_nil_r. exact Hle.
      + rewrite concat_app. simpl. rewrite app_nil_r. exact Hex'.
      + reflexivity.
    - destruct Hi as (x & Hl). apply map_mid in Hl. destruct Hl as (a & f & b & -> & <- & <- & Hb).
      destruct b; [|discriminate].
      apply Forall2_app_inv_l in HF. destruct HF as (la & lb & HFa & HFb & ->).
      inversion HFb as [|? lf ? lb' Hf HFb']; subst. inversion HFb'; subst.
      unfold vpop. rewrite rev_app_distr. cbn [rev app]. rewrite rev_involutive.
      eexists _, None. split; [reflexivity|].
      rewrite concat_mid in Hle, Hex, Hex'. cbn [concat] in Hle, Hex, Hex'. rewrite app_nil_r in Hle, Hex, Hex'.
      apply (Hquiet _ la).
      + reflexivity.
      + exact HFa.
      + rewrite !app_length in *. lia.
      + intros Ht. rewrite <- (Hex' Ht). rewrite (iok_silent f lf Hf); [rewrite app_nil_r; reflexivity|].
        apply Htouch; [exact Ht|]. unfold touches. rewrite map_app, rev_app_distr. left. reflexivity.
      + apply apply_pop_app.
    - subst ks'. eexists _, (Some Clear). split; [reflexivity|]. exact (Hloud [] [] Clear eq_refl (Forall2_nil _) eq_refl).
  Qed.

  (** Nothing in the outer source's future can panic. *)
  Definition finv_all (st : flatten_state K A) (outs : list (poll (option (vecdiff A)))) : Prop :=
    exists ls shown thought,
      slot_ok (fla_signal st) /\ replay (deliverable (fla_signal st)) <> None
      /\ replay (delivered (fla_signal st)) = Some (map fv_origin (fla_inner st))
      /\ Forall2 iok (fla_inner st) ls
      /\ replay (yielded outs) = Some shown
      /\ applies thought (fla_pending st) = Some (concat ls)
      /\ length thought <= length shown
      /\ (touches_only silent (delivered (fla_signal st)) -> thought = shown)
      /\ (last_out outs Pending \/ last_out outs (Ready None) -> fla_pending st = [])
      /\ (last_out outs (Ready None) -> ended (snd (fla_signal st)) /\ Forall (fun f => ended (fsrc f)) (fla_inner st))
      /\ (last_out outs Pending -> ~ (ended (snd (fla_signal st)) /\ Forall (fun f => ended (fsrc f)) (fla_inner st))).

  (** What was polled by a poll that answers Pending. *)
  Definition flatten_arms (st st' : flatten_state K A) (o : poll (option (vecdiff A))) : Prop :=
    o = Pending -> listening (snd (fla_signal st)) (snd (fla_signal st'))
      /\ exists new before, delivered (fla_signal st') = delivered (fla_signal st) ++ new
           /\ carried (fv_new inner_of) new (fla_inner st) = Some before
           /\ Forall2 (fun f f' => listening (fsrc f) (fsrc f')) before (fla_inner st').

  Lemma flatten_vec_step st outs : finv_all st outs -> ~ In (Ready None) outs ->
    exists st' o, flatten_vec_poll inner_of st = Some (st', o) /\ finv_all st' (outs ++ [o]) /\ flatten_arms st st' o.
  Proof.
    intros (ls & shown & thought & Hok & Hg & Hr & HF & Hsh & Hap & Hle & Hex & Hpe & Hen & Hpn) Hno.
    unfold flatten_vec_poll. destruct (fla_pending st) as [|d rest] eqn:Ep.
    2:{ cbn [apply_all] in Hap. destruct (apply_to_vec d thought) as [th'|] eqn:Ed; [|discriminate].
      destruct (apply_longer d thought th' shown Ed Hle) as (sh' & Es & Hle').
      eexists _, _. split; [reflexivity|]. split; [|discriminate].
      exists ls, sh', th'. cbn [fla_signal fla_inner fla_pending].
      split; [exact Hok|]. split; [exact Hg|]. split; [exact Hr|]. split; [exact HF|].
      split; [rewrite yielded_app; cbn [yielded]; rewrite replay_snoc, Hsh; exact Es|].
      split; [exact Hap|]. split; [exact Hle'|].
      split; [intros Ht; rewrite (Hex Ht) in Ed; congruence|]. rewrite !last_out_snoc.
      split; [intros [H|H]; discriminate|]. split; discriminate. }
    cbn [apply_all] in Hap. injection Hap as ->.
    destruct (emit_slot_inv (flatten_step inner_of) (fun ds => replay ds <> None) (@replay_prefix K)
      (fun inner ds os => finv (fla_inner st) (delivered (fla_signal st)) (yielded outs) inner ds os /\ exists tl, os = yielded outs ++ tl))
      with (s := fla_inner st) (sl := fla_signal st) (os := yielded outs)
      as (inner & sl' & r & E & [HI _] & Hg' & Hok' & Hsl).
    { intros inner ds os d [HI Htl] Hgd. destruct (finv_step _ _ _ _ _ _ d HI Hgd Htl) as (inner' & oo & E & HI').
      exists inner', oo. split; [exact E|]. split; [exact HI'|]. destruct Htl as (tl & ->). exists (tl ++ olist oo).
      rewrite app_assoc. reflexivity. }
    { split; [|exists []; rewrite app_nil_r; reflexivity].
      exists ls, shown. split; [exact Hr|]. split; [exact HF|]. split; [exact Hsh|]. split; [exact Hle|].
      split; [exact Hex|]. intros _. exists []. split; [rewrite app_nil_r; reflexivity|reflexivity]. }
    { exact Hg. }
    { exact Hok. }
    rewrite E. destruct HI as (ls1 & sh1 & Hr1 & HF1 & Hsh1 & Hle1 & Hex1 & Hpr1).
    assert (Hcase : rlist r = [] ->
      exists st' o, (let? (inner', pending, inner_done) := poll_inner 0 [] inner in
        match pending with
        | first :: rest => Some (mkFlat sl' inner' rest, Ready (Some first))
        | [] => if inner_done && match r with Ready None => true | _ => false end
                then Some (mkFlat sl' inner' [], Ready None) else Some (mkFlat sl' inner' [], Pending)
        end) = Some (st', o) /\ finv_all st' (outs ++ [o]) /\ flatten_arms st st' o).
    { intros Hrl. rewrite Hrl, app_nil_r in *. rewrite Hsh in Hsh1. injection Hsh1 as <-.
      destruct (poll_inner_ok (concat ls1) inner ls1 [] [] HF1 eq_refl)
        as (inner' & ls' & pend' & done & E2 & HF2 & Ho2 & Ha2 & Hd2 & Hl2).
      cbn [length app] in E2, Ha2. rewrite E2.
      assert (Hlisten : listening (snd (fla_signal st)) (snd sl')).
      { destruct r as [|[o|]]; [right; exact Hsl|discriminate|left; exact Hsl]. }
      assert (Hends : ended (snd sl') <-> match r with Ready None => true | _ => false end = true).
      { destruct r as [|[o|]]; [|discriminate|split; auto].
        split; [|discriminate]. intros He. exfalso. destruct Hsl as (p & Hp).
        destruct Hok' as [Hoe _]. apply in_split in He. destruct He as (x & y & He).
        assert (Hy := Hoe x y He). subst y. rewrite He, app_assoc in Hp. apply app_inj_tail in Hp. destruct Hp; discriminate. }
      destruct pend' as [|first rest].
      - cbn [apply_all] in Ha2. injection Ha2 as Ha2.
        assert (Hgen : forall o, (o = Pending \/ o = Ready None) ->
          (o = Ready None <-> ended (snd sl') /\ Forall (fun f => ended (fsrc f)) inner') ->
          finv_all (mkFlat sl' inner' []) (outs ++ [o]) /\ flatten_arms st (mkFlat sl' inner' []) o).
        { intros o Ho Hiff. split.
          - exists ls', shown, (concat ls'). cbn [fla_signal fla_inner fla_pending].
            split; [exact Hok'|]. split; [exact Hg'|]. split; [rewrite Ho2; exact Hr1|]. split; [exact HF2|].
            split; [rewrite yielded_app; destruct Ho as [-> | ->]; cbn [yielded]; rewrite app_nil_r; exact Hsh|].
            split; [reflexivity|]. rewrite <- Ha2. split; [exact Hle1|]. split; [exact Hex1|].
            rewrite !last_out_snoc. split; [reflexivity|]. split; [apply Hiff|].
            intros -> Hc. apply Hiff in Hc. discriminate.
          - intros ->. cbn [fla_signal fla_inner]. split; [exact Hlisten|].
            destruct (Hpr1 eq_refl) as (new & Hds & Hc). exists new, inner. auto. }
        destruct (done && match r with Ready None => true | _ => false end) eqn:Edn.
        + exists (mkFlat sl' inner' []), (Ready None). split; [reflexivity|]. apply Hgen; [auto|].
          apply andb_true_iff in Edn. rewrite Hends, <- Hd2. split; [intros _; tauto|reflexivity].
        + exists (mkFlat sl' inner' []), Pending. split; [reflexivity|]. apply Hgen; [auto|].
          rewrite Hends, <- Hd2. split; [discriminate|]. intros [H1 H2]. rewrite H1, H2 in Edn. discriminate.
      - eexists _, _. split; [reflexivity|]. split; [|discriminate].
        cbn [apply_all] in Ha2. destruct (apply_to_vec first (concat ls1)) as [th'|] eqn:Ed; [|discriminate].
        destruct (apply_longer first (concat ls1) th' shown Ed Hle1) as (sh' & Es & Hle').
        exists ls', sh', th'. cbn [fla_signal fla_inner fla_pending].
        split; [exact Hok'|]. split; [exact Hg'|]. split; [rewrite Ho2; exact Hr1|]. split; [exact HF2|].
        split; [rewrite yielded_app; cbn [yielded]; rewrite replay_snoc, Hsh; exact Es|].
        split; [exact Ha2|]. split; [exact Hle'|].
        split; [intros Ht; rewrite (Hex1 Ht) in Ed; congruence|]. rewrite !last_out_snoc.
        split; [intros [H|H]; discriminate|]. split; discriminate. }
    destruct r as [|[d|]]; [exact (Hcase eq_refl)| |exact (Hcase eq_refl)].
    eexists _, _. split; [reflexivity|]. split; [|discriminate].
    exists ls1, sh1, (concat ls1). cbn [fla_signal fla_inner fla_pending].
    split; [exact Hok'|]. split; [exact Hg'|]. split; [exact Hr1|]. split; [exact HF1|].
    split; [rewrite yielded_app; exact Hsh1|].
    split; [reflexivity|]. split; [exact Hle1|]. split; [exact Hex1|]. rewrite !last_out_snoc.
    split; [intros [H|H]; discriminate|]. split; discriminate.
  Qed.

  Lemma flatten_vec_run outer : good_vec_script outer -> forall n, exists st outs,
    run (flatten_vec_poll inner_of) n (flatten_vec_init outer) = Some (st, outs) /\ finv_all st outs
    /\ (~ In (Ready None) outs -> forall st' o, flatten_vec_poll inner_of st = Some (st', o) -> flatten_arms st st' o).
  Proof.
    intros Hg. apply (run_then (flatten_vec_poll inner_of) finv_all flatten_arms (flatten_vec_init outer)).
    - exists [], [], []. cbn. split; [apply slot_ok_fresh|]. split; [exact Hg|]. split; [reflexivity|]. split; [constructor|].
      split; [reflexivity|]. split; [reflexivity|]. split; [apply le_n|]. split; [reflexivity|]. split; [reflexivity|].
      split; intros H; exfalso; exact (last_out_nil _ H).
    - exact flatten_vec_step.
  Qed.
End Flatten.

Lemma forall2_flat {X Y} (P Q : X -> Y -> Prop) l l' : (forall x y, P x y -> Q x y) -> Forall2 P l l' -> Forall2 Q l l'.
Proof. intros H. induction 1; constructor; auto. Qed.

Lemma flatten_mirror {K A} (inner_of : K -> list (poll (option (vecdiff A)))) outer :
  (forall k, good_vec_script (inner_of k)) -> good_vec_script outer ->
  touches_only (fun k => yielded (inner_of k) = []) (yielded outer) -> forall n, exists st outs ls shown,
    run (flatten_vec_poll inner_of) n (flatten_vec_init outer) = Some (st, outs)
    /\ conveyed (snd (fla_signal st)) = Some (map fv_origin (fla_inner st))
    /\ Forall2 (fun f l => plays (inner_of (fv_origin f)) (snd (fv_signal_vec f))
                           /\ conveyed (snd (fv_signal_vec f)) = Some l) (fla_inner st) ls
    /\ replay (yielded outs) = Some shown
    /\ (last_out outs Pending \/ last_out outs (Ready None) -> shown = concat ls)
    /\ apply_all apply_to_vec shown (fla_pending st) = Some (concat ls).
Proof.
  intros Hig Hg Ht n. destruct (flatten_vec_run inner_of Hig outer Hg n)
    as (st & outs & Hr & (ls & shown & thought & Hok & Hgd & Hk & HF & Hsh & Hap & Hle & Hex & Hpe & _) & _).
  assert (Hpl : plays outer (snd (fla_signal st))).
  { revert Hr. apply (run_inv_partial0 (flatten_vec_poll inner_of) (fun st _ => plays outer (snd (fla_signal st)))).
    - apply plays_fresh.
    - intros s o s' r HP _ E. unfold flatten_vec_poll in E. destruct (fla_pending s).
      + destruct (emit_slot (flatten_step inner_of) (fla_inner s) (fla_signal s)) as [[[inner sl'] r']|] eqn:Es; [|discriminate].
        assert (HP' : plays outer (snd sl')).
        { destruct (fla_signal s) as [[|] sr]; simpl in Es.
          - destruct (loop_emit (flatten_step inner_of) (fla_inner s) (past sr) (todo sr)) as [[[s1 sr1] r1]|] eqn:El; [|discriminate].
            assert (Hx : plays outer sr1).
            { refine (loop_emit_plays _ _ _ _ _ _ _ _ _ El). destruct sr. exact HP. }
            destruct r1 as [|[d|]]; injection Es as <- <- <-; exact Hx.
          - injection Es as <- <- <-. exact HP. }
        destruct r' as [|[d|]].
        * destruct (poll_inner 0 [] inner) as [[[i2 p2] d2]|]; [|discriminate]. destruct p2.
          -- destruct (d2 && false); injection E as <- <-; exact HP'.
          -- injection E as <- <-. exact HP'.
        * injection E as <- <-. exact HP'.
        * destruct (poll_inner 0 [] inner) as [[[i2 p2] d2]|]; [|discriminate]. destruct p2.
          -- destruct (d2 && true); injection E as <- <-; exact HP'.
          -- injection E as <- <-. exact HP'.
      + injection E as <- <-. exact HP. }
  assert (Htt : touches_only (silent inner_of) (delivered (fla_signal st))).
  { apply plays_yields in Hpl. apply (touches_only_prefix _ _ (yielded (todo (snd (fla_signal st))))).
    unfold delivered. rewrite Hpl. exact Ht. }
  rewrite (Hex Htt) in Hap.
  exists st, outs, ls, shown. split; [exact Hr|]. split; [exact Hk|].
  split; [|split; [exact Hsh|]; split; [|exact Hap]].
  - apply (forall2_flat _ _ _ _ (fun f l H => conj (proj2 H) (proj1 (proj2 (proj1 H)))) HF).
  - intros Hl. rewrite (Hpe Hl) in Hap. injection Hap as ->. reflexivity.
Qed.

Lemma flatten_ends {K A} (inner_of : K -> list (poll (option (vecdiff A)))) outer :
  (forall k, good_vec_script (inner_of k)) -> good_vec_script outer -> forall n, exists st outs,
    run (flatten_vec_poll inner_of) n (flatten_vec_init outer) = Some (st, outs)
    /\ replay (yielded outs) <> None
    /\ conveyed (snd (fla_signal st)) = Some (map fv_origin (fla_inner st))
    /\ obeys_end (past (snd (fla_signal st)))
    /\ Forall (fun f => obeys_end (past (snd (fv_signal_vec f)))) (fla_inner st)
    /\ (last_out outs (Ready None) ->
          ended (snd (fla_signal st)) /\ Forall (fun f => ended (snd (fv_signal_vec f))) (fla_inner st))
    /\ (last_out outs Pending ->
          ~ (ended (snd (fla_signal st)) /\ Forall (fun f => ended (snd (fv_signal_vec f))) (fla_inner st))).
Proof.
  intros Hig Hg n. destruct (flatten_vec_run inner_of Hig outer Hg n)
    as (st & outs & Hr & (ls & shown & thought & Hok & Hgd & Hk & HF & Hsh & Hap & Hle & Hex & Hpe & Hen & Hpn) & _).
  exists st, outs. split; [exact Hr|]. split; [congruence|]. split; [exact Hk|]. split; [apply Hok|].
  split; [|split; [exact Hen|exact Hpn]].
  clear - HF. induction HF as [|f l fs ls Hf _ IH]; constructor; [|exact IH]. apply Hf.
Qed.

Lemma carried_map {K X Y} (make : K -> X) (g : X -> Y) ds : forall l l',
  carried make ds l = Some l' -> carried (fun k => g (make k)) ds (map g l) = Some (map g l').
Proof.
  unfold carried. induction ds as [|d ds IH]; intros l l' H; cbn [map apply_all] in *.
  - injection H as <-. reflexivity.
  - destruct (apply_to_vec (fst (vd_map make d)) l) as [l1|] eqn:E; [|discriminate].
    apply (apply_map g) in E.
    replace (fst (vd_map (fun k => g (make k)) d)) with (fst (vd_map g (fst (vd_map make d)))).
    + rewrite E. exact (IH l1 l' H).
    + destruct d as [vs|i x|i x|i|o n|x| |]; try reflexivity. simpl. rewrite map_map. reflexivity.
Qed.

Lemma flatten_wakes {K A} (inner_of : K -> list (poll (option (vecdiff A)))) outer :
  (forall k, good_vec_script (inner_of k)) -> good_vec_script outer -> forall n st outs st',
    run (flatten_vec_poll inner_of) n (flatten_vec_init outer) = Some (st, outs) -> ~ In (Ready None) outs ->
    flatten_vec_poll inner_of st = Some (st', Pending) ->
    listening (snd (fla_signal st)) (snd (fla_signal st'))
    /\ exists new before, yielded (past (snd (fla_signal st'))) = yielded (past (snd (fla_signal st))) ++ new
         /\ carried (fun k => fresh (inner_of k)) new (map (fun f => snd (fv_signal_vec f)) (fla_inner st)) = Some before
         /\ Forall2 listening before (map (fun f => snd (fv_signal_vec f)) (fla_inner st')).
Proof.
  intros Hig Hg n st outs st' Hr Hno Hp. destruct (flatten_vec_run inner_of Hig outer Hg n)
    as (st1 & outs1 & Hr1 & _ & HT). rewrite Hr in Hr1. injection Hr1 as <- <-.
  destruct (HT Hno st' Pending Hp eq_refl) as (H1 & new & before & H2 & H3 & H4). split; [exact H1|].
  exists new, (map (fun f => snd (fv_signal_vec f)) before). split; [exact H2|].
  split; [exact (carried_map _ (fun f => snd (fv_signal_vec f)) _ _ _ H3)|].
  clear - H4. induction H4; constructor; assumption.
Qed.
