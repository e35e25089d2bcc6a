(** Proofs for Chain. *)
From Verif Require Import Base Spec BaseFacts VecDiff VecSpec LoopFacts VecFacts Slot SlotFacts VecSlotFacts Chain.

(** ** Sequences of diffs *)
Section Seqs.
  Context {A : Type}.
  Notation applies := (@apply_all (vecdiff A) (list A) apply_to_vec).

  Lemma applies_app (x : list A) a b y : applies x a = Some y -> applies x (a ++ b) = applies y b.
  Proof. intros H. rewrite apply_all_app, H. reflexivity. Qed.

  Lemma applies_removes (a b : list A) n : length a = n ->
    applies (a ++ b) (map RemoveAt (rev (seq 0 n))) = Some b.
  Proof.
    revert a b. induction n as [|n IH]; intros a b Hn.
    - destruct a; [reflexivity|discriminate].
    - rewrite seq_S, rev_app_distr. cbn [rev app map apply_all].
      destruct (exists_last (l := a)) as (a' & x & ->); [intros ->; discriminate|].
      rewrite app_length in Hn. simpl in Hn.
      rewrite <- app_assoc, (apply_remove_app a' b x) by lia. apply IH. lia.
  Qed.

  Lemma applies_inserts (vs b pre : list A) n : n = length pre ->
    applies (pre ++ b) (map (fun iv => InsertAt (fst iv) (snd iv)) (combine (seq n (length vs)) vs))
    = Some (pre ++ vs ++ b).
  Proof.
    revert pre n. induction vs as [|v vs IH]; intros pre n Hn; [reflexivity|].
    cbn [length seq combine map apply_all fst snd]. rewrite (apply_insert_app pre b) by auto.
    replace (pre ++ v :: b) with ((pre ++ [v]) ++ b) by (rewrite <- app_assoc; reflexivity).
    rewrite IH by (rewrite app_length; simpl; lia). rewrite <- app_assoc. reflexivity.
  Qed.

  Lemma applies_pops (a b : list A) n : length b = n -> applies (a ++ b) (repeat Pop n) = Some a.
  Proof.
    revert b. induction n as [|n IH]; intros b Hn.
    - destruct b; [|discriminate]. rewrite app_nil_r. reflexivity.
    - destruct (exists_last (l := b)) as (b' & x & ->); [intros ->; discriminate|].
      rewrite app_length in Hn. simpl in Hn. cbn [repeat apply_all].
      rewrite app_assoc, apply_pop_app. apply IH. lia.
  Qed.

  Lemma applies_pushes (vs a : list A) : applies a (map Push vs) = Some (a ++ vs).
  Proof.
    revert a. induction vs as [|v vs IH]; intros a; [rewrite app_nil_r; reflexivity|].
    cbn [map apply_all apply_to_vec]. rewrite IH, <- app_assoc. reflexivity.
  Qed.

  Lemma apply_left (d : vecdiff A) (a a' b : list A) : apply_to_vec d a = Some a' ->
    match d with
    | Replace _ | Clear | Push _ | Pop => True
    | _ => apply_to_vec d (a ++ b) = Some (a' ++ b)
    end.
  Proof.
    intros H. apply apply_inv in H. destruct d as [vs|i x|i x|i|o n|x| |]; try exact I.
    - destruct H as (l1 & l2 & -> & -> & <-). rewrite <- !app_assoc. cbn [app]. apply apply_insert_app. reflexivity.
    - destruct H as (l1 & y & l2 & -> & -> & <-). rewrite <- !app_assoc. cbn [app]. apply apply_update_app. reflexivity.
    - destruct H as (l1 & y & l2 & -> & -> & <-). rewrite <- !app_assoc. cbn [app]. apply apply_remove_app. reflexivity.
    - destruct H as (l1 & y & l2 & m1 & m2 & -> & <- & Hm & -> & <-). rewrite <- !app_assoc. cbn [app apply_to_vec].
      rewrite vremove_app by reflexivity. rewrite app_assoc, Hm, <- app_assoc. apply vinsert_app. reflexivity.
  Qed.

  Lemma apply_right (d : vecdiff A) (a b b' : list A) n : length a = n -> apply_to_vec d b = Some b' ->
    match d with
    | Replace _ | Clear => True
    | InsertAt i x => apply_to_vec (InsertAt (i + n) x) (a ++ b) = Some (a ++ b')
    | UpdateAt i x => apply_to_vec (UpdateAt (i + n) x) (a ++ b) = Some (a ++ b')
    | RemoveAt i => apply_to_vec (RemoveAt (i + n)) (a ++ b) = Some (a ++ b')
    | Move i j => apply_to_vec (Move (i + n) (j + n)) (a ++ b) = Some (a ++ b')
    | Push _ | Pop => apply_to_vec d (a ++ b) = Some (a ++ b')
    end.
  Proof.
    intros <- H. apply apply_inv in H. destruct d as [vs|i x|i x|i|o n|x| |]; try exact I.
    - destruct H as (l1 & l2 & -> & -> & <-). rewrite !app_assoc. apply apply_insert_app. rewrite app_length. lia.
    - destruct H as (l1 & y & l2 & -> & -> & <-). rewrite !app_assoc. apply apply_update_app. rewrite app_length. lia.
    - destruct H as (l1 & y & l2 & -> & -> & <-). rewrite !app_assoc. apply apply_remove_app. rewrite app_length. lia.
    - destruct H as (l1 & y & l2 & m1 & m2 & -> & <- & Hm & -> & <-). cbn [apply_to_vec].
      rewrite app_assoc, vremove_app by (rewrite app_length; lia).
      rewrite <- app_assoc, Hm, !app_assoc. apply vinsert_app. rewrite app_length. lia.
    - subst. cbn [apply_to_vec]. rewrite app_assoc. reflexivity.
    - destruct H as (x & ->). rewrite app_assoc. apply apply_pop_app.
  Qed.

  (** How a diff changes the length. *)
  Lemma apply_length (d : vecdiff A) a a' : apply_to_vec d a = Some a' ->
    match d with
    | Replace vs => length a' = length vs
    | InsertAt _ _ | Push _ => length a' = length a + 1
    | UpdateAt _ _ | Move _ _ => length a' = length a
    | RemoveAt _ | Pop => length a = length a' + 1
    | Clear => length a' = 0
    end.
  Proof.
    intros H. apply apply_inv in H. destruct d as [vs|i x|i x|i|o n|x| |].
    - subst. reflexivity.
    - destruct H as (l1 & l2 & -> & -> & <-). rewrite !app_length. simpl. lia.
    - destruct H as (l1 & y & l2 & -> & -> & <-). rewrite !app_length. simpl. lia.
    - destruct H as (l1 & y & l2 & -> & -> & <-). rewrite !app_length. simpl. lia.
    - destruct H as (l1 & y & l2 & m1 & m2 & -> & <- & Hm & -> & <-).
      assert (H := f_equal (@length A) Hm). rewrite !app_length in *. simpl. lia.
    - subst. rewrite app_length. reflexivity.
    - destruct H as (x & ->). rewrite app_length. reflexivity.
    - subst. reflexivity.
  Qed.
End Seqs.

Section Chain.
  Context {A : Type} (strict : bool).
  Notation applies := (@apply_all (vecdiff A) (list A) apply_to_vec).

  Definition side (sl : slot (option (vecdiff A))) (len : nat) (l : list A) : Prop :=
    slot_ok sl /\ replay (delivered sl) = Some l /\ vgood strict (deliverable sl) /\ len = length l.

  (** The facts about process_right_change, for the answer [r] that the right source gave. *)
  Lemma right_change_ok sl r (st : chain_state A) L R R' mid :
    polled strict sl r (ch_right st) R R' ->
    ch_left_len st = length L -> ch_right_len st = length R ->
    applies mid (ch_pending st) = Some (L ++ R) ->
    exists st' oo ps, process_right_change r st = Some (st', oo)
      /\ ch_left st' = ch_left st /\ ch_left_len st' = length L
      /\ side (ch_right st') (ch_right_len st') R' /\ snd (ch_right st') = snd (ch_right st)
      /\ ch_pending st' = ch_pending st ++ ps /\ (oo <> None -> ps = [])
      /\ applies mid (ch_pending st' ++ olist oo) = Some (L ++ R')
      /\ (strict = true -> oo = None -> ps = [] ->
          fst (ch_right st') = true -> armed (snd sl) (snd (ch_right st'))).
  Proof.
    intros (Hrep & Hg & Hgrew & Hr) HL HR Happ.
    assert (Hsnoc : forall d, apply_to_vec d (L ++ R) = Some (L ++ R') ->
      applies mid (ch_pending st ++ [d]) = Some (L ++ R')).
    { intros d Hd. rewrite (applies_app _ _ _ _ Happ). simpl. rewrite Hd. reflexivity. }
    destruct r as [[|[d|]]|].
    - (* Pending *)
      destruct Hr as (Hok & -> & Harm). exists st, None, []. split; [reflexivity|].
      split; [reflexivity|]. split; [exact HL|]. split; [split; [exact Hok|]; split; [exact Hrep|]; split; [exact Hg|exact HR]|].
      split; [reflexivity|]. rewrite !app_nil_r. split; [reflexivity|]. split; [reflexivity|].
      split; [exact Happ|]. intros _ _ _ _. exact Harm.
    - (* a diff *)
      destruct Hr as (Hok & Ha & Hst).
      assert (Hside : forall n, n = length R' -> side (ch_right st) n R')
        by (intros n ->; split; [exact Hok|]; split; [exact Hrep|]; split; [exact Hg|reflexivity]).
      assert (Hright := apply_right d L R R' (ch_left_len st) (eq_sym HL) Ha).
      assert (Hlen := apply_length d R R' Ha).
      destruct d as [vs|i x|i x|i|o n|x| |]; cbn [process_right_change].
      + (* Replace *)
        apply apply_inv in Ha. subst vs. destruct (Nat.eqb_spec (ch_left_len st) 0) as [E|E].
        * destruct L; [|simpl in HL; lia].
          exists (set_right_len (length R') st), (Some (Replace R')), [].
          cbn [set_right_len ch_left ch_right ch_left_len ch_right_len ch_pending olist].
          split; [reflexivity|]. split; [reflexivity|]. split; [exact HL|]. split; [apply Hside; reflexivity|].
          split; [reflexivity|]. split; [rewrite app_nil_r; reflexivity|]. split; [reflexivity|].
          split; [apply Hsnoc; reflexivity|discriminate].
        * eexists _, None, _. split; [reflexivity|].
          cbn [set_right_len push_back ch_left ch_right ch_left_len ch_right_len ch_pending olist].
          split; [reflexivity|]. split; [exact HL|]. split; [apply Hside; reflexivity|].
          split; [reflexivity|]. split; [symmetry; apply app_assoc|]. split; [congruence|].
          split.
          -- rewrite app_nil_r, <- app_assoc. rewrite (applies_app _ _ _ _ Happ), HR.
             rewrite (applies_app _ _ _ _ (applies_pops L R (length R) eq_refl)). apply applies_pushes.
          -- intros Hs _ Hnil _. exfalso. apply app_eq_nil in Hnil. destruct Hnil as [H1 H2].
             rewrite HR in H1. destruct R; [|discriminate]. destruct R'; [|discriminate].
             destruct (Hst Hs eq_refl) as [_ H]. congruence.
      + exists (set_right_len (ch_right_len st + 1) st), (Some (InsertAt (i + ch_left_len st) x)), [].
        cbn [set_right_len ch_left ch_right ch_left_len ch_right_len ch_pending olist].
        split; [reflexivity|]. split; [reflexivity|]. split; [exact HL|]. split; [apply Hside; lia|].
        split; [reflexivity|]. split; [rewrite app_nil_r; reflexivity|]. split; [reflexivity|].
        split; [apply Hsnoc; exact Hright|discriminate].
      + exists st, (Some (UpdateAt (i + ch_left_len st) x)), [].
        split; [reflexivity|]. split; [reflexivity|]. split; [exact HL|]. split; [apply Hside; lia|].
        split; [reflexivity|]. split; [rewrite app_nil_r; reflexivity|]. split; [reflexivity|].
        split; [apply Hsnoc; exact Hright|discriminate].
      + rewrite usub_Some by lia.
        exists (set_right_len (ch_right_len st - 1) st), (Some (RemoveAt (i + ch_left_len st))), [].
        cbn [set_right_len ch_left ch_right ch_left_len ch_right_len ch_pending olist].
        split; [reflexivity|]. split; [reflexivity|]. split; [exact HL|]. split; [apply Hside; lia|].
        split; [reflexivity|]. split; [rewrite app_nil_r; reflexivity|]. split; [reflexivity|].
        split; [apply Hsnoc; exact Hright|discriminate].
      + exists st, (Some (Move (o + ch_left_len st) (n + ch_left_len st))), [].
        split; [reflexivity|]. split; [reflexivity|]. split; [exact HL|]. split; [apply Hside; lia|].
        split; [reflexivity|]. split; [rewrite app_nil_r; reflexivity|]. split; [reflexivity|].
        split; [apply Hsnoc; exact Hright|discriminate].
      + exists (set_right_len (ch_right_len st + 1) st), (Some (Push x)), [].
        cbn [set_right_len ch_left ch_right ch_left_len ch_right_len ch_pending olist].
        split; [reflexivity|]. split; [reflexivity|]. split; [exact HL|]. split; [apply Hside; lia|].
        split; [reflexivity|]. split; [rewrite app_nil_r; reflexivity|]. split; [reflexivity|].
        split; [apply Hsnoc; exact Hright|discriminate].
      + rewrite usub_Some by lia. exists (set_right_len (ch_right_len st - 1) st), (Some Pop), [].
        cbn [set_right_len ch_left ch_right ch_left_len ch_right_len ch_pending olist].
        split; [reflexivity|]. split; [reflexivity|]. split; [exact HL|]. split; [apply Hside; lia|].
        split; [reflexivity|]. split; [rewrite app_nil_r; reflexivity|]. split; [reflexivity|].
        split; [apply Hsnoc; exact Hright|discriminate].
      + apply apply_inv in Ha. subst R'. destruct (Nat.eqb_spec (ch_left_len st) 0) as [E|E].
        * destruct L; [|simpl in HL; lia].
          exists (set_right_len 0 st), (Some Clear), [].
          cbn [set_right_len ch_left ch_right ch_left_len ch_right_len ch_pending olist].
          split; [reflexivity|]. split; [reflexivity|]. split; [exact HL|]. split; [apply Hside; reflexivity|].
          split; [reflexivity|]. split; [rewrite app_nil_r; reflexivity|]. split; [reflexivity|].
          split; [apply Hsnoc; reflexivity|discriminate].
        * eexists _, None, _. split; [reflexivity|].
          cbn [set_right_len push_back ch_left ch_right ch_left_len ch_right_len ch_pending olist].
          split; [reflexivity|]. split; [exact HL|]. split; [apply Hside; reflexivity|].
          split; [reflexivity|]. split; [reflexivity|]. split; [congruence|].
          split.
          -- rewrite app_nil_r. rewrite (applies_app _ _ _ _ Happ), HR, app_nil_r.
             apply applies_pops. reflexivity.
          -- intros Hs _ Hnil _. exfalso. rewrite HR in Hnil. destruct R; [|discriminate].
             destruct (Hst Hs eq_refl) as [H _]. congruence.
    - (* end *)
      destruct Hr as (Hok & ->). exists (set_right (drop_slot (ch_right st)) st), None, [].
      cbn [set_right ch_left ch_right ch_left_len ch_right_len ch_pending olist process_right_change].
      split; [reflexivity|]. split; [reflexivity|]. split; [exact HL|].
      split; [split; [exact Hok|]; split; [exact Hrep|]; split; [exact Hg|exact HR]|].
      split; [reflexivity|]. rewrite !app_nil_r. split; [reflexivity|]. split; [reflexivity|].
      split; [exact Happ|]. discriminate.
    - (* no source *)
      destruct Hr as (Hsl & -> & Hok & Hf). exists st, None, [].
      split; [reflexivity|]. split; [reflexivity|]. split; [exact HL|].
      split; [split; [exact Hok|]; split; [exact Hrep|]; split; [exact Hg|exact HR]|].
      split; [reflexivity|]. rewrite !app_nil_r. split; [reflexivity|]. split; [reflexivity|].
      split; [exact Happ|]. congruence.
  Qed.

  Lemma poll_right_ok (st : chain_state A) R : side (ch_right st) (ch_right_len st) R ->
    exists r sl' R', poll_right st = (r, set_right sl' st) /\ polled strict (ch_right st) r sl' R R'.
  Proof.
    intros (Hok & Hrep & Hg & _). destruct (poll_polled strict _ _ Hok Hrep Hg) as (R' & H).
    unfold poll_right. destruct (poll_slot (ch_right st)) as [r sl'] eqn:E.
    exists r, sl', R'. split; [reflexivity|exact H].
  Qed.

  Lemma push_some_ok (st1 : chain_state A) oo : push_some (Some (st1, oo)) = Some (push_back (olist oo) st1).
  Proof.
    unfold push_some. destruct oo as [d|]; [reflexivity|]. unfold push_back. simpl.
    rewrite app_nil_r. destruct st1; reflexivity.
  Qed.

  (** The common result of the functions called for a change of the left source: [L'] are the
      contents of the left source after the change. *)
  Definition left_result (st st' : chain_state A) (oo : option (vecdiff A)) (L' : list A) (mid : list A) : Prop :=
    exists R', side (ch_left st') (ch_left_len st') L' /\ ch_left st' = ch_left st
      /\ side (ch_right st') (ch_right_len st') R'
      /\ applies mid (olist oo ++ ch_pending st') = Some (L' ++ R').

  (** The end of process_replace and process_clear: [st3] has the new left length and the queued
      changes that turn [L ++ R] into [L' ++ R]. *)
  Lemma finish_left_ok (st st3 : chain_state A) sl r L' R R' mid output :
    side (ch_left st) (length L') L' ->
    ch_left st3 = ch_left st -> ch_left_len st3 = length L' ->
    polled strict sl r (ch_right st3) R R' -> ch_right_len st3 = length R ->
    applies mid (olist output ++ ch_pending st3) = Some (L' ++ R) ->
    exists st4, (let? st4 := push_some (process_right_change r st3) in Some (st4, output)) = Some (st4, output)
      /\ left_result st st4 output L' mid
      /\ (ch_pending st4 = [] -> ch_pending st3 = []).
  Proof.
    intros HsL Hleft HlL Hpol HlR Happ.
    rewrite apply_all_app in Happ. destruct (applies mid (olist output)) as [mid1|] eqn:E1; [|discriminate].
    destruct (right_change_ok sl r st3 L' R R' mid1 Hpol HlL HlR Happ)
      as (st4 & oo & ps & E & H1 & H2 & H3 & H4 & H5 & H6 & H7 & H8).
    rewrite E, push_some_ok. exists (push_back (olist oo) st4). split; [reflexivity|]. split.
    - exists R'. cbn [push_back ch_left ch_right ch_left_len ch_right_len ch_pending].
      rewrite H1, H2, Hleft. split; [exact HsL|]. split; [reflexivity|]. split; [exact H3|].
      rewrite (applies_app _ _ _ _ E1). exact H7.
    - cbn [push_back ch_pending]. rewrite H5, <- app_assoc. intros Hn. apply app_eq_nil in Hn. tauto.
  Qed.

  Lemma process_replace_ok (st : chain_state A) L' R Lold mid :
    side (ch_left st) (length L') L' -> ch_left_len st = length Lold ->
    side (ch_right st) (ch_right_len st) R -> ch_pending st = [] -> mid = Lold ++ R ->
    exists st' oo, process_replace L' st = Some (st', oo) /\ left_result st st' oo L' mid
      /\ (oo = None -> ch_pending st' = [] -> Lold = [] /\ L' = []).
  Proof.
    intros HL HlL HR Hp ->. unfold process_replace.
    destruct (poll_right_ok st R HR) as (r & sl' & R' & E & Hpol). rewrite E.
    assert (HlR : ch_right_len st = length R) by apply HR.
    (* the general case *)
    assert (Hgen : exists st' oo,
      (let removing := ch_left_len (set_right sl' st) in
        let st2 := set_left_len (length L') (set_right sl' st) in
        let '(st3, output) :=
          if ch_right_len st2 =? 0 then (st2, Some (Replace L'))
          else (push_back (map (fun iv => InsertAt (fst iv) (snd iv))
                               (combine (seq 0 (length L')) L'))
                  (push_back (map RemoveAt (rev (seq 0 removing))) st2), None) in
        let? st4 := push_some (process_right_change r st3) in
        Some (st4, output)) = Some (st', oo)
      /\ left_result st st' oo L' (Lold ++ R)
      /\ (oo = None -> ch_pending st' = [] -> Lold = [] /\ L' = [])).
    { cbn [set_right set_left_len ch_right_len ch_left_len]. rewrite HlL.
      destruct (Nat.eqb_spec (ch_right_len st) 0) as [E0|E0].
      - destruct R; [|simpl in HlR; lia].
        destruct (finish_left_ok st (set_left_len (length L') (set_right sl' st)) (ch_right st) r L' [] R' (Lold ++ [])
          (Some (Replace L')) HL eq_refl eq_refl Hpol HlR) as (st4 & E4 & Hres & _).
        + cbn [set_left_len set_right ch_pending olist]. rewrite Hp, !app_nil_r. reflexivity.
        + exists st4, (Some (Replace L')). split; [exact E4|]. split; [exact Hres|discriminate].
      - match goal with |- context [process_right_change r ?s] =>
          destruct (finish_left_ok st s (ch_right st) r L' R R' (Lold ++ R) None HL eq_refl eq_refl Hpol HlR)
            as (st4 & E4 & Hres & Hemp) end.
        + cbn [set_left_len set_right push_back ch_pending olist app]. rewrite Hp. cbn [app].
          rewrite (applies_app _ _ _ _ (applies_removes Lold R _ eq_refl)).
          apply (applies_inserts L' R [] 0). reflexivity.
        + exists st4, None. split; [exact E4|]. split; [exact Hres|]. intros _ Hn. apply Hemp in Hn.
          cbn [set_left_len set_right push_back ch_pending olist app] in Hn. rewrite Hp in Hn.
          cbn [app] in Hn. apply app_eq_nil in Hn. destruct Hn as [H1 H2].
          apply map_eq_nil in H1, H2. split.
          * destruct Lold as [|a Lold]; [reflexivity|]. cbn [length] in H1. rewrite seq_S, rev_app_distr in H1. discriminate.
          * destruct L'; [reflexivity|discriminate]. }
    destruct r as [[|[d|]]|]; try exact Hgen.
    destruct d as [vs|i x|i x|i|o n|x| |]; try exact Hgen.
    destruct Hpol as (Hrep & Hg & _ & Hok & Ha & _). apply apply_inv in Ha. subst vs.
    do 2 eexists. split; [reflexivity|]. split; [|discriminate].
    exists R'. cbn [set_right set_left_len set_right_len ch_left ch_right ch_left_len ch_right_len ch_pending olist].
    split; [exact HL|]. split; [reflexivity|]. split; [split; [exact Hok|]; split; [exact Hrep|]; split; [exact Hg|reflexivity]|].
    rewrite Hp. reflexivity.
  Qed.

  Lemma process_clear_ok (st : chain_state A) R Lold mid :
    side (ch_left st) 0 [] -> ch_left_len st = length Lold ->
    side (ch_right st) (ch_right_len st) R -> ch_pending st = [] -> mid = Lold ++ R ->
    exists st' oo, process_clear st = Some (st', oo) /\ left_result st st' oo [] mid
      /\ (oo = None -> ch_pending st' = [] -> Lold = []).
  Proof.
    intros HL HlL HR Hp ->. unfold process_clear.
    destruct (poll_right_ok st R HR) as (r & sl' & R' & E & Hpol). rewrite E.
    assert (HlR : ch_right_len st = length R) by apply HR.
    assert (Hgen : exists st' oo,
      (let removing := ch_left_len (set_right sl' st) in
        let st2 := set_left_len 0 (set_right sl' st) in
        let '(st3, output) :=
          if ch_right_len st2 =? 0 then (st2, Some Clear)
          else (push_back (map RemoveAt (rev (seq 0 removing))) st2, None) in
        let? st4 := push_some (process_right_change r st3) in
        Some (st4, output)) = Some (st', oo)
      /\ left_result st st' oo [] (Lold ++ R)
      /\ (oo = None -> ch_pending st' = [] -> Lold = [])).
    { cbn [set_right set_left_len ch_right_len ch_left_len]. rewrite HlL.
      destruct (Nat.eqb_spec (ch_right_len st) 0) as [E0|E0].
      - destruct R; [|simpl in HlR; lia].
        destruct (finish_left_ok st (set_left_len 0 (set_right sl' st)) (ch_right st) r [] [] R' (Lold ++ [])
          (Some Clear) HL eq_refl eq_refl Hpol HlR) as (st4 & E4 & Hres & _).
        + cbn [set_left_len set_right ch_pending olist]. rewrite Hp. reflexivity.
        + exists st4, (Some Clear). split; [exact E4|]. split; [exact Hres|discriminate].
      - match goal with |- context [process_right_change r ?s] =>
          destruct (finish_left_ok st s (ch_right st) r [] R R' (Lold ++ R) None HL eq_refl eq_refl Hpol HlR)
            as (st4 & E4 & Hres & Hemp) end.
        + cbn [set_left_len set_right push_back ch_pending olist app]. rewrite Hp. cbn [app].
          exact (applies_removes Lold R _ eq_refl).
        + exists st4, None. split; [exact E4|]. split; [exact Hres|]. intros _ Hn. apply Hemp in Hn.
          cbn [set_left_len set_right push_back ch_pending olist app] in Hn. rewrite Hp in Hn.
          cbn [app] in Hn. apply map_eq_nil in Hn.
          destruct Lold as [|a Lold]; [reflexivity|]. cbn [length] in Hn. rewrite seq_S, rev_app_distr in Hn. discriminate. }
    destruct r as [[|[d|]]|]; try exact Hgen.
    destruct d as [vs|i x|i x|i|o n|x| |]; try exact Hgen.
    destruct Hpol as (Hrep & Hg & _ & Hok & Ha & _). apply apply_inv in Ha. subst R'.
    do 2 eexists. split; [reflexivity|]. split; [|discriminate].
    exists []. cbn [set_right set_left_len set_right_len ch_left ch_right ch_left_len ch_right_len ch_pending olist].
    split; [exact HL|]. split; [reflexivity|]. split; [split; [exact Hok|]; split; [exact Hrep|]; split; [exact Hg|reflexivity]|].
    rewrite Hp. reflexivity.
  Qed.

  Lemma process_left_ok (st : chain_state A) L R :
    side (ch_left st) (ch_left_len st) L -> side (ch_right st) (ch_right_len st) R -> ch_pending st = [] ->
    exists st' oo L' R', process_left st = Some (st', oo)
      /\ side (ch_left st') (ch_left_len st') L' /\ side (ch_right st') (ch_right_len st') R'
      /\ applies (L ++ R) (olist oo ++ ch_pending st') = Some (L' ++ R')
      /\ (strict = true -> oo = None -> ch_pending st' = [] ->
          ch_right st' = ch_right st /\ (fst (ch_left st') = true -> armed (snd (ch_left st)) (snd (ch_left st')))).
  Proof.
    intros HL HR Hp. destruct HL as (Hok & Hrep & Hg & HlL).
    destruct (poll_polled strict _ _ Hok Hrep Hg) as (L' & Hpol).
    unfold process_left. destruct (poll_slot (ch_left st)) as [r sl] eqn:E. cbn [fst snd] in Hpol.
    destruct Hpol as (Hrep' & Hg' & Hgrew & Hr). assert (HlR : ch_right_len st = length R) by apply HR.
    destruct r as [[|[d|]]|].
    - destruct Hr as (Hok' & -> & Harm). exists (set_left sl st), None, L, R.
      cbn [set_left ch_left ch_right ch_left_len ch_right_len ch_pending olist]. rewrite Hp.
      split; [reflexivity|]. split; [split; [exact Hok'|]; split; [exact Hrep'|]; split; [exact Hg'|exact HlL]|].
      split; [exact HR|]. split; [reflexivity|]. intros _ _ _. split; [reflexivity|]. intros _. exact Harm.
    - destruct Hr as (Hok' & Ha & Hst).
      assert (Hside : forall n, n = length L' -> side sl n L')
        by (intros n ->; split; [exact Hok'|]; split; [exact Hrep'|]; split; [exact Hg'|reflexivity]).
      assert (Hlen := apply_length d L L' Ha). assert (Hleft := apply_left d L L' R Ha).
      assert (Hone : forall st' dd, ch_left st' = sl -> ch_left_len st' = length L' ->
        ch_right st' = ch_right st -> ch_right_len st' = ch_right_len st -> ch_pending st' = [] ->
        apply_to_vec dd (L ++ R) = Some (L' ++ R) ->
        exists st'0 oo L'0 R', Some (st', Some dd) = Some (st'0, oo)
          /\ side (ch_left st'0) (ch_left_len st'0) L'0 /\ side (ch_right st'0) (ch_right_len st'0) R'
          /\ applies (L ++ R) (olist oo ++ ch_pending st'0) = Some (L'0 ++ R')
          /\ (strict = true -> oo = None -> ch_pending st'0 = [] ->
              ch_right st'0 = ch_right st /\ (fst (ch_left st'0) = true -> armed (snd (ch_left st)) (snd (ch_left st'0))))).
      { intros st' dd E1 E2 E3 E4 E5 Hd. exists st', (Some dd), L', R. split; [reflexivity|].
        rewrite E1, E3, E4, E5. split; [apply Hside; exact E2|]. split; [exact HR|].
        split; [cbn [olist app apply_all]; rewrite Hd; reflexivity|discriminate]. }
      destruct d as [vs|i x|i x|i|o n|x| |];
        cbn [set_left set_left_len ch_left ch_right ch_left_len ch_right_len ch_pending].
      + apply apply_inv in Ha. subst vs.
        destruct (process_replace_ok (set_left sl st) L' R L (L ++ R)) as (st' & oo & E1 & (R' & H1 & H2 & H3 & H4) & H5);
          [apply Hside; reflexivity|exact HlL|exact HR|exact Hp|reflexivity|].
        rewrite E1. exists st', oo, L', R'. split; [reflexivity|]. split; [exact H1|]. split; [exact H3|].
        split; [exact H4|]. intros Hs Ho Hn. destruct (H5 Ho Hn) as [-> ->].
        destruct (Hst Hs eq_refl) as [_ H]. congruence.
      + apply Hone; try reflexivity; [cbn [set_left_len set_left ch_left_len]; lia|exact Hp|exact Hleft].
      + apply Hone; try reflexivity; [cbn [set_left_len set_left ch_left_len]; lia|exact Hp|exact Hleft].
      + rewrite usub_Some by lia.
        apply Hone; try reflexivity; [cbn [set_left_len set_left ch_left_len]; lia|exact Hp|exact Hleft].
      + apply Hone; try reflexivity; [cbn [set_left_len set_left ch_left_len]; lia|exact Hp|exact Hleft].
      + apply apply_inv in Ha. subst L'. destruct (Nat.eqb_spec (ch_right_len st) 0) as [E0|E0].
        * destruct R; [|simpl in HlR; lia].
          apply Hone; try reflexivity; [cbn [set_left_len set_left ch_left_len]; lia|exact Hp|].
          rewrite !app_nil_r. reflexivity.
        * apply Hone; try reflexivity; [cbn [set_left_len set_left ch_left_len]; lia|exact Hp|].
          rewrite <- app_assoc. apply apply_insert_app. auto.
      + rewrite usub_Some by lia. apply apply_inv in Ha. destruct Ha as (x & ->).
        destruct (Nat.eqb_spec (ch_right_len st) 0) as [E0|E0].
        * destruct R; [|simpl in HlR; lia].
          apply Hone; try reflexivity; [cbn [set_left_len set_left ch_left_len]; lia|exact Hp|].
          rewrite !app_nil_r. apply apply_pop_app.
        * apply Hone; try reflexivity; [cbn [set_left_len set_left ch_left_len]; lia|exact Hp|].
          rewrite <- app_assoc. apply apply_remove_app. lia.
      + apply apply_inv in Ha. subst L'.
        destruct (process_clear_ok (set_left sl st) R L (L ++ R)) as (st' & oo & E1 & (R' & H1 & H2 & H3 & H4) & H5);
          [apply Hside; reflexivity|exact HlL|exact HR|exact Hp|reflexivity|].
        rewrite E1. exists st', oo, [], R'. split; [reflexivity|]. split; [exact H1|]. split; [exact H3|].
        split; [exact H4|]. intros Hs Ho Hn. assert (HLn := H5 Ho Hn). subst L.
        destruct (Hst Hs eq_refl) as [H _]. congruence.
    - destruct Hr as (Hok' & ->). exists (set_left (drop_slot sl) (set_left sl st)), None, L, R.
      cbn [set_left ch_left ch_right ch_left_len ch_right_len ch_pending olist]. rewrite Hp.
      split; [reflexivity|]. split; [split; [exact Hok'|]; split; [exact Hrep'|]; split; [exact Hg'|exact HlL]|].
      split; [exact HR|]. split; [reflexivity|]. intros _ _ _. split; [reflexivity|]. discriminate.
    - destruct Hr as (Hsl & -> & Hok' & Hf). exists (set_left sl st), None, L, R.
      cbn [set_left ch_left ch_right ch_left_len ch_right_len ch_pending olist]. rewrite Hp.
      split; [reflexivity|]. split; [split; [exact Hok'|]; split; [exact Hrep'|]; split; [exact Hg'|exact HlL]|].
      split; [exact HR|]. split; [reflexivity|]. intros _ _ _. split; [reflexivity|]. congruence.
  Qed.

  Lemma process_right_ok (st : chain_state A) L R :
    side (ch_left st) (ch_left_len st) L -> side (ch_right st) (ch_right_len st) R -> ch_pending st = [] ->
    exists st' oo R', process_right st = Some (st', oo)
      /\ ch_left st' = ch_left st /\ ch_left_len st' = length L /\ side (ch_right st') (ch_right_len st') R'
      /\ applies (L ++ R) (olist oo ++ ch_pending st') = Some (L ++ R')
      /\ (strict = true -> oo = None -> ch_pending st' = [] ->
          fst (ch_right st') = true -> armed (snd (ch_right st)) (snd (ch_right st'))).
  Proof.
    intros HL HR Hp. unfold process_right.
    destruct (poll_right_ok st R HR) as (r & sl' & R' & E & Hpol). rewrite E.
    destruct (right_change_ok (ch_right st) r (set_right sl' st) L R R' (L ++ R) Hpol)
      as (st' & oo & ps & E1 & H1 & H2 & H3 & H4 & H5 & H6 & H7 & H8).
    - apply HL.
    - apply HR.
    - cbn [set_right ch_pending]. rewrite Hp. reflexivity.
    - rewrite E1. exists st', oo, R'. split; [reflexivity|]. split; [exact H1|]. split; [exact H2|].
      split; [exact H3|]. cbn [set_right ch_pending] in H5. rewrite Hp in H5. cbn [app] in H5. split.
      + destruct oo as [d|]; [|rewrite app_nil_r in H7; exact H7].
        assert (Hps : ps = []) by (apply H6; discriminate). rewrite Hps in H5. rewrite H5 in *. exact H7.
      + intros Hs Ho Hn. apply H8; [exact Hs|exact Ho|]. rewrite <- H5. exact Hn.
  Qed.

  (** ** Runs *)
  Definition chain_inv (st : chain_state A) (outs : list (poll (option (vecdiff A)))) : Prop :=
    exists L R mid, side (ch_left st) (ch_left_len st) L /\ side (ch_right st) (ch_right_len st) R
      /\ replay (yielded outs) = Some mid /\ applies mid (ch_pending st) = Some (L ++ R)
      /\ (last_out outs Pending \/ last_out outs (Ready None) -> ch_pending st = [])
      /\ (last_out outs (Ready None) -> fst (ch_left st) = false /\ fst (ch_right st) = false)
      /\ (last_out outs Pending -> fst (ch_left st) = true \/ fst (ch_right st) = true).

  Definition chain_arms (st st' : chain_state A) (o : poll (option (vecdiff A))) : Prop :=
    strict = true -> o = Pending ->
    (fst (ch_left st') = true -> armed (snd (ch_left st)) (snd (ch_left st')))
    /\ (fst (ch_right st') = true -> armed (snd (ch_right st)) (snd (ch_right st'))).

  (** A step that outputs the first of the outstanding diffs. *)
  Lemma chain_emits (st st' : chain_state A) outs L R L' R' d :
    replay (yielded outs) = Some (L ++ R) ->
    side (ch_left st') (ch_left_len st') L' -> side (ch_right st') (ch_right_len st') R' ->
    applies (L ++ R) (d :: ch_pending st') = Some (L' ++ R') ->
    exists s' o, Some (st', Ready (Some d)) = Some (s', o) /\ chain_inv s' (outs ++ [o]) /\ chain_arms st s' o.
  Proof.
    intros Hr HL HR Ha. do 2 eexists. split; [reflexivity|]. split; [|discriminate].
    cbn [apply_all] in Ha. destruct (apply_to_vec d (L ++ R)) as [m|] eqn:E; [|discriminate].
    exists L', R', m. split; [exact HL|]. split; [exact HR|].
    rewrite yielded_app. cbn [yielded]. rewrite replay_snoc, Hr, E. split; [reflexivity|]. split; [exact Ha|].
    rewrite !last_out_snoc. split; [intros [H|H]; discriminate|]. split; discriminate.
  Qed.

  Lemma chain_step (st : chain_state A) outs : chain_inv st outs ->
    exists st' o, chain_poll st = Some (st', o) /\ chain_inv st' (outs ++ [o]) /\ chain_arms st st' o.
  Proof.
    intros (L & R & mid & HL & HR & Hrep & Happ & _). unfold chain_poll, pop_front.
    destruct (ch_pending st) as [|d ds] eqn:Hp.
    2:{ do 2 eexists. split; [reflexivity|]. split; [|discriminate].
        cbn [apply_all] in Happ. destruct (apply_to_vec d mid) as [m|] eqn:E; [|discriminate].
        exists L, R, m. cbn [ch_left ch_right ch_left_len ch_right_len ch_pending].
        split; [exact HL|]. split; [exact HR|].
        rewrite yielded_app. cbn [yielded]. rewrite replay_snoc, Hrep, E. split; [reflexivity|]. split; [exact Happ|].
        rewrite !last_out_snoc. split; [intros [H|H]; discriminate|]. split; discriminate. }
    cbn [apply_all] in Happ. injection Happ as ->.
    destruct (process_left_ok st L R HL HR Hp) as (st1 & oo & L1 & R1 & E1 & HL1 & HR1 & Ha1 & Harm1).
    rewrite E1. destruct oo as [d|].
    { cbn [olist app] in Ha1. exact (chain_emits st st1 outs L R L1 R1 d Hrep HL1 HR1 Ha1). }
    cbn [olist app] in Ha1. destruct (ch_pending st1) as [|d ds] eqn:Hp1.
    2:{ apply (chain_emits st (mkChain (ch_left st1) (ch_right st1) (ch_left_len st1) (ch_right_len st1) ds)
          outs L R L1 R1 d Hrep HL1 HR1 Ha1). }
    cbn [apply_all] in Ha1. injection Ha1 as Ha1. rewrite Ha1 in Hrep.
    destruct (process_right_ok st1 L1 R1 HL1 HR1 Hp1) as (st2 & oo & R2 & E2 & HL2 & HlL2 & HR2 & Ha2 & Harm2).
    assert (HL2' : side (ch_left st2) (ch_left_len st2) L1).
    { rewrite HL2, HlL2. destruct HL1 as (H1 & H2 & H3 & _). split; [exact H1|]. split; [exact H2|]. split; [exact H3|reflexivity]. }
    rewrite E2. destruct oo as [d|].
    { cbn [olist app] in Ha2. exact (chain_emits st st2 outs L1 R1 L1 R2 d Hrep HL2' HR2 Ha2). }
    cbn [olist app] in Ha2. destruct (ch_pending st2) as [|d ds] eqn:Hp2.
    2:{ apply (chain_emits st (mkChain (ch_left st2) (ch_right st2) (ch_left_len st2) (ch_right_len st2) ds)
          outs L1 R1 L1 R2 d Hrep HL2' HR2 Ha2). }
    cbn [apply_all] in Ha2. injection Ha2 as Ha2. rewrite Ha2 in Hrep.
    assert (Hend : forall o, o = Pending \/ o = Ready None ->
      (o = Ready None -> fst (ch_left st2) = false /\ fst (ch_right st2) = false) ->
      (o = Pending -> fst (ch_left st2) = true \/ fst (ch_right st2) = true) ->
      chain_inv st2 (outs ++ [o])).
    { intros o Ho H1 H2. exists L1, R2, (L1 ++ R2). split; [exact HL2'|]. split; [exact HR2|].
      rewrite yielded_app, !last_out_snoc, Hp2.
      split; [destruct Ho as [->| ->]; cbn [yielded]; rewrite app_nil_r; exact Hrep|].
      split; [reflexivity|]. split; [reflexivity|]. split; assumption. }
    destruct (fst (ch_left st2)) eqn:Fl; [|destruct (fst (ch_right st2)) eqn:Fr]; cbn [negb andb].
    - do 2 eexists. split; [reflexivity|]. split; [apply Hend; auto; discriminate|].
      intros Hs _. destruct (Harm1 Hs eq_refl eq_refl) as [Hsame Hl]. split.
      + rewrite HL2 in *. exact Hl.
      + rewrite <- Hsame. exact (Harm2 Hs eq_refl eq_refl).
    - do 2 eexists. split; [reflexivity|]. split; [apply Hend; auto; discriminate|].
      intros Hs _. destruct (Harm1 Hs eq_refl eq_refl) as [Hsame Hl]. split.
      + rewrite HL2 in *. exact Hl.
      + intros _. rewrite <- Hsame. exact (Harm2 Hs eq_refl eq_refl eq_refl).
    - do 2 eexists. split; [reflexivity|]. split; [apply Hend; auto; discriminate|]. discriminate.
  Qed.

  Lemma chain_run (left right : list (poll (option (vecdiff A)))) :
    vgood strict (yielded left) -> vgood strict (yielded right) -> forall n, exists st outs,
    run chain_poll n (chain_init left right) = Some (st, outs) /\ chain_inv st outs
    /\ (~ In (Ready None) outs -> forall st' o, chain_poll st = Some (st', o) -> chain_arms st st' o).
  Proof.
    intros Hl Hr n. apply run_then.
    - exists [], [], []. unfold chain_init.
      cbn [ch_left ch_right ch_left_len ch_right_len ch_pending].
      split; [split; [apply slot_ok_fresh|]; split; [reflexivity|]; split; [exact Hl|reflexivity]|].
      split; [split; [apply slot_ok_fresh|]; split; [reflexivity|]; split; [exact Hr|reflexivity]|].
      split; [reflexivity|]. split; [reflexivity|]. split; [reflexivity|].
      split; intros H; exfalso; exact (last_out_nil _ H).
    - intros st outs HI _. exact (chain_step st outs HI).
  Qed.
End Chain.

Lemma side_ended {A} strict (sl : slot (option (vecdiff A))) n l : side strict sl n l ->
  (fst sl = false <-> ended (snd sl)) /\ obeys_end (past (snd sl)).
Proof. intros ((H1 & H2) & _). split; [exact H2|exact H1]. Qed.

Lemma chain_mirror {A} (left right : list (poll (option (vecdiff A)))) :
  good_vec_script left -> good_vec_script right -> forall n, exists st outs L R shown,
    run chain_poll n (chain_init left right) = Some (st, outs)
    /\ conveyed (snd (ch_left st)) = Some L /\ conveyed (snd (ch_right st)) = Some R
    /\ replay (yielded outs) = Some shown
    /\ (last_out outs Pending \/ last_out outs (Ready None) -> shown = L ++ R)
    /\ apply_all apply_to_vec shown (ch_pending st) = Some (L ++ R)
    /\ obeys_end (past (snd (ch_left st))) /\ obeys_end (past (snd (ch_right st)))
    /\ (last_out outs (Ready None) -> ended (snd (ch_left st)) /\ ended (snd (ch_right st)))
    /\ (last_out outs Pending -> ~ (ended (snd (ch_left st)) /\ ended (snd (ch_right st)))).
Proof.
  intros Hl Hr n.
  destruct (chain_run false left right) with (n := n) as (st & outs & Hrun & (L & R & mid & HL & HR & H1 & H2 & H3 & H4 & H5) & _).
  - split; [exact Hl|discriminate].
  - split; [exact Hr|discriminate].
  - exists st, outs, L, R, mid. split; [exact Hrun|]. split; [apply HL|]. split; [apply HR|].
    split; [exact H1|].
    split; [intros H; rewrite (H3 H) in H2; cbn [apply_all] in H2; injection H2 as ->; reflexivity|].
    split; [exact H2|].
    destruct (side_ended _ _ _ _ HL) as [El Ol]. destruct (side_ended _ _ _ _ HR) as [Er Or].
    split; [exact Ol|]. split; [exact Or|]. split.
    + intros H. destruct (H4 H) as [Ha Hb]. split; [apply El; exact Ha|apply Er; exact Hb].
    + intros H [Ha Hb]. apply El in Ha. apply Er in Hb. destruct (H5 H); congruence.
Qed.

Lemma chain_wakes {A} (left right : list (poll (option (vecdiff A)))) :
  good_vec_script left -> good_vec_script right ->
  never_empties_empty (yielded left) -> never_empties_empty (yielded right) -> forall n st outs st',
    run chain_poll n (chain_init left right) = Some (st, outs) -> ~ In (Ready None) outs ->
    chain_poll st = Some (st', Pending) ->
    listening (snd (ch_left st)) (snd (ch_left st')) /\ listening (snd (ch_right st)) (snd (ch_right st')).
Proof.
  intros Hl Hr Nl Nr n st outs st' Hrun Hno Hp.
  destruct (chain_run true left right) with (n := n) as (st0 & outs0 & Hrun0 & HI & Harm).
  - split; [exact Hl|intros _; exact Nl].
  - split; [exact Hr|intros _; exact Nr].
  - rewrite Hrun in Hrun0. injection Hrun0 as <- <-.
    destruct (Harm Hno st' Pending Hp eq_refl eq_refl) as [Ha Hb].
    destruct (chain_step true st outs HI) as (s1 & o & E & (L & R & mid & HL & HR & _) & _).
    rewrite Hp in E. injection E as <- <-.
    destruct (side_ended _ _ _ _ HL) as [El _]. destruct (side_ended _ _ _ _ HR) as [Er _].
    split; [destruct (fst (ch_left st')) eqn:F|destruct (fst (ch_right st')) eqn:F].
    + right. exact (Ha eq_refl).
    + left. apply El. reflexivity.
    + right. exact (Hb eq_refl).
    + left. apply Er. reflexivity.
Qed.
