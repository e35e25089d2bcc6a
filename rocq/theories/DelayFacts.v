(** Proofs for DelayRemove. *)
From Verif Require Import Base Spec BaseFacts VecDiff VecSpec LoopFacts VecFacts Slot SlotFacts VecSlotFacts ChainFacts
  WakeFacts Flatten FlattenFacts ElemSignal ElemSignalFacts DelaySpec DelayRemove.

(** ** The specification *)
Section Live.
  Context {K : Type}.
  Implicit Types (s a b : @display K) (d : vecdiff K).

  Lemma live_app a b : live (a ++ b) = live a ++ live b.
  Proof. unfold live. rewrite filter_app, map_app. reflexivity. Qed.
  Lemma live_in y b : live ((y, false) :: b) = y :: live b.
  Proof. reflexivity. Qed.
  Lemma live_out y b : live ((y, true) :: b) = live b.
  Proof. reflexivity. Qed.
  Lemma live_none s : live (map (fun x => (fst x, true)) s) = [].
  Proof. induction s as [|x s IH]; [reflexivity|exact IH]. Qed.
  Lemma live_all (vs : list K) : live (map (fun v => (v, false)) vs) = vs.
  Proof. induction vs as [|v vs IH]; [reflexivity|]. cbn [map]. rewrite live_in, IH. reflexivity. Qed.

  Lemma displays_live d s s' : displays d s s' -> apply_to_vec d (live s) = Some (live s').
  Proof.
    destruct d as [vs|i v|i v|i|o n|v| |]; cbn [displays].
    - intros ->. rewrite live_app, live_none, live_all. reflexivity.
    - intros (a & b & -> & Hi & ->). rewrite !live_app, live_in. apply apply_insert_app. exact Hi.
    - intros (a & y & b & -> & Hi & ->). rewrite !live_app, !live_in. apply apply_update_app. exact Hi.
    - intros (a & y & b & -> & Hi & ->). rewrite !live_app, live_in, live_out. apply apply_remove_app. exact Hi.
    - intros (a & y & b & a' & b' & -> & Ho & E & Hn & ->). rewrite !live_app, !live_in. cbn [apply_to_vec].
      rewrite (vremove_app _ _ _ _ Ho), <- live_app, E, live_app. apply vinsert_app. exact Hn.
    - intros ->. rewrite live_app. reflexivity.
    - intros (a & y & b & -> & Hb & ->). rewrite !live_app, live_in, live_out, Hb, app_nil_r. apply apply_pop_app.
    - intros ->. rewrite live_none. reflexivity.
  Qed.

  Lemma lingered_live ds s gone : lingered ds s gone -> replay ds = Some (live s).
  Proof.
    induction 1 as [|ds s gone d s' H IH Hd|ds a y b gone H IH].
    - reflexivity.
    - rewrite replay_snoc, IH. apply displays_live. exact Hd.
    - rewrite IH, !live_app, live_out. reflexivity.
  Qed.
End Live.

Lemma forall_mid_intro {X} (P : X -> Prop) a x b : Forall P a /\ P x /\ Forall P b -> Forall P (a ++ x :: b).
Proof. intros (Ha & Hx & Hb). apply Forall_app. split; [exact Ha|]. constructor; assumption. Qed.

(** ** Indexes *)
(** The positions of true, counted from [i]. *)
Fixpoint positions (i : nat) (bs : list bool) : list nat :=
  match bs with
  | [] => []
  | b :: bs' => if b then i :: positions (S i) bs' else positions (S i) bs'
  end.

Lemma positions_app bs cs : forall i, positions i (bs ++ cs) = positions i bs ++ positions (i + length bs) cs.
Proof.
  induction bs as [|b bs IH]; intros i; simpl.
  - rewrite Nat.add_0_r. reflexivity.
  - rewrite IH, Nat.add_succ_r. destruct b; reflexivity.
Qed.

Section Delay.
  Context {K : Type} (future_of : K -> list (poll unit)).
  Notation applies := (@apply_all (vecdiff K) (list K) apply_to_vec).
  Implicit Types (F futures : list (dstate K)).

  Definition mark (f : dstate K) : K * bool := (dr_value f, dr_removing f).
  Definition lv F : nat := length (live (map mark F)).

  Lemma lv_app a b : lv (a ++ b) = lv a + lv b.
  Proof. unfold lv. rewrite map_app, live_app, app_length. reflexivity. Qed.
  Lemma lv_cons f b : lv (f :: b) = (if dr_removing f then 0 else 1) + lv b.
  Proof. unfold lv. cbn [map]. unfold mark at 1. destruct (dr_removing f); [rewrite live_out|rewrite live_in]; reflexivity. Qed.

  Lemma find_from_app F b f p : dr_removing f = false -> forall seen pos, seen + lv F = p ->
    find_from seen pos (F ++ f :: b) p = Some (pos + length F).
  Proof.
    intros Hf. induction F as [|g F IH]; intros seen pos; cbn [app find_from length].
    - unfold lv. simpl. intros <-. rewrite Hf, !Nat.add_0_r, Nat.eqb_refl. reflexivity.
    - rewrite lv_cons. intros Hp. destruct (dr_removing g).
      + rewrite IH by lia. f_equal. lia.
      + destruct (Nat.eqb_spec seen p); [lia|]. rewrite IH by lia. f_equal. lia.
  Qed.

  Lemma find_from_none F p : forall seen pos, seen + lv F <= p -> find_from seen pos F p = None.
  Proof.
    induction F as [|g F IH]; intros seen pos; [reflexivity|]. cbn [find_from]. rewrite lv_cons. intros Hp.
    destruct (dr_removing g); [apply IH; lia|]. destruct (Nat.eqb_spec seen p); [lia|]. apply IH. lia.
  Qed.

  Lemma split_live F i : i < lv F -> exists a f b, F = a ++ f :: b /\ dr_removing f = false /\ lv a = i.
  Proof.
    revert i. induction F as [|g F IH]; intros i; [unfold lv; simpl; lia|]. rewrite lv_cons. intros Hi.
    destruct (dr_removing g) eqn:Eg.
    - destruct (IH i Hi) as (a & f & b & -> & Hf & Ha). exists (g :: a), f, b. split; [reflexivity|]. split; [exact Hf|].
      rewrite lv_cons, Eg. exact Ha.
    - destruct i as [|i].
      + exists [], g, F. auto.
      + destruct (IH i ltac:(lia)) as (a & f & b & -> & Hf & Ha). exists (g :: a), f, b. split; [reflexivity|].
        split; [exact Hf|]. rewrite lv_cons, Eg, Ha. reflexivity.
  Qed.

  Lemma find_live F i : i < lv F -> exists a f b, F = a ++ f :: b /\ dr_removing f = false /\ lv a = i
    /\ dr_find_index F i = Some (length a).
  Proof.
    intros H. destruct (split_live F i H) as (a & f & b & -> & Hf & Ha). exists a, f, b.
    split; [reflexivity|]. split; [exact Hf|]. split; [exact Ha|]. unfold dr_find_index.
    rewrite (find_from_app a b f i Hf 0 0 Ha). reflexivity.
  Qed.

  (** Where InsertAt and Move put a new element. *)
  Lemma find_place F i : i <= lv F -> exists a b, F = a ++ b /\ lv a = i
    /\ or_else (dr_find_index F i) (length F) = length a.
  Proof.
    intros H. destruct (Nat.eq_dec i (lv F)) as [->|Hne].
    - exists F, []. rewrite app_nil_r. split; [reflexivity|]. split; [reflexivity|].
      unfold dr_find_index. rewrite find_from_none by lia. reflexivity.
    - destruct (find_live F i ltac:(lia)) as (a & f & b & -> & _ & Ha & Hi). exists a, (f :: b).
      split; [reflexivity|]. split; [exact Ha|]. rewrite Hi. reflexivity.
  Qed.

  Lemma find_last F : 0 < lv F -> exists a f b, F = a ++ f :: b /\ dr_removing f = false /\ lv b = 0
    /\ find_last_index F = Some (length a).
  Proof.
    assert (Hn : forall F, lv F = 0 -> find_last_index F = None).
    { clear F. induction F as [|g F IH]; intros H; [reflexivity|]. rewrite lv_cons in H. cbn [find_last_index].
      destruct (dr_removing g); [|lia]. rewrite IH by exact H. reflexivity. }
    induction F as [|g F IH]; [unfold lv; simpl; lia|]. intros H. cbn [find_last_index].
    destruct (Nat.eq_dec (lv F) 0) as [E|E].
    - rewrite Hn by exact E. rewrite lv_cons in H. destruct (dr_removing g) eqn:Eg; [lia|]. exists [], g, F. auto.
    - destruct (IH ltac:(lia)) as (a & f & b & -> & Hf & Hb & ->). exists (g :: a), f, b. auto.
  Qed.

  (** ** Futures *)
  Definition all_pending {X} (rs : list (poll X)) : Prop := exists n, rs = repeat Pending n.
  Lemma all_pending_snoc {X} (rs : list (poll X)) : all_pending rs -> all_pending (rs ++ [Pending]).
  Proof. intros [n ->]. exists (S n). rewrite <- repeat_cons. reflexivity. Qed.

  Definition dok (f : dstate K) : Prop :=
    plays (future_of (dr_value f)) (dr_future f)
    /\ (if dr_removing f then past (dr_future f) <> [] /\ all_pending (past (dr_future f)) else past (dr_future f) = []).
  Definition gok (g : dstate K) : Prop :=
    plays (future_of (dr_value g)) (dr_future g)
    /\ exists n, past (dr_future g) = repeat Pending n ++ [Ready tt].

  Lemma poll_removal_ok f : dok f -> exists b fut, poll_removal f = (b, fut)
    /\ plays (future_of (dr_value f)) fut
    /\ (if b then exists n, past fut = repeat Pending n ++ [Ready tt]
        else past fut <> [] /\ all_pending (past fut) /\ armed (dr_future f) fut).
  Proof.
    intros [Hp Hf]. assert (Ha : all_pending (past (dr_future f))).
    { destruct (dr_removing f); [apply Hf|rewrite Hf; exists 0; reflexivity]. }
    unfold poll_removal.
    assert (Hp' := poll_slot_plays (future_of (dr_value f)) (true, dr_future f) Hp). unfold poll_slot in Hp'. cbn [snd] in Hp'.
    destruct (poll_src (dr_future f)) as [r fut] eqn:E. cbn [snd] in Hp'.
    assert (Hpast : past fut = past (dr_future f) ++ [r]).
    { unfold poll_src in E. destruct (todo (dr_future f)); injection E as <- <-; reflexivity. }
    destruct r as [|[]].
    - exists false, fut. split; [reflexivity|]. split; [exact Hp'|]. rewrite Hpast.
      split; [destruct (past (dr_future f)); discriminate|]. split; [apply all_pending_snoc; exact Ha|].
      exists []. exact Hpast.
    - exists true, fut. split; [reflexivity|]. split; [exact Hp'|]. destruct Ha as [n Hn]. exists n. rewrite Hpast, Hn. reflexivity.
  Qed.

  (** ** Removing several *)
  Lemma remove_index_mid F f b : exists d, remove_index (F ++ f :: b) (length F) = Some (F ++ b, d, f)
    /\ apply_to_vec d (map dr_value (F ++ f :: b)) = Some (map dr_value (F ++ b)).
  Proof.
    unfold remove_index. rewrite app_length. cbn [length]. rewrite usub_Some by lia.
    destruct (Nat.eqb_spec (length F) (length F + S (length b) - 1)) as [E|E].
    - assert (b = []) as -> by (destruct b; [reflexivity|simpl in E; lia]). rewrite vpop_app, app_nil_r.
      exists Pop. split; [reflexivity|]. rewrite map_app. apply apply_pop_app.
    - rewrite (vremove_app F b f _ eq_refl). exists (RemoveAt (length F)). split; [reflexivity|].
      rewrite !map_app. apply apply_remove_app. apply map_length.
  Qed.

  Section Removals.
    (** [p]: is dropped; [q]: its state by then; [mk]: how it counts in the display. *)
    Variables (p : dstate K -> bool) (q : dstate K -> dstate K) (mk : dstate K -> K * bool).
    Hypothesis mk_value : forall f, fst (mk f) = dr_value f.

    Lemma removals_ok ds F : (forall f, In f F -> p f = true -> snd (mk (q f)) = true) -> forall kept rest pend gone vs,
      lingered ds (map mk (map q F ++ kept) ++ rest) vs ->
      exists more, remove_indexes (rev (positions 0 (map p F))) (map q F ++ kept, pend, gone)
        = Some (map q (filter (fun f => negb (p f)) F) ++ kept, pend ++ more, gone ++ map q (rev (filter p F)))
      /\ applies (map dr_value (map q F ++ kept)) more
         = Some (map dr_value (map q (filter (fun f => negb (p f)) F) ++ kept))
      /\ lingered ds (map mk (map q (filter (fun f => negb (p f)) F) ++ kept) ++ rest) (vs ++ map dr_value (map q (rev (filter p F))))
      /\ (more = [] -> filter p F = []).
    Proof.
      induction F as [|f F IH] using rev_ind; intros Hmk kept rest pend gone vs HL.
      - exists []. simpl in *. rewrite !app_nil_r. auto.
      - rewrite (map_app p), positions_app, map_length. cbn [map positions Nat.add].
        rewrite !filter_app, !(map_app q), <- !(app_assoc (map q F)). cbn [filter map app].
        assert (Hmk' : forall g, In g F -> p g = true -> snd (mk (q g)) = true).
        { intros g Hg. apply Hmk. apply in_or_app. left. exact Hg. }
        rewrite (map_app q), <- (app_assoc (map q F)) in HL. cbn [map app] in HL.
        destruct (p f) eqn:Ep; cbn [negb map app].
        + assert (Hs : snd (mk (q f)) = true) by (apply Hmk; [apply in_or_app; right; left; reflexivity|exact Ep]).
          rewrite !rev_app_distr. cbn [rev app remove_indexes map].
          destruct (remove_index_mid (map q F) (q f) kept) as (d & Ed & Had). rewrite map_length in Ed.
          rewrite Ed, !app_nil_r.
          destruct (IH Hmk' kept rest (pend ++ [d]) (gone ++ [q f]) (vs ++ [dr_value (q f)])) as (more & E & Ha & HL' & _).
          { rewrite map_app, <- app_assoc. apply ling_vanish. rewrite map_app, <- app_assoc in HL. cbn [map app] in HL.
            rewrite (surjective_pairing (mk (q f))), mk_value, Hs in HL. exact HL. }
          exists (d :: more). rewrite E, <- !app_assoc. cbn [app].
          split; [reflexivity|]. split; [cbn [apply_all]; rewrite Had; exact Ha|].
          split; [rewrite <- (app_assoc vs) in HL'; exact HL'|discriminate].
        + rewrite !app_nil_r, <- !(app_assoc (map q _)). cbn [app].
          destruct (IH Hmk' (q f :: kept) rest pend gone vs HL) as (more & E & Ha & HL' & Hm).
          exists more. split; [exact E|]. split; [exact Ha|]. split; [exact HL'|exact Hm].
    Qed.
  End Removals.

  (** What start_removals and poll_removals do to one element. *)
  Definition start1 (f : dstate K) : bool * dstate K :=
    if dr_removing f then (false, f)
    else let '(ready, fut) := poll_removal f in (ready, mkDr (dr_value f) fut (negb ready)).
  Definition again1 (f : dstate K) : bool * dstate K :=
    if dr_removing f then let '(ready, fut) := poll_removal f in (ready, mkDr (dr_value f) fut true)
    else (false, f).

  Lemma start_removals_eq F : forall i,
    start_removals i F = Some (map (fun f => snd (start1 f)) F, positions i (map (fun f => fst (start1 f)) F)).
  Proof.
    induction F as [|f F IH]; intros i; [reflexivity|]. cbn [start_removals map positions].
    assert (Ea : start1 f = if dr_removing f then (false, f)
                            else let '(ready, fut) := poll_removal f in (ready, mkDr (dr_value f) fut (negb ready))) by reflexivity.
    rewrite Ea. unfold should_remove. destruct (dr_removing f); [rewrite IH; reflexivity|].
    destruct (poll_removal f) as [[|] fut]; cbn [fst snd negb]; rewrite IH; reflexivity.
  Qed.

  Lemma poll_removals_eq F : forall i, exists waiting,
    poll_removals i F = (map (fun f => snd (again1 f)) F, positions i (map (fun f => fst (again1 f)) F), waiting)
    /\ (waiting = true <-> Exists (fun f => dr_removing f = true /\ fst (again1 f) = false) F).
  Proof.
    induction F as [|f F IH]; intros i.
    - exists false. split; [reflexivity|]. split; [discriminate|]. intros H. inversion H.
    - destruct (IH (S i)) as (w & E & Hw). cbn [poll_removals map positions]. rewrite E.
      assert (HE := Exists_cons (fun f => dr_removing f = true /\ fst (again1 f) = false) f F). rewrite <- Hw in HE.
      assert (Hx : forall w', (w' = true <-> (dr_removing f = true /\ fst (again1 f) = false) \/ w = true) ->
        (w' = true <-> Exists (fun f => dr_removing f = true /\ fst (again1 f) = false) (f :: F))).
      { intros w' H. rewrite HE. exact H. }
      assert (Ea : again1 f = if dr_removing f then let '(ready, fut) := poll_removal f in (ready, mkDr (dr_value f) fut true)
                              else (false, f)) by reflexivity.
      rewrite Ea in Hx. rewrite Ea. clear HE Ea. destruct (dr_removing f).
      + destruct (poll_removal f) as [[|] fut]; cbn [fst snd] in *.
        * exists w. split; [reflexivity|]. apply Hx. split; [auto|]. intros [[_ H]|H]; [discriminate|exact H].
        * exists true. split; [reflexivity|]. apply Hx. split; auto.
      + exists w. split; [reflexivity|]. apply Hx. split; [auto|]. intros [[H _]|H]; [discriminate|exact H].
  Qed.

  Lemma start1_ok f : dok f -> dr_value (snd (start1 f)) = dr_value f /\ grew (dr_future f) (dr_future (snd (start1 f)))
    /\ (fst (start1 f) = true -> gok (snd (start1 f)))
    /\ (fst (start1 f) = false -> dok (snd (start1 f)) /\ dr_removing (snd (start1 f)) = true).
  Proof.
    intros Hf. unfold start1. destruct (dr_removing f) eqn:Er.
    - cbn [fst snd]. split; [reflexivity|]. split; [apply grew_refl|]. split; [discriminate|auto].
    - destruct (poll_removal_ok f Hf) as (b & fut & E & Hp & Hb). rewrite E.
      assert (Hg : grew (dr_future f) fut).
      { destruct Hf as [_ Hpa]. rewrite Er in Hpa. exists (past fut). rewrite Hpa. reflexivity. }
      cbn [fst snd dr_value dr_future]. split; [reflexivity|]. split; [exact Hg|].
      destruct b; cbn [negb]; split; try discriminate; intros _.
      + split; [exact Hp|exact Hb].
      + split; [|reflexivity]. split; [exact Hp|]. cbn [dr_removing dr_future]. split; apply Hb.
  Qed.

  Lemma again1_ok f : dok f -> dr_value (snd (again1 f)) = dr_value f /\ dr_removing (snd (again1 f)) = dr_removing f
    /\ (fst (again1 f) = true -> gok (snd (again1 f)) /\ dr_removing f = true)
    /\ (fst (again1 f) = false -> dok (snd (again1 f)) /\ (dr_removing f = true -> armed (dr_future f) (dr_future (snd (again1 f))))).
  Proof.
    intros Hf. unfold again1. destruct (dr_removing f) eqn:Er.
    - destruct (poll_removal_ok f Hf) as (b & fut & E & Hp & Hb). rewrite E.
      cbn [fst snd dr_value dr_removing dr_future]. split; [reflexivity|]. split; [reflexivity|].
      destruct b; split; try discriminate; intros _.
      + split; [|reflexivity]. split; [exact Hp|exact Hb].
      + split; [|intros _; apply Hb]. split; [exact Hp|]. cbn [dr_removing dr_future]. split; apply Hb.
    - cbn [fst snd]. split; [reflexivity|]. split; [exact Er|]. split; [discriminate|]. intros _. split; [exact Hf|discriminate].
  Qed.

  (** ** One change *)
  (** The futures before and after, when nothing was said. *)
  Definition kept F F' : Prop := Forall2 (fun f f' => grew (dr_future f) (dr_future f')) F F'.

  Lemma kept_refl F : kept F F.
  Proof. induction F; constructor; [apply grew_refl|assumption]. Qed.

  Lemma kept_trans F F' F'' : kept F F' -> kept F' F'' -> kept F F''.
  Proof.
    intros H. revert F''. induction H as [|f f' F F' H1 H IH]; intros F'' H'; inversion H'; subst; constructor.
    - eapply grew_trans; eassumption.
    - apply IH. assumption.
  Qed.

  Definition dinv (shown : list K) (F0 : list (dstate K)) (s : list (dstate K) * list (vecdiff K) * list (dstate K))
    (ds : list (vecdiff K)) : Prop :=
    let '(F, pend, gone) := s in
    lingered ds (map mark F) (map dr_value gone) /\ Forall dok F /\ Forall gok gone
    /\ applies shown pend = Some (map dr_value F) /\ (pend = [] -> kept F0 F).

  Lemma dok_new k : dok (dr_new future_of k).
  Proof. split; [exists 0; simpl; rewrite app_nil_r; reflexivity|reflexivity]. Qed.
  Lemma dok_new_all ks : Forall dok (map (dr_new future_of) ks).
  Proof. induction ks; constructor; [apply dok_new|assumption]. Qed.
  Lemma mark_new_all ks : map mark (map (dr_new future_of) ks) = map (fun v => (v, false)) ks.
  Proof. rewrite map_map. reflexivity. Qed.
  Lemma value_new_all ks : map dr_value (map (dr_new future_of) ks) = ks.
  Proof. rewrite map_map. apply map_id. Qed.

  Lemma filter_none {X} (g : X -> bool) l : filter g l = [] -> filter (fun x => negb (g x)) l = l.
  Proof.
    induction l as [|x l IH]; [reflexivity|]. simpl. destruct (g x); [discriminate|]. intros H. simpl. rewrite IH by exact H. reflexivity.
  Qed.

  Lemma Forall_filter {X} (P : X -> Prop) g l : Forall P l -> Forall P (filter g l).
  Proof. rewrite !Forall_forall. intros H x Hx. apply filter_In in Hx. apply H. apply Hx. Qed.

  (** The marks of the state of the loop are those of the elements after a Clear. *)
  Lemma existing_ok shown F0 F pend gone ds s' : dinv shown F0 (F, pend, gone) ds ->
    s' = map (fun x => (fst x, true)) (map mark F) -> forall ds' rest,
    (forall vs, lingered ds (map mark F) vs -> lingered ds' (s' ++ rest) vs) ->
    exists F' pend' gone', remove_existing_futures (F, pend, gone) = Some (F', pend', gone')
      /\ lingered ds' (map mark F' ++ rest) (map dr_value gone') /\ Forall dok F' /\ Forall gok gone'
      /\ applies shown pend' = Some (map dr_value F') /\ (pend' = [] -> kept F0 F').
  Proof.
    intros (HL & HF & HG & Ha & Hk) -> ds' rest Hds. apply Hds in HL. clear Hds.
    unfold remove_existing_futures. rewrite start_removals_eq.
    set (mk := fun f : dstate K => (dr_value f, true)).
    assert (HL' : lingered ds' (map mk (map (fun f => snd (start1 f)) F ++ []) ++ rest) (map dr_value gone)).
    { rewrite app_nil_r. rewrite map_map. rewrite map_map in HL.
      rewrite (map_ext_in _ (fun x => (fst (mark x), true))); [exact HL|]. intros f Hf.
      unfold mk, mark. cbn [fst]. f_equal. apply start1_ok. rewrite Forall_forall in HF. auto. }
    destruct (removals_ok (fun f => fst (start1 f)) (fun f => snd (start1 f)) mk (fun f => eq_refl) ds' F) with
      (kept := @nil (dstate K)) (rest := rest) (pend := pend) (gone := gone) (vs := map dr_value gone) as (more & E & Ha' & HL2 & Hm).
    { intros f _ _. reflexivity. }
    { exact HL'. }
    rewrite !app_nil_r in *. rewrite E. clear E HL HL'.
    assert (Hstart : Forall (fun f => dok (snd (start1 f)) /\ dr_removing (snd (start1 f)) = true)
                       (filter (fun f => negb (fst (start1 f))) F)).
    { rewrite Forall_forall in *. intros f Hf. apply filter_In in Hf. destruct Hf as [Hi Hb].
      apply start1_ok; [auto|]. apply negb_true_iff. exact Hb. }
    do 3 eexists. split; [reflexivity|].
    split; [|split; [|split; [|split]]].
      + rewrite (map_app dr_value). rewrite (map_ext_in mark mk).
        * exact HL2.
        * intros f Hf. apply in_map_iff in Hf. destruct Hf as (g & <- & Hg). unfold mark, mk. f_equal.
          rewrite Forall_forall in Hstart. apply Hstart. exact Hg.
      + rewrite Forall_map. eapply Forall_impl; [|exact Hstart]. intros f [H _]. exact H.
      + apply Forall_app. split; [exact HG|]. rewrite Forall_map. apply Forall_rev.
        rewrite Forall_forall in *. intros f Hf. apply filter_In in Hf. destruct Hf as [Hi Hb].
        apply start1_ok; [auto|exact Hb].
      + rewrite (applies_app _ _ _ _ Ha). rewrite <- Ha'. f_equal. rewrite map_map. apply map_ext_in.
        intros f Hf. symmetry. apply start1_ok. rewrite Forall_forall in HF. auto.
      + intros Hp. apply app_eq_nil in Hp. destruct Hp as [-> ->]. rewrite (filter_none _ _ (Hm eq_refl)).
        eapply kept_trans; [exact (Hk eq_refl)|]. clear -HF. induction HF as [|f F Hf HF IH]; constructor; [|exact IH].
        apply start1_ok. exact Hf.
  Qed.

  (** remove_one of a live element. *)
  Lemma remove_one_ok shown F0 a f b pend gone ds ds' : dinv shown F0 (a ++ f :: b, pend, gone) ds ->
    dr_removing f = false ->
    (forall vs, lingered ds (map mark (a ++ f :: b)) vs -> lingered ds' (map mark a ++ (dr_value f, true) :: map mark b) vs) ->
    exists s', remove_one (length a) (a ++ f :: b, pend, gone) = Some s' /\ dinv shown F0 s' ds'.
  Proof.
    intros (HL & HF & HG & Ha & Hk) Hf Hds. apply Hds in HL. clear Hds. unfold remove_one.
    rewrite nth_error_app2, Nat.sub_diag by lia. cbn [nth_error]. unfold should_remove. rewrite Hf.
    apply forall_mid in HF. destruct HF as (HFa & HFf & HFb).
    destruct (poll_removal_ok f HFf) as (r & fut & E & Hp & Hr). rewrite E.
    assert (Hg : grew (dr_future f) fut).
    { destruct HFf as [_ Hpa]. rewrite Hf in Hpa. exists (past fut). rewrite Hpa. reflexivity. }
    destruct r; rewrite (vset_app a b _ f _ eq_refl).
    - destruct (remove_index_mid a (mkDr (dr_value f) fut false) b) as (d & Ed & Had). rewrite Ed.
      eexists. split; [reflexivity|]. split; [|split; [|split; [|split]]].
      + rewrite !map_app. apply ling_vanish. exact HL.
      + apply Forall_app. auto.
      + apply Forall_app. split; [exact HG|]. constructor; [|constructor]. split; [exact Hp|exact Hr].
      + rewrite (applies_app _ _ _ _ Ha). cbn [apply_all]. rewrite !map_app in *. cbn [map dr_value] in *. rewrite Had. reflexivity.
      + intros Hx. apply app_eq_nil in Hx. destruct Hx; discriminate.
    - eexists. split; [reflexivity|]. split; [|split; [|split; [|split]]].
      + rewrite map_app. exact HL.
      + apply forall_mid_intro. split; [exact HFa|]. split; [|exact HFb]. split; [exact Hp|]. cbn [dr_removing dr_future]. split; apply Hr.
      + exact HG.
      + rewrite Ha, !map_app. reflexivity.
      + intros ->. eapply kept_trans; [exact (Hk eq_refl)|]. apply Forall2_app; [apply kept_refl|].
        constructor; [exact Hg|apply kept_refl].
  Qed.

  Lemma delay_step_ok shown F0 s ds d : dinv shown F0 s ds -> replay (ds ++ [d]) <> None ->
    exists s', delay_remove_step future_of s d = Some s' /\ dinv shown F0 s' (ds ++ [d]).
  Proof.
    intros Hinv Hr. destruct s as [[F pend] gone]. assert (Hinv0 := Hinv). destruct Hinv as (HL & HF & HG & Ha & Hk).
    assert (Hds : forall s', displays d (map mark F) s' -> forall vs, lingered ds (map mark F) vs -> lingered (ds ++ [d]) s' vs).
    { intros s' Hd vs H. eapply ling_change; eassumption. }
    assert (Hs := replay_snoc ds d). rewrite (lingered_live _ _ _ HL) in Hs. rewrite Hs in Hr.
    destruct (apply_to_vec d (live (map mark F))) as [l'|] eqn:Ed; [|congruence]. clear Hs Hr.
    apply apply_inv in Ed. cbn [delay_remove_step].
    destruct d as [vs|i v|i v|i|o n|v| |].
    - destruct (Nat.eqb_spec (length F) 0) as [E0|E0].
      + destruct F; [|discriminate]. eexists. split; [reflexivity|]. split; [|split; [|split; [|split]]].
        * apply (Hds (map mark (map (dr_new future_of) vs))); [|exact HL]. cbn. apply mark_new_all.
        * apply dok_new_all.
        * exact HG.
        * rewrite (applies_app _ _ _ _ Ha). cbn. rewrite value_new_all. reflexivity.
        * intros Hx. apply app_eq_nil in Hx. destruct Hx; discriminate.
      + destruct (existing_ok shown F0 F pend gone ds _ Hinv0 eq_refl (ds ++ [Replace vs]) (map (fun v => (v, false)) vs))
          as (F' & pend' & gone' & E & HL' & HF' & HG' & Ha' & Hk').
        { apply Hds. reflexivity. }
        rewrite E. eexists. split; [reflexivity|].
        split; [|split; [|split; [|split]]].
        * rewrite map_app, mark_new_all. exact HL'.
        * apply Forall_app. split; [exact HF'|apply dok_new_all].
        * exact HG'.
        * rewrite (applies_app _ _ _ _ Ha'), applies_pushes, map_app, value_new_all. reflexivity.
        * intros Hx. apply app_eq_nil in Hx. destruct Hx as [-> Hx]. apply map_eq_nil in Hx. rewrite Hx.
          cbn [map]. rewrite app_nil_r. apply Hk'. reflexivity.
    - destruct Ed as (l1 & l2 & E & _ & Hi). apply (f_equal (@length K)) in E. fold (lv F) in E. rewrite app_length in E.
      destruct (find_place F i ltac:(lia)) as (a & b & -> & Hl & ->).
      rewrite (vinsert_app a b _ _ eq_refl). eexists. split; [reflexivity|]. split; [|split; [|split; [|split]]].
      + eapply Hds; [|exact HL]. exists (map mark a), (map mark b). rewrite !map_app. auto.
      + apply forall_mid_intro. apply Forall_app in HF. split; [apply HF|]. split; [apply dok_new|apply HF].
      + exact HG.
      + rewrite (applies_app _ _ _ _ Ha). cbn [apply_all]. rewrite !map_app. cbn [map dr_value dr_new].
        rewrite apply_insert_app by apply map_length. reflexivity.
      + intros Hx. apply app_eq_nil in Hx. destruct Hx; discriminate.
    - destruct Ed as (l1 & y & l2 & E & _ & Hi). apply (f_equal (@length K)) in E. fold (lv F) in E. rewrite app_length in E. cbn [length] in E.
      destruct (find_live F i ltac:(lia)) as (a & f & b & -> & Hf & Hl & ->).
      rewrite (vset_app a b _ f _ eq_refl). eexists. split; [reflexivity|]. split; [|split; [|split; [|split]]].
      + eapply Hds; [|exact HL]. exists (map mark a), (dr_value f), (map mark b). rewrite !map_app. cbn [map].
        unfold mark at 2. rewrite Hf. auto.
      + apply forall_mid in HF. apply forall_mid_intro. split; [apply HF|]. split; [apply dok_new|apply HF].
      + exact HG.
      + rewrite (applies_app _ _ _ _ Ha). cbn [apply_all]. rewrite !map_app. cbn [map dr_value dr_new].
        rewrite apply_update_app by apply map_length. reflexivity.
      + intros Hx. apply app_eq_nil in Hx. destruct Hx; discriminate.
    - destruct Ed as (l1 & y & l2 & E & _ & Hi). apply (f_equal (@length K)) in E. fold (lv F) in E. rewrite app_length in E. cbn [length] in E.
      destruct (find_live F i ltac:(lia)) as (a & f & b & -> & Hf & Hl & ->).
      apply (remove_one_ok shown F0 a f b pend gone ds _ Hinv0 Hf). apply Hds.
      exists (map mark a), (dr_value f), (map mark b). rewrite !map_app. cbn [map]. unfold mark at 2. rewrite Hf. auto.
    - destruct Ed as (l1 & y & l2 & m1 & m2 & E & Ho & E2 & _ & Hn).
      apply (f_equal (@length K)) in E. fold (lv F) in E. rewrite app_length in E. cbn [length] in E.
      apply (f_equal (@length K)) in E2. rewrite !app_length in E2.
      destruct (find_live F o ltac:(lia)) as (a & f & b & -> & Hf & Hl & ->).
      rewrite (vremove_app a b f _ eq_refl).
      assert (Hlv : lv (a ++ f :: b) = S (lv (a ++ b))) by (rewrite !lv_app, lv_cons, Hf; lia).
      destruct (find_place (a ++ b) n ltac:(lia)) as (a' & b' & Eab & Hl' & ->). rewrite Eab.
      rewrite (vinsert_app a' b' _ _ eq_refl). eexists. split; [reflexivity|]. split; [|split; [|split; [|split]]].
      + eapply Hds; [|exact HL]. exists (map mark a), (dr_value f), (map mark b), (map mark a'), (map mark b').
        assert (Em : mark f = (dr_value f, false)) by (unfold mark; rewrite Hf; reflexivity).
        split; [rewrite map_app; cbn [map]; rewrite Em; reflexivity|]. split; [exact Hl|].
        split; [rewrite <- !map_app, Eab; reflexivity|]. split; [exact Hl'|].
        rewrite map_app; cbn [map]; rewrite Em; reflexivity.
      + apply forall_mid in HF. destruct HF as (H1 & H2 & H3). apply forall_mid_intro.
        assert (H4 : Forall dok (a' ++ b')) by (rewrite <- Eab; apply Forall_app; auto).
        apply Forall_app in H4. split; [apply H4|]. split; [exact H2|apply H4].
      + exact HG.
      + rewrite (applies_app _ _ _ _ Ha). cbn [apply_all]. rewrite !map_app. cbn [map apply_to_vec].
        rewrite vremove_app by apply map_length. rewrite <- map_app, Eab, map_app.
        rewrite vinsert_app by apply map_length. reflexivity.
      + intros Hx. apply app_eq_nil in Hx. destruct Hx; discriminate.
    - eexists. split; [reflexivity|]. split; [|split; [|split; [|split]]].
      + eapply Hds; [|exact HL]. cbn. rewrite map_app. reflexivity.
      + apply Forall_app. split; [exact HF|]. constructor; [apply dok_new|constructor].
      + exact HG.
      + rewrite (applies_app _ _ _ _ Ha), map_app. reflexivity.
      + intros Hx. apply app_eq_nil in Hx. destruct Hx; discriminate.
    - destruct Ed as (y & E). apply (f_equal (@length K)) in E. fold (lv F) in E. rewrite app_length in E. cbn [length] in E.
      destruct (find_last F ltac:(lia)) as (a & f & b & -> & Hf & Hl & ->).
      apply (remove_one_ok shown F0 a f b pend gone ds _ Hinv0 Hf). apply Hds.
      exists (map mark a), (dr_value f), (map mark b). rewrite !map_app. cbn [map]. unfold mark at 2. rewrite Hf.
      split; [reflexivity|]. split; [|reflexivity]. apply length_zero_iff_nil. exact Hl.
    - destruct (existing_ok shown F0 F pend gone ds _ Hinv0 eq_refl (ds ++ [Clear]) [])
        as (F' & pend' & gone' & E & HL' & HF' & HG' & Ha' & Hk').
      { intros ws. rewrite app_nil_r. apply Hds. reflexivity. }
      rewrite app_nil_r in HL'. rewrite E. eexists. split; [reflexivity|]. repeat (split; [assumption|]). assumption.
  Qed.

  (** ** A poll *)
  Definition delay_inv (st : delay_remove_state K) (outs : list (poll (option (vecdiff K)))) : Prop :=
    exists shown,
      slot_ok (dlr_signal st) /\ replay (deliverable (dlr_signal st)) <> None
      /\ lingered (delivered (dlr_signal st)) (map mark (dlr_futures st)) (map dr_value (dlr_gone st))
      /\ Forall dok (dlr_futures st) /\ Forall gok (dlr_gone st)
      /\ replay (yielded outs) = Some shown
      /\ applies shown (dlr_pending st) = Some (map dr_value (dlr_futures st))
      /\ (last_out outs Pending \/ last_out outs (Ready None) -> dlr_pending st = [])
      /\ (last_out outs (Ready None) ->
            ended (snd (dlr_signal st)) /\ Forall (fun f => dr_removing f = false) (dlr_futures st))
      /\ (last_out outs Pending ->
            ~ (ended (snd (dlr_signal st)) /\ Forall (fun f => dr_removing f = false) (dlr_futures st))).

  Definition delay_arms (st st' : delay_remove_state K) (o : poll (option (vecdiff K))) : Prop :=
    o = Pending -> listening (snd (dlr_signal st)) (snd (dlr_signal st'))
      /\ Forall2 (fun f f' => dr_removing f' = true -> armed (dr_future f) (dr_future f')) (dlr_futures st) (dlr_futures st').

  Lemma delay_poll_ok st outs : delay_inv st outs -> ~ In (Ready None) outs ->
    exists st' o, delay_remove_poll future_of st = Some (st', o) /\ delay_inv st' (outs ++ [o]) /\ delay_arms st st' o.
  Proof.
    intros (shown & Hok & Hg & HL & HF & HG & Hsh & Hap & Hpe & Hen & Hpn) Hno.
    unfold delay_remove_poll. destruct (dlr_pending st) as [|d rest] eqn:Ep.
    2:{ cbn [apply_all] in Hap. destruct (apply_to_vec d shown) as [sh'|] eqn:Ed; [|discriminate].
      eexists _, _. split; [reflexivity|]. split; [|discriminate].
      exists sh'. cbn [dlr_signal dlr_futures dlr_pending dlr_gone].
      split; [exact Hok|]. split; [exact Hg|]. split; [exact HL|]. split; [exact HF|]. split; [exact HG|].
      split; [rewrite yielded_app; cbn [yielded]; rewrite replay_snoc, Hsh; exact Ed|].
      split; [exact Hap|]. rewrite !last_out_snoc. split; [intros [H|H]; discriminate|]. split; discriminate. }
    destruct (drain_slot_inv (delay_remove_step future_of) (fun ds => replay ds <> None) (@replay_prefix K)
      (dinv shown (dlr_futures st)) (fun s ds d => delay_step_ok shown (dlr_futures st) s ds d))
      with (x := (dlr_futures st, @nil (vecdiff K), dlr_gone st)) (sl := dlr_signal st)
      as ([[F1 pend1] gone1] & sl' & done & E & (HL1 & HF1 & HG1 & Ha1 & Hk1) & Hg').
    { split; [exact HL|]. split; [exact HF|]. split; [exact HG|]. split; [exact Hap|]. intros _. apply kept_refl. }
    { exact Hg. }
    rewrite E.
    destruct (drain_slot_ok _ _ _ _ _ _ Hok E) as (Hok' & Hf & _).
    assert (Hli := drain_listening _ _ _ _ _ _ Hok E).
    assert (Hends : ended (snd sl') <-> done = true).
    { destruct Hok' as [_ Hok']. rewrite <- Hok', Hf. destruct done; split; intros H; try reflexivity; discriminate. }
    destruct (poll_removals_eq F1 0) as (w & Ew & Hw). rewrite Ew.
    assert (Hag : Forall (fun f => dok f) F1) by exact HF1. rewrite Forall_forall in Hag.
    destruct (removals_ok (fun f => fst (again1 f)) (fun f => snd (again1 f)) mark (fun f => eq_refl)
      (delivered sl') F1) with (kept := @nil (dstate K)) (rest := @nil (K * bool)) (pend := pend1) (gone := gone1) (vs := map dr_value gone1)
      as (more & E2 & Ha2 & HL2 & Hm).
    { intros f Hi Hb. cbn [mark snd]. destruct (again1_ok f (Hag f Hi)) as (_ & -> & H & _). apply H. exact Hb. }
    { rewrite !app_nil_r, map_map. rewrite (map_ext_in _ mark); [exact HL1|]. intros f Hi. unfold mark.
      destruct (again1_ok f (Hag f Hi)) as (-> & -> & _). reflexivity. }
    rewrite !app_nil_r in *. rewrite E2.
    set (F2 := map (fun f => snd (again1 f)) (filter (fun f => negb (fst (again1 f))) F1)) in *.
    set (gone2 := gone1 ++ map (fun f => snd (again1 f)) (rev (filter (fun f => fst (again1 f)) F1))) in *.
    assert (HF2 : Forall dok F2).
    { unfold F2. rewrite Forall_map, Forall_forall. intros f Hi. apply filter_In in Hi. destruct Hi as [Hi Hb].
      apply again1_ok; [auto|]. apply negb_true_iff. exact Hb. }
    assert (HG2 : Forall gok gone2).
    { unfold gone2. apply Forall_app. split; [exact HG1|]. rewrite Forall_map. apply Forall_rev. rewrite Forall_forall.
      intros f Hi. apply filter_In in Hi. destruct Hi as [Hi Hb]. apply again1_ok; auto. }
    rewrite <- map_app in HL2. fold gone2 in HL2.
    assert (Hap2 : applies shown (pend1 ++ more) = Some (map dr_value F2)).
    { rewrite (applies_app _ _ _ _ Ha1). rewrite <- Ha2. f_equal. rewrite map_map. apply map_ext_in. intros f Hi. symmetry.
      apply again1_ok. auto. }
    assert (Hwait : w = false <-> Forall (fun f => dr_removing f = false) F2).
    { unfold F2. rewrite Forall_map, Forall_forall. split.
      - intros Hwf f Hi. apply filter_In in Hi. destruct Hi as [Hi Hb]. apply negb_true_iff in Hb.
        destruct (again1_ok f (Hag f Hi)) as (_ & -> & _). destruct (dr_removing f) eqn:Er; [|reflexivity].
        exfalso. assert (w = true) by (apply Hw; apply Exists_exists; exists f; auto). congruence.
      - intros H. destruct w; [|reflexivity]. exfalso.
        assert (HE := proj1 Hw eq_refl). apply Exists_exists in HE. destruct HE as (f & Hi & Hr & Hb).
        assert (Hx := H f). rewrite filter_In, Hb in Hx. specialize (Hx (conj Hi eq_refl)).
        destruct (again1_ok f (Hag f Hi)) as (_ & Hr' & _). congruence. }
    destruct (pend1 ++ more) as [|first rest] eqn:Epm.
    - apply app_eq_nil in Epm. destruct Epm as [-> ->].
      assert (Hgen : forall o, (o = Pending \/ o = Ready None) ->
        (o = Ready None <-> ended (snd sl') /\ Forall (fun f => dr_removing f = false) F2) ->
        delay_inv (mkDlr sl' F2 [] gone2) (outs ++ [o]) /\ delay_arms st (mkDlr sl' F2 [] gone2) o).
      { intros o Ho Hiff. split.
        - exists shown. cbn [dlr_signal dlr_futures dlr_pending dlr_gone].
          split; [exact Hok'|]. split; [exact Hg'|]. split; [exact HL2|]. split; [exact HF2|]. split; [exact HG2|].
          split; [rewrite yielded_app; destruct Ho as [-> | ->]; cbn [yielded]; rewrite app_nil_r; exact Hsh|].
          split; [exact Hap2|]. rewrite !last_out_snoc. split; [reflexivity|]. split; [apply Hiff|].
          intros -> Hc. apply Hiff in Hc. discriminate.
        - intros ->. cbn [dlr_signal dlr_futures]. split; [exact Hli|].
          specialize (Hk1 eq_refl). specialize (Hm eq_refl). unfold F2. rewrite (filter_none _ _ Hm).
          assert (Hnf : Forall (fun f => fst (again1 f) = false) F1).
          { rewrite Forall_forall. intros f Hi. destruct (fst (again1 f)) eqn:Eb; [|reflexivity]. exfalso.
            assert (Hx : In f (filter (fun f => fst (again1 f)) F1)) by (apply filter_In; auto). rewrite Hm in Hx. exact Hx. }
          clear -Hk1 HF1 Hnf. unfold kept in Hk1. induction Hk1 as [|f0 f F0 F1 Hgr Hk IH]; [constructor|].
          inversion HF1; subst. inversion Hnf; subst. cbn [map]. constructor; [|apply IH; assumption].
          destruct (again1_ok f H1) as (_ & -> & _ & H). intros Hr. eapply grew_armed; [exact Hgr|]. apply H; assumption. }
      destruct (done && negb w) eqn:Edn.
      + exists (mkDlr sl' F2 [] gone2), (Ready None). split; [reflexivity|]. apply Hgen; [auto|].
        apply andb_true_iff in Edn. destruct Edn as [-> Hh]. apply negb_true_iff in Hh.
        split; [|reflexivity]. intros _. split; [apply Hends; reflexivity|apply Hwait; exact Hh].
      + exists (mkDlr sl' F2 [] gone2), Pending. split; [reflexivity|]. apply Hgen; [auto|].
        split; [discriminate|]. intros [H1 H2]. exfalso. apply Hends in H1. apply Hwait in H2. rewrite H1, H2 in Edn. discriminate.
    - eexists _, _. split; [reflexivity|]. split; [|discriminate].
      cbn [apply_all] in Hap2. destruct (apply_to_vec first shown) as [sh'|] eqn:Ed; [|discriminate].
      exists sh'. cbn [dlr_signal dlr_futures dlr_pending dlr_gone].
      split; [exact Hok'|]. split; [exact Hg'|]. split; [exact HL2|]. split; [exact HF2|]. split; [exact HG2|].
      split; [rewrite yielded_app; cbn [yielded]; rewrite replay_snoc, Hsh; exact Ed|].
      split; [exact Hap2|]. rewrite !last_out_snoc. split; [intros [H|H]; discriminate|]. split; discriminate.
  Qed.

  Lemma delay_run source : good_vec_script source -> forall n, exists st outs,
    run (delay_remove_poll future_of) n (delay_remove_init source) = Some (st, outs) /\ delay_inv st outs
    /\ (~ In (Ready None) outs -> forall st' o, delay_remove_poll future_of st = Some (st', o) -> delay_arms st st' o).
  Proof.
    intros Hg. apply (run_then (delay_remove_poll future_of) delay_inv delay_arms (delay_remove_init source)).
    - exists []. cbn. split; [apply slot_ok_fresh|]. split; [exact Hg|]. split; [constructor|]. split; [constructor|].
      split; [constructor|]. split; [reflexivity|]. split; [reflexivity|]. split; [reflexivity|].
      split; intros H; exfalso; exact (last_out_nil _ H).
    - exact delay_poll_ok.
  Qed.
End Delay.

Lemma delay_mirror {K} (future_of : K -> list (poll unit)) source : good_vec_script source -> forall n, exists st outs shown,
    run (delay_remove_poll future_of) n (delay_remove_init source) = Some (st, outs)
    /\ lingered (yielded (past (snd (dlr_signal st)))) (map (fun f => (dr_value f, dr_removing f)) (dlr_futures st))
                (map dr_value (dlr_gone st))
    /\ conveyed (snd (dlr_signal st)) = Some (map dr_value (filter (fun f => negb (dr_removing f)) (dlr_futures st)))
    /\ replay (yielded outs) = Some shown
    /\ (last_out outs Pending \/ last_out outs (Ready None) -> shown = map dr_value (dlr_futures st))
    /\ apply_all apply_to_vec shown (dlr_pending st) = Some (map dr_value (dlr_futures st)).
Proof.
  intros Hg n. destruct (delay_run future_of source Hg n) as (st & outs & Hr & (shown & Hok & _ & HL & _ & _ & Hsh & Ha & Hp & _) & _).
  exists st, outs, shown. split; [exact Hr|]. split; [exact HL|]. split.
  - unfold conveyed. assert (H := lingered_live _ _ _ HL). unfold delivered in H. rewrite H. f_equal. unfold live.
    generalize (dlr_futures st). intros l. induction l as [|f l IH]; [reflexivity|]. simpl.
    destruct (dr_removing f); simpl; [exact IH|f_equal; exact IH].
  - split; [exact Hsh|]. split; [|exact Ha]. intros H. rewrite (Hp H) in Ha. injection Ha as ->. reflexivity.
Qed.

Lemma delay_futures {K} (future_of : K -> list (poll unit)) source : good_vec_script source -> forall n st outs,
    run (delay_remove_poll future_of) n (delay_remove_init source) = Some (st, outs) ->
    Forall (fun f => plays (future_of (dr_value f)) (dr_future f)
              /\ if dr_removing f then exists n, past (dr_future f) = repeat Pending (S n) else past (dr_future f) = [])
           (dlr_futures st)
    /\ Forall (fun f => plays (future_of (dr_value f)) (dr_future f)
                 /\ exists n, past (dr_future f) = repeat Pending n ++ [Ready tt]) (dlr_gone st).
Proof.
  intros Hg n st outs H. destruct (delay_run future_of source Hg n) as (st1 & outs1 & Hr & (shown & _ & _ & _ & HF & HG & _) & _).
  rewrite H in Hr. injection Hr as <- <-. split; [|exact HG]. eapply Forall_impl; [|exact HF].
  intros f [Hp Hf]. split; [exact Hp|]. destruct (dr_removing f); [|exact Hf]. destruct Hf as [Hne [[|k] Hk]].
  - rewrite Hk in Hne. contradiction Hne. reflexivity.
  - exists k. exact Hk.
Qed.

Lemma delay_ends {K} (future_of : K -> list (poll unit)) source : good_vec_script source -> forall n st outs,
    run (delay_remove_poll future_of) n (delay_remove_init source) = Some (st, outs) ->
    obeys_end (past (snd (dlr_signal st)))
    /\ (last_out outs (Ready None) ->
          ended (snd (dlr_signal st)) /\ Forall (fun f => dr_removing f = false) (dlr_futures st))
    /\ (last_out outs Pending ->
          ~ (ended (snd (dlr_signal st)) /\ Forall (fun f => dr_removing f = false) (dlr_futures st))).
Proof.
  intros Hg n st outs H. destruct (delay_run future_of source Hg n)
    as (st1 & outs1 & Hr & (shown & Hok & _ & _ & _ & _ & _ & _ & _ & H1 & H2) & _).
  rewrite H in Hr. injection Hr as <- <-. split; [apply Hok|]. split; assumption.
Qed.

Lemma delay_wakes {K} (future_of : K -> list (poll unit)) source : good_vec_script source -> forall n st outs st',
    run (delay_remove_poll future_of) n (delay_remove_init source) = Some (st, outs) -> ~ In (Ready None) outs ->
    delay_remove_poll future_of st = Some (st', Pending) ->
    listening (snd (dlr_signal st)) (snd (dlr_signal st'))
    /\ Forall2 (fun f f' => dr_removing f' = true -> armed (dr_future f) (dr_future f')) (dlr_futures st) (dlr_futures st').
Proof.
  intros Hg n st outs st' H Hno Hp. destruct (delay_run future_of source Hg n) as (st1 & outs1 & Hr & _ & HT).
  rewrite H in Hr. injection Hr as <- <-. exact (HT Hno st' Pending Hp eq_refl).
Qed.
