(** After a diff that says everything, all subscribers are in step again (C75). *)
From Verif Require Import LoopFacts Base Spec BaseFacts VecDiff VecSpec VecFacts VecDiffFacts MutVec MutVecSpec MutVecFacts MutVecRun Caught CaughtFacts.

Section Back.
  Context {A : Type}.
  Variable pre : nat -> list (vecdiff A).

  (** The same, up to what the subscribers got before. *)
  Definition later (ss ts : list (sub A)) : Prop :=
    length ss = length ts /\ forall i s t, nth_error ss i = Some s -> nth_error ts i = Some t -> alive s = alive t /\ total s = pre i ++ total t.
  Record like (st sh : mvec A) : Prop := {
    lk_values : values st = values sh; lk_senders : senders st = senders sh; lk_owners : owners st = owners sh;
    lk_poisoned : poisoned st = poisoned sh; lk_subs : later (subs st) (subs sh) }.

  Lemma later_nth ss ts i : later ss ts -> match nth_error ss i, nth_error ts i with Some s, Some t => alive s = alive t /\ total s = pre i ++ total t | None, None => True | _, _ => False end.
  Proof.
    intros [L H]. destruct (nth_error ss i) as [s|] eqn:Es, (nth_error ts i) as [t|] eqn:Et; [eauto| | |exact I].
    - apply nth_error_None in Et. assert (i < length ss) by (apply nth_error_Some; congruence). lia.
    - apply nth_error_None in Es. assert (i < length ts) by (apply nth_error_Some; congruence). lia.
  Qed.
  Lemma later_set ss ts i s t s' t' : later ss ts -> nth_error ss i = Some s -> nth_error ts i = Some t -> alive s' = alive t' -> total s' = pre i ++ total t' ->
    later (firstn i ss ++ s' :: skipn (i + 1) ss) (firstn i ts ++ t' :: skipn (i + 1) ts).
  Proof.
    intros [L H] Es Et Ha Ht. split; [rewrite (length_replace _ _ _ _ Es), (length_replace _ _ _ _ Et); exact L|].
    intros k x y Hx Hy. rewrite (nth_replace _ _ _ _ _ Es) in Hx. rewrite (nth_replace _ _ _ _ _ Et) in Hy. destruct (Nat.eqb_spec k i) as [->|]; [|eauto].
    injection Hx as <-. injection Hy as <-. auto.
  Qed.
  Lemma later_map ss ts (f g : sub A -> sub A) : later ss ts -> (forall s t, alive s = alive t -> alive (f s) = alive (g t)) ->
    (forall s, total (f s) = total s) -> (forall s, total (g s) = total s) -> later (map f ss) (map g ts).
  Proof.
    intros [L H] Ha Hf Hg. split; [rewrite !map_length; exact L|]. intros i s t Hs Ht. rewrite nth_error_map in Hs, Ht.
    destruct (nth_error ss i) as [s0|] eqn:Es; [|discriminate]. destruct (nth_error ts i) as [t0|] eqn:Et; [|discriminate]. injection Hs as <-. injection Ht as <-.
    destruct (H _ _ _ Es Et) as [H1 H2]. rewrite Hf, Hg. auto.
  Qed.

  Lemma total_deliver d (s : sub A) : total (deliver d s) = total s ++ [d].
  Proof. unfold total, deliver. cbn. apply app_assoc. Qed.
  Lemma later_send id d ss ts : later ss ts -> later (fst (unbounded_send id d ss)) (fst (unbounded_send id d ts)) /\ snd (unbounded_send id d ss) = snd (unbounded_send id d ts).
  Proof.
    intros L. pose proof (later_nth _ _ id L) as N. unfold unbounded_send. destruct (nth_error ss id) as [s|] eqn:Es, (nth_error ts id) as [t|] eqn:Et; try contradiction; [|auto].
    destruct N as [Ha Ht]. rewrite Ha. destruct (alive t) eqn:E; [|auto]. cbn. split; [|reflexivity]. eapply later_set; try eassumption.
    - cbn. congruence.
    - rewrite !total_deliver, Ht, app_assoc. reflexivity.
  Qed.
  Lemma later_retain d sn : forall ss ts, later ss ts -> fst (retain_send d sn ss) = fst (retain_send d sn ts) /\ later (snd (retain_send d sn ss)) (snd (retain_send d sn ts)).
  Proof.
    induction sn as [|id sn IH]; intros ss ts L; cbn [retain_send]; [auto|]. destruct (later_send id d ss ts L) as [L1 E1].
    destruct (unbounded_send id d ss) as [ss1 ok], (unbounded_send id d ts) as [ts1 ok']. cbn in L1, E1. subst ok'. destruct (IH _ _ L1) as [E2 L2].
    destruct (retain_send d sn ss1), (retain_send d sn ts1). cbn in *. subst. auto.
  Qed.
  Lemma later_stop d sn : forall n sent ss ts, later ss ts -> fst (send_stop d n sent sn ss) = fst (send_stop d n sent sn ts) /\ later (snd (send_stop d n sent sn ss)) (snd (send_stop d n sent sn ts)).
  Proof.
    induction sn as [|id sn IH]; intros n sent ss ts L; destruct n as [|n]; cbn [send_stop]; auto.
    - cbn. split; [reflexivity|]. destruct sent; [apply later_send, L|exact L].
    - destruct (later_send id d ss ts L) as [L1 E1].
      destruct (unbounded_send id d ss) as [ss1 ok], (unbounded_send id d ts) as [ts1 ok']. cbn in L1, E1. subst ok'. destruct (IH n sent _ _ L1) as [E2 L2].
      destruct (send_stop d n sent sn ss1), (send_stop d n sent sn ts1). cbn in *. subst. auto.
  Qed.
  Lemma like_notify d st sh : like st sh -> like (notify d st) (notify d sh).
  Proof.
    intros [H1 H2 H3 H4 H5]. unfold notify. rewrite <- H2. destruct (later_retain d (senders st) _ _ H5) as [E L].
    destruct (retain_send d (senders st) (subs st)), (retain_send d (senders st) (subs sh)). cbn in *. subst. constructor; cbn; auto.
  Qed.
  Lemma like_all ds : forall st sh, like st sh -> like (notify_all ds st) (notify_all ds sh).
  Proof. induction ds as [|d ds IH]; intros st sh L; [exact L|]. cbn. apply IH, like_notify, L. Qed.
  Lemma like_set v st sh : like st sh -> like (set_values v st) (set_values v sh).
  Proof. intros [H1 H2 H3 H4 H5]. constructor; cbn; auto. Qed.
  Lemma like_op o st sh : like st sh ->
    (exists s' t' r, mv_op o st = Done s' r /\ mv_op o sh = Done t' r /\ like s' t') \/ (exists s' t', mv_op o st = Panic s' /\ mv_op o sh = Panic t' /\ like s' t').
  Proof.
    intros L. pose proof (lk_values _ _ L) as V. destruct (op_cases o (values st)) as [(_ & v & H)|(_ & v & ds & r & H & _)].
    - right. exists (set_values v st), (set_values v sh). rewrite (H st eq_refl), (H sh (eq_sym V)). split; [reflexivity|]. split; [reflexivity|]. apply like_set, L.
    - left. exists (set_values v (notify_all ds st)), (set_values v (notify_all ds sh)), r. rewrite (H st eq_refl), (H sh (eq_sym V)). split; [reflexivity|]. split; [reflexivity|].
      apply like_set, like_all, L.
  Qed.
  Lemma like_poison st sh : like st sh -> like (poison st) (poison sh).
  Proof. intros [H1 H2 H3 H4 H5]. constructor; cbn; auto. Qed.

  Lemma total_close (s : sub A) : total (close_sub s) = total s.
  Proof. reflexivity. Qed.

  Lemma like_event e st sh : pre (length (subs st)) = [] -> like st sh -> like (mv_event e st) (mv_event e sh).
  Proof.
    intros Hpre L. pose proof L as [H1 H2 H3 H4 H5]. destruct e as [o| |k|k| |]; cbn [mv_event]; rewrite <- ?H3, <- ?H4.
    - destruct (_ && _); [|exact L]. destruct (like_op o st sh L) as [(s' & t' & r & -> & -> & L')|(s' & t' & -> & -> & L')]; [exact L'|apply like_poison, L'].
    - destruct (_ && _); [|exact L]. unfold mv_subscribe. pose proof (proj1 H5) as HL. constructor; cbn [values senders subs owners poisoned]; auto; [rewrite H2, HL; reflexivity|].
      rewrite <- H1. split; [rewrite !app_length; cbn; lia|]. intros i s t Hs Ht. destruct (Nat.lt_ge_cases i (length (subs st))) as [Hi|Hi].
      + rewrite nth_error_app1 in Hs by lia. rewrite nth_error_app1 in Ht by lia. eapply (proj2 H5); eassumption.
      + rewrite nth_error_app2 in Hs by lia. rewrite nth_error_app2 in Ht by lia. rewrite HL in Hs. destruct (i - length (subs sh)) as [|m] eqn:Em; [|destruct m; discriminate].
        cbn in Hs, Ht. assert (i = length (subs st)) as -> by lia. rewrite Hpre. injection Hs as <-. injection Ht as <-. auto.
    - pose proof (later_nth _ _ k H5) as N. destruct (nth_error (subs st) k) as [s|] eqn:Es, (nth_error (subs sh) k) as [t|] eqn:Et; try contradiction; [|exact L].
      destruct N as [Ha Ht]. rewrite Ha. destruct (alive t) eqn:E; [|exact L]. constructor; cbn [set_sub values senders subs owners poisoned]; auto.
      eapply later_set; try eassumption; [rewrite !alive_poll; congruence|rewrite !total_poll; exact Ht].
    - pose proof (later_nth _ _ k H5) as N. destruct (nth_error (subs st) k) as [s|] eqn:Es, (nth_error (subs sh) k) as [t|] eqn:Et; try contradiction; [|exact L].
      destruct N as [Ha Ht]. constructor; cbn [set_sub values senders subs owners poisoned]; auto. eapply later_set; [exact H5|exact Es|exact Et|reflexivity|exact Ht].
    - destruct (0 <? owners st); [|exact L]. constructor; cbn; auto.
    - destruct (owners st) as [|[|n]] eqn:Eo; [exact L| |]; constructor; cbn [values senders subs owners poisoned]; auto.
      apply later_map; auto.
  Qed.

  Lemma like_step e st sh : pre (length (subs st)) = [] -> like st sh -> like (kstep e st) (kstep e sh).
  Proof.
    intros Hpre L. pose proof L as [H1 H2 H3 H4 H5]. destruct e as [e|o|f|d n sent]; cbn [kstep]; rewrite <- ?H3, <- ?H4.
    - apply like_event; assumption.
    - destruct (_ && _); [|exact L]. destruct (like_op o st sh L) as [(s' & t' & r & -> & -> & L')|(s' & t' & -> & -> & L')]; exact L'.
    - destruct (_ && _); [|exact L]. rewrite <- H1. destruct (retain_stop f (values st)) as [kept [|]]; [apply like_set, L|apply like_event; assumption].
    - destruct (_ && _); [|exact L]. rewrite <- H1. destruct (apply_to_vec d (values st)) as [v|]; [|exact L]. rewrite <- H2.
      destruct (later_stop d (senders st) n sent _ _ H5) as [E L']. destruct (send_stop d n sent (senders st) (subs st)), (send_stop d n sent (senders st) (subs sh)). cbn in *. subst.
      constructor; cbn; auto.
  Qed.
  Lemma like_harm e st sh : like st sh -> harmful e st <-> harmful e sh.
  Proof. intros [H1 H2 _ _ _]. destruct e; cbn; rewrite ?H1, ?H2; reflexivity. Qed.
  Lemma like_wf st sh : like st sh -> wf sh -> wf st.
  Proof.
    intros [H1 H2 H3 H4 H5] [W1 W2 W3]. constructor; rewrite ?H2, ?H3; [exact W1| |].
    - rewrite (proj1 H5). exact W2.
    - intros Ho i s Hs Ha. pose proof (later_nth _ _ i H5) as N. rewrite Hs in N. destruct (nth_error (subs sh) i) as [t|] eqn:Et; [|contradiction].
      eapply W3; [exact Ho|exact Et|]. destruct N. congruence.
  Qed.
End Back.

(** Subscribers that begin now, with the contents given by [d]. *)
Definition anew {A} (d : vecdiff A) (s : sub A) : sub A := mkSub [d] [] (alive s) false false.
Definition renew {A} (d : vecdiff A) (st : mvec A) : mvec A := mkVec (values st) (senders st) (map (anew d) (subs st)) (owners st) (poisoned st).

Lemma renew_inv {A} (d : vecdiff A) (st : mvec A) : wf st -> replay [d] = Some (values st) -> inv (renew d st).
Proof.
  intros [W1 W2 W3] R. split.
  - constructor; cbn; [exact W1|rewrite map_length; exact W2|]. intros Ho i s Hs Ha. rewrite nth_error_map in Hs. destruct (nth_error (subs st) i) as [s0|] eqn:E; [|discriminate].
    injection Hs as <-. eapply W3; eassumption.
  - intros i s Hs Ha. cbn in Hs. rewrite nth_error_map in Hs. destruct (nth_error (subs st) i) as [s0|]; [|discriminate]. injection Hs as <-. cbn. split; [|split; [|split]].
    + exists (values st). split; [exact R|reflexivity].
    + discriminate.
    + intros Hl. destruct (last_out_nil _ Hl).
    + tauto.
Qed.

(** Nothing that happens makes the MutableVec forget subscribers. *)
Lemma kstep_wf_any {A} (e : kevent A) st : wf st -> wf (kstep e st).
Proof.
  intros W. assert (Ev : forall e, wf (mv_event e st)).
  { intros e0. set (sh := mkVec (values st) (senders st) (map (anew (Replace (values st))) (subs st)) (owners st) (poisoned st)).
    assert (I : inv sh) by (apply renew_inv; [exact W|reflexivity]).
    (* the totals do not matter for [wf]: compare with the state itself *)
    destruct e0 as [o| |k|k| |]; cbn [mv_event].
    - destruct ((0 <? owners st) && negb (poisoned st)) eqn:Eb; [|exact W]. apply andb_prop in Eb. destruct Eb as [E1 E2]. apply Nat.ltb_lt in E1.
      destruct (op_cases o (values st)) as [(_ & v & H)|(_ & v & ds & r & H & _)]; rewrite (H st eq_refl).
      + destruct W as [W1 W2 W3]. constructor; cbn; assumption.
      + apply wf_set, notify_all_spec; assumption.
    - destruct ((0 <? owners st) && negb (poisoned st)) eqn:Eb; [|exact W]. apply (event_inv ESubscribe) in I. destruct I as [[X1 X2 X3] _].
      cbn [mv_event sh owners poisoned] in X1, X2, X3. rewrite Eb in X1, X2, X3. cbn [mv_subscribe sh senders subs owners values] in X1, X2, X3. rewrite map_length in X1, X2, X3.
      constructor; cbn [mv_subscribe senders subs owners].
      + exact X1.
      + intros i Hi. specialize (X2 i Hi). rewrite app_length in *. rewrite map_length in X2. exact X2.
      + intros Ho i s Hs Ha. apply in_app_iff. destruct (Nat.lt_ge_cases i (length (subs st))) as [Hlt|Hge].
        * rewrite nth_error_app1 in Hs by exact Hlt. left. eapply (wf_alive _ W); eassumption.
        * right. left. assert (i < length (subs st ++ [mkSub (if 0 <? length (values st) then [Replace (values st)] else []) [] true false false])) as Hl by (apply nth_error_Some; rewrite Hs; discriminate).
          rewrite app_length in Hl. cbn in Hl. lia.
    - destruct (nth_error (subs st) k) as [t|] eqn:Ek; [|exact W]. destruct (alive t) eqn:Ea; [|exact W]. destruct W as [W1 W2 W3]. constructor; cbn [set_sub senders subs owners]; [exact W1| |].
      + intros i Hi. rewrite (length_replace _ _ _ _ Ek). apply W2, Hi.
      + intros Ho i s Hs Ha. rewrite (nth_replace _ _ _ _ _ Ek) in Hs. destruct (Nat.eqb_spec i k) as [->|]; [eapply W3; [exact Ho|exact Ek|exact Ea]|eapply W3; eassumption].
    - destruct (nth_error (subs st) k) as [t|] eqn:Ek; [|exact W]. destruct W as [W1 W2 W3]. constructor; cbn [set_sub senders subs owners]; [exact W1| |].
      + intros i Hi. rewrite (length_replace _ _ _ _ Ek). apply W2, Hi.
      + intros Ho i s Hs Ha. rewrite (nth_replace _ _ _ _ _ Ek) in Hs. destruct (Nat.eqb_spec i k) as [->|]; [injection Hs as <-; discriminate Ha|eapply W3; eassumption].
    - destruct (Nat.ltb_spec 0 (owners st)); [|exact W]. destruct W as [W1 W2 W3]. constructor; cbn; [exact W1|exact W2|]. intros _. apply W3. assumption.
    - destruct (owners st) as [|[|n]] eqn:Eo; [exact W| |].
      + constructor; cbn; [constructor|intros i []|lia].
      + destruct W as [W1 W2 W3]. constructor; cbn; [exact W1|exact W2|]. intros _. apply W3. lia. }
  destruct e as [e|o|f|d n sent]; cbn [kstep]; [apply Ev| | |].
  - destruct ((0 <? owners st) && negb (poisoned st)) eqn:Eb; [|exact W]. apply andb_prop in Eb. destruct Eb as [E1 E2]. apply Nat.ltb_lt in E1.
    destruct (op_cases o (values st)) as [(_ & v & H)|(_ & v & ds & r & H & _)]; rewrite (H st eq_refl); [apply wf_set, W|apply wf_set, notify_all_spec; assumption].
  - destruct (_ && _); [|exact W]. destruct (retain_stop f (values st)) as [kept [|]]; [apply wf_set, W|apply Ev].
  - destruct ((0 <? owners st) && negb (poisoned st)) eqn:Eb; [|exact W]. apply andb_prop in Eb. destruct Eb as [E1 E2]. apply Nat.ltb_lt in E1.
    destruct (apply_to_vec d (values st)) as [v|]; [|exact W].
    destruct (send_stop_spec d (senders st) n sent (subs st) (wf_nodup _ W)) as (sn' & ss' & -> & HL & ND & Hin & Hal & HN). constructor; cbn.
    + exact ND.
    + intros i Hi. rewrite HL. apply W, Hin, Hi.
    + intros _ i s Hs Ha. rewrite HN in Hs.
      assert (exists s0, nth_error (subs st) i = Some s0 /\ alive s0 = true) as (s0 & E0 & A0).
      { destruct (in_dec Nat.eq_dec i _); [|eauto]. destruct (nth_error (subs st) i) as [s0|]; [|discriminate]. cbn in Hs. injection Hs as <-. rewrite alive_send in Ha. eauto. }
      apply Hal; [eapply (wf_alive _ W); eassumption|]. unfold is_alive. rewrite E0. exact A0.
Qed.
Lemma krun_wf {A} (v : list A) es : wf (krun es (mv_new v)).
Proof. induction es as [|e es IH] using rev_ind; [apply (proj1 (new_inv v))|]. rewrite krun_snoc. apply kstep_wf_any, IH. Qed.

(** What a subscriber has been sent stays. *)
Definition more {A} (ss ss' : list (sub A)) : Prop := forall i s, nth_error ss i = Some s ->
  exists s' ds, nth_error ss' i = Some s' /\ total s' = total s ++ ds /\ (alive s' = true -> alive s = true).
Lemma more_refl {A} (ss : list (sub A)) : more ss ss.
Proof. intros i s H. exists s, []. rewrite app_nil_r. auto. Qed.
Lemma more_set {A} (ss : list (sub A)) k t t' : nth_error ss k = Some t -> total t' = total t -> (alive t' = true -> alive t = true) -> more ss (firstn k ss ++ t' :: skipn (k + 1) ss).
Proof.
  intros Ek Ht Ha i s Hs. rewrite (nth_replace _ _ _ _ _ Ek). destruct (Nat.eqb_spec i k) as [->|].
  - assert (s = t) as -> by congruence. exists t', []. rewrite app_nil_r. auto.
  - exists s, []. rewrite app_nil_r. auto.
Qed.
Lemma more_recv {A} ds (ss : list (sub A)) : more ss (map (recv ds) ss).
Proof.
  intros i s Hs. rewrite nth_error_map, Hs. cbn. destruct (alive s) eqn:Ea.
  - exists (recv ds s), ds. rewrite (total_recv _ _ Ea). auto.
  - exists (recv ds s), []. rewrite app_nil_r, alive_recv. split; [reflexivity|]. split; [|congruence]. unfold recv. rewrite Ea. reflexivity.
Qed.
Lemma kstep_more {A} (e : kevent A) st : wf st -> more (subs st) (subs (kstep e st)).
Proof.
  intros W. assert (Op : forall o, 0 < owners st -> match mv_op o st with Done s' _ | Panic s' => more (subs st) (subs s') end).
  { intros o Ho. destruct (op_cases o (values st)) as [(_ & v & H)|(_ & v & ds & r & H & _)]; rewrite (H st eq_refl); cbn; [apply more_refl|].
    destruct (notify_all_spec ds st W Ho) as [_ ->]. apply more_recv. }
  assert (Ev : forall e, more (subs st) (subs (mv_event e st))).
  { intros e0. destruct e0 as [o| |k|k| |]; cbn [mv_event].
    - destruct ((0 <? owners st) && negb (poisoned st)) eqn:Eb; [|apply more_refl]. apply andb_prop in Eb. destruct Eb as [E1 E2]. apply Nat.ltb_lt in E1.
      specialize (Op o E1). destruct (mv_op o st); exact Op.
    - destruct (_ && _); [|apply more_refl]. cbn. intros i s Hs. exists s, []. rewrite app_nil_r. split; [|auto]. rewrite nth_error_app1; [exact Hs|apply nth_error_Some; congruence].
    - destruct (nth_error (subs st) k) as [t|] eqn:Ek; [|apply more_refl]. destruct (alive t) eqn:Ea; [|apply more_refl]. cbn [set_sub subs]. apply (more_set _ _ _ _ Ek); [apply total_poll|auto].
    - destruct (nth_error (subs st) k) as [t|] eqn:Ek; [|apply more_refl]. cbn [set_sub subs]. apply (more_set _ _ _ _ Ek); [reflexivity|discriminate].
    - destruct (0 <? owners st); apply more_refl.
    - destruct (owners st) as [|[|n]]; [apply more_refl| |apply more_refl]. cbn. intros i s Hs. rewrite nth_error_map, Hs. exists (close_sub s), []. rewrite app_nil_r. auto. }
  destruct e as [e|o|f|d n sent]; cbn [kstep]; [apply Ev| | |].
  - destruct ((0 <? owners st) && negb (poisoned st)) eqn:Eb; [|apply more_refl]. apply andb_prop in Eb. destruct Eb as [E1 E2]. apply Nat.ltb_lt in E1. specialize (Op o E1). destruct (mv_op o st); exact Op.
  - destruct (_ && _); [|apply more_refl]. destruct (retain_stop f (values st)) as [kept [|]]; [apply more_refl|apply Ev].
  - destruct (_ && _); [|apply more_refl]. destruct (apply_to_vec d (values st)) as [v|]; [|apply more_refl].
    destruct (send_stop_spec d (senders st) n sent (subs st) (wf_nodup _ W)) as (sn' & ss' & -> & HL & ND & Hin & Hal & HN). cbn. intros i s Hs. rewrite HN, Hs.
    destruct (in_dec Nat.eq_dec i _); [|exists s, []; rewrite app_nil_r; auto]. cbn. exists (send_alive d s). unfold send_alive. destruct (alive s) eqn:Ea.
    + exists [d]. rewrite total_deliver. auto.
    + exists []. rewrite app_nil_r. split; [reflexivity|]. split; [reflexivity|congruence].
Qed.
Lemma more_length {A} (ss ss' : list (sub A)) : more ss ss' -> length ss <= length ss'.
Proof.
  intros M. destruct (Nat.le_gt_cases (length ss) (length ss')) as [|H]; [assumption|]. destruct (nth_error ss (length ss')) as [s|] eqn:E.
  - destruct (M _ _ E) as (s' & ds & E' & _). assert (length ss' < length ss') by (apply nth_error_Some; congruence). lia.
  - apply nth_error_None in E. lia.
Qed.

Lemma says_all_acts {A} (o : op A) v d : says_all o v = Some d -> exists v' r, acts v (mv_op o) v' [d] r /\ replay [d] = Some v'.
Proof.
  assert (R : forall vs, acts v (fun st => with_ret (fun _ => RUnit) (mv_replace_clone vs st)) vs [Replace vs] RUnit).
  { intros vs st E. unfold with_ret. rewrite (replace_clone_acts v vs st E). reflexivity. }
  assert (C : acts v (fun st => with_ret (fun _ => RUnit) (mv_clear st)) [] (match v with [] => [] | _ => [Clear] end) RUnit).
  { intros st E. unfold with_ret. rewrite (clear_acts v st E). reflexivity. }
  destruct o; cbn [says_all]; intros H; try discriminate.
  - destruct v as [|x v]; [discriminate|]. injection H as <-. exists [], RUnit. split; [exact C|reflexivity].
  - injection H as <-. exists vs, RUnit. split; [exact (R vs)|reflexivity].
  - injection H as <-. exists vs, RUnit. split; [exact (R vs)|reflexivity].
  - destruct d0; try discriminate.
    + injection H as <-. eexists _, RUnit. split; [exact (R _)|reflexivity].
    + destruct v as [|x v]; [discriminate|]. injection H as <-. exists [], RUnit. split; [exact C|reflexivity].
Qed.

Lemma caught_back {A} (v : list A) es1 o d es2 id s : let st1 := krun es1 (mv_new v) in let st2 := krun (es1 ++ KEvent (EOp o) :: es2) (mv_new v) in
  0 < owners st1 -> poisoned st1 = false -> says_all o (values st1) = Some d ->
  (forall es e es', es2 = es ++ e :: es' -> ~ harmful e (krun (es1 ++ KEvent (EOp o) :: es) (mv_new v))) ->
  nth_error (subs st2) id = Some s -> alive s = true -> poisoned st2 = false ->
  exists pre suf, total s = pre ++ suf /\ replay suf = Some (values st2)
    /\ (id < length (subs st1) -> exists suf', suf = d :: suf') /\ (length (subs st1) <= id -> pre = []).
Proof.
  intros st1 st2 Ho Hp Hd Hh Hs Ha Hp2.
  set (pre := fun i => match nth_error (subs st1) i with Some t => total t | None => [] end).
  set (sta := kstep (KEvent (EOp o)) st1).
  destruct (says_all_acts o (values st1) d Hd) as (w & r & Hact & Hrep).
  assert (Ea : sta = set_values w (notify_all [d] st1)).
  { unfold sta. cbn [kstep mv_event]. rewrite Hp, (Hact st1 eq_refl). destruct (Nat.ltb_spec 0 (owners st1)); [reflexivity|lia]. }
  assert (W1 : wf st1) by apply krun_wf. destruct (notify_all_spec [d] st1 W1 Ho) as [W2 S2].
  assert (Wa : wf sta) by (rewrite Ea; apply wf_set, W2).
  assert (Sa : subs sta = map (recv [d]) (subs st1)) by (rewrite Ea; exact S2).
  assert (Va : values sta = w) by (rewrite Ea; reflexivity).
  assert (Es : sta = kstep (KEvent (EOp o)) st1) by reflexivity. clearbody sta.
  (* dead subscribers get nothing: give their copies nothing either *)
  set (sh0 := mkVec (values sta) (senders sta) (map (fun t => if alive t then anew d t else mkSub [] [] false false false) (subs sta)) (owners sta) (poisoned sta)).
  assert (I0 : inv sh0).
  { destruct (renew_inv d sta Wa) as [[X1 X2 X3] X4]; [rewrite Va; exact Hrep|]. split.
    - constructor; cbn; [exact X1|cbn in X2; rewrite map_length in *; exact X2|]. intros Ho' i t Ht At. rewrite nth_error_map in Ht. destruct (nth_error (subs sta) i) as [t0|] eqn:Et; [|discriminate].
      cbn in Ht. destruct (alive t0) eqn:At0; injection Ht as <-; [|discriminate]. eapply (wf_alive _ Wa); eassumption.
    - intros i t Ht At. cbn in Ht. rewrite nth_error_map in Ht. destruct (nth_error (subs sta) i) as [t0|] eqn:Et; [|discriminate].
      cbn in Ht. destruct (alive t0) eqn:At0; injection Ht as <-; [|discriminate]. apply (X4 i (anew d t0)); [|exact At]. cbn. rewrite nth_error_map, Et. reflexivity. }
  assert (L0 : like pre sta sh0).
  { constructor; try reflexivity. split; [cbn; rewrite map_length; reflexivity|]. intros i x y Hx Hy. cbn in Hy. rewrite nth_error_map, Hx in Hy. cbn in Hy. rewrite Sa, nth_error_map in Hx.
    unfold pre. destruct (nth_error (subs st1) i) as [t|] eqn:Et; [|discriminate]. cbn in Hx. injection Hx as <-. rewrite alive_recv in Hy.
    destruct (alive t) eqn:At; injection Hy as <-.
    - split; [cbn; rewrite alive_recv; reflexivity|]. rewrite (total_recv _ _ At). reflexivity.
    - split; [rewrite alive_recv; exact At|]. unfold recv. rewrite At. cbn. symmetry. apply app_nil_r. }
  assert (E2 : st2 = krun es2 sta).
  { rewrite Es. unfold st2, st1, krun. rewrite fold_left_app. reflexivity. }
  assert (K : forall es es', es2 = es ++ es' -> exists sh, inv sh /\ like pre (krun es sta) sh /\ length (subs st1) <= length (subs (krun es sta))
      /\ (forall i t, nth_error (subs sh) i = Some t -> alive t = true -> i < length (subs st1) -> exists ds, total t = d :: ds)).
  { induction es as [|e es IH] using rev_ind; intros es' Ee.
    - exists sh0. split; [exact I0|]. split; [exact L0|]. change (krun [] sta) with sta. split; [cbn; rewrite Sa, map_length; lia|].
      intros i t Ht At _. cbn in Ht. rewrite nth_error_map in Ht. destruct (nth_error (subs sta) i) as [t0|]; [|discriminate]. cbn in Ht. destruct (alive t0); injection Ht as <-; [|discriminate].
      exists []. reflexivity.
    - rewrite <- app_assoc in Ee. cbn in Ee. destruct (IH _ Ee) as (sh & I & L & G & T). rewrite krun_snoc.
      assert (Ek : krun es sta = krun (es1 ++ KEvent (EOp o) :: es) (mv_new v)) by (rewrite Es; unfold st1, krun; rewrite fold_left_app; reflexivity).
      assert (Hn : ~ harmful e (krun es sta)) by (rewrite Ek; exact (Hh _ _ _ Ee)).
      exists (kstep e sh). split; [apply kstep_wf; [exact I|]|split; [|split]].
      + intros Hx. apply Hn. apply (like_harm _ _ _ _ L), Hx.
      + apply like_step; [|exact L]. unfold pre. rewrite (proj2 (nth_error_None _ _) G). reflexivity.
      + assert (wf (krun es sta)) as Wk by (rewrite Ek; apply krun_wf). pose proof (more_length _ _ (kstep_more e _ Wk)). lia.
      + intros i t Ht At Hi. destruct (nth_error (subs sh) i) as [t0|] eqn:Et0; [|apply nth_error_None in Et0; rewrite <- (proj1 (lk_subs _ _ _ L)) in Et0; lia].
        destruct (kstep_more e sh (proj1 I) i t0 Et0) as (t1 & ds & E1 & E3 & E4). assert (t1 = t) as -> by congruence. destruct (T i t0 Et0 (E4 At) Hi) as (ds' & E5).
        exists (ds' ++ ds). rewrite E3, E5. reflexivity. }
  destruct (K es2 []) as (sh & I & L & G & T); [rewrite app_nil_r; reflexivity|]. rewrite <- E2 in L. pose proof L as [V _ _ P H5].
  pose proof (later_nth _ _ _ id H5) as N. rewrite Hs in N. destruct (nth_error (subs sh) id) as [t|] eqn:Et; [|contradiction]. destruct N as [At Tt].
  destruct I as [_ I]. destruct (I id t Et) as ((w' & R1 & R2) & _); [congruence|].
  exists (pre id), (total t). split; [exact Tt|]. split; [rewrite R1, R2; [congruence|congruence]|]. split.
  - intros Hi. apply (T id t Et); [congruence|exact Hi].
  - intros Hi. unfold pre. rewrite (proj2 (nth_error_None _ _) Hi). reflexivity.
Qed.
