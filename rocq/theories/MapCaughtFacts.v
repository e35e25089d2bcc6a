From Coq Require Import Sorted.
From Verif Require Import Base Spec Conc BaseFacts LoopFacts VecFacts VecDiffFacts MutVecFacts MutVecRun MapDiff MapSpec MapFacts Mpsc MutMap MutMapSpec MutMapFacts MapCaught.

Lemma msend_stop_spec {D} (d : D) sn : forall n sent cs, NoDup sn ->
  exists sn' cs', msend_stop d n sent sn cs = (sn', cs') /\ length cs' = length cs /\ NoDup sn' /\ (forall i, In i sn' -> In i sn)
    /\ (forall i, In i sn -> c_alive cs i = true -> In i sn')
    /\ forall k, nth_error cs' k = if in_dec Nat.eq_dec k (firstn (if sent then S n else n) sn) then option_map (csend_alive d) (nth_error cs k) else nth_error cs k.
Proof.
  induction sn as [|id sn IH]; intros n sent cs Hnd; cbn [msend_stop].
  - exists [], cs. split; [destruct n; reflexivity|]. split; [reflexivity|]. split; [constructor|]. split; [auto|]. split; [auto|]. intros k. destruct sent, n; reflexivity.
  - inversion Hnd as [|? ? Hni Hnd']; subst. destruct (csend_spec id d cs) as (cs1 & E1 & L1 & N1). destruct n as [|n]; cbn [msend_stop].
    + destruct sent.
      * exists (id :: sn), cs1. rewrite E1. cbn [fst]. split; [reflexivity|]. split; [exact L1|]. split; [exact Hnd|]. split; [auto|]. split; [auto|]. intros k. rewrite N1. cbn [firstn].
        destruct (Nat.eqb_spec k id) as [->|Hn], (in_dec Nat.eq_dec _ _) as [Hi|Hi]; try reflexivity; [destruct Hi; left; reflexivity|destruct Hi as [Hi|[]]; congruence].
      * exists (id :: sn), cs. repeat split; auto.
    + rewrite E1. destruct (IH n sent cs1 Hnd') as (sn2 & cs2 & E2 & L2 & D2 & I2 & A2 & N2). rewrite E2.
      assert (Hna : forall i, c_alive cs1 i = c_alive cs i).
      { intros i. unfold c_alive. rewrite N1. destruct (i =? id); [|reflexivity]. destruct (nth_error cs i); [apply calive_send|reflexivity]. }
      exists (if c_alive cs id then id :: sn2 else sn2), cs2. split; [reflexivity|]. split; [congruence|]. split; [|split; [|split]].
      * destruct (c_alive cs id); [|exact D2]. constructor; [|exact D2]. intros Hi. apply Hni, I2, Hi.
      * intros i Hi. destruct (c_alive cs id); [destruct Hi as [<-|Hi]; [left; reflexivity|]|]; right; apply I2, Hi.
      * intros i [<-|Hi] Ha; [rewrite Ha; left; reflexivity|]. rewrite <- Hna in Ha. specialize (A2 i Hi Ha). destruct (c_alive cs id); [right|]; exact A2.
      * intros k. rewrite N2, N1. replace (if sent then S (S n) else S n) with (S (if sent then S n else n)) by (destruct sent; reflexivity). cbn [firstn].
        destruct (Nat.eqb_spec k id) as [->|Hn].
        -- destruct (in_dec Nat.eq_dec id (firstn (if sent then S n else n) sn)) as [Hi|_]; [exfalso; apply Hni; rewrite <- (firstn_skipn (if sent then S n else n) sn); apply in_or_app; auto|].
           destruct (in_dec Nat.eq_dec id (id :: _)) as [_|Hx]; [reflexivity|]. destruct Hx. left. reflexivity.
        -- destruct (in_dec Nat.eq_dec k (firstn (if sent then S n else n) sn)) as [Hi|Hi], (in_dec Nat.eq_dec k (id :: firstn (if sent then S n else n) sn)) as [Hj|Hj]; try reflexivity.
           ++ destruct Hj. right. exact Hi.
           ++ destruct Hj as [Hj|Hj]; [congruence|contradiction].
Qed.

Section MapCaught.
  Context {K V : Type} (cmp : K -> K -> comparison) (TO : total_order cmp).
  Local Notation mmp := (mmap K V).

  Lemma caught_more ds m (more : list (mapdiff K V)) m' : caught_up cmp ds m -> apply_all (apply_to_map cmp) m more = Some m' -> caught_up cmp (ds ++ more) m'.
  Proof.
    intros (pre & suf & -> & Hr & Hp) Ha. exists pre, (suf ++ more). split; [now rewrite app_assoc|]. split.
    - unfold mreplay in *. rewrite apply_all_app, Hr. exact Ha.
    - destruct Hp as [Hp|(d & suf' & -> & Hd)]; [now left|]. right. exists d, (suf' ++ more). now split.
  Qed.
  Lemma caught_whole ds d (m m' : list (K * V)) : whole d = true -> apply_to_map cmp d m = Some m' -> caught_up cmp (ds ++ [d]) m'.
  Proof.
    intros Hd Ha. exists ds, [d]. split; [reflexivity|]. split; [|right; now exists d, []].
    unfold mreplay. cbn [apply_all]. destruct d; try discriminate Hd; cbn in *; exact Ha.
  Qed.

  Definition ginv (st : mmp) (b : nat -> bool) : Prop :=
    mwf cmp st /\ forall id s, nth_error (mm_chans st) id = Some s -> calive s = true -> b id = false -> caught_up cmp (ctotal s) (mm_values st).

  Lemma existsb_in id l : existsb (Nat.eqb id) l = true <-> In id l.
  Proof.
    rewrite existsb_exists. split; [intros (x & Hx & E); apply Nat.eqb_eq in E as ->; exact Hx|intros H; exists id; split; [exact H|apply Nat.eqb_refl]].
  Qed.

  Lemma ctotal_send d s : calive s = true -> ctotal (csend_alive d s) = ctotal s ++ [d : mapdiff K V].
  Proof. intros Ha. rewrite crecv_one. now apply ctotal_recv. Qed.

  Lemma apply_is_map (d : mapdiff K V) m m' : is_map cmp m -> apply_to_map cmp d m = Some m' -> is_map cmp m'.
  Proof. intros Hm E. now apply (apply_map_iff cmp TO d m m' Hm). Qed.

  Lemma gstep_inv (e : gevent K V) st b : ginv st b -> exists st', gstep cmp e st = Some st' /\ ginv st' (behind cmp e st b).
  Proof.
    intros [W Hall]. unfold behind.
    assert (Hset : forall id t t', nth_error (mm_chans st) id = Some t -> (calive t' = true -> calive t = true) -> ctotal t' = ctotal t -> ginv (mm_set_chan id t' st) b).
    { intros id t t' Ek Hal Hc. split.
      - destruct W as [W1 W2 W3 W4]. unfold mm_set_chan. constructor; cbn [mm_senders mm_chans mm_owners mm_values]; [exact W1| | |exact W4].
        + intros i Hi. rewrite (length_replace _ _ _ _ Ek). apply W2. exact Hi.
        + intros Ho i s Hs Ha. rewrite (nth_replace _ _ _ _ _ Ek) in Hs.
          destruct (Nat.eqb_spec i id) as [->|]; [injection Hs as <-; exact (W3 Ho _ _ Ek (Hal Ha))|exact (W3 Ho _ _ Hs Ha)].
      - intros i s Hs Ha Hb. cbn [mm_set_chan mm_chans mm_values] in *. rewrite (nth_replace _ _ _ _ _ Ek) in Hs.
        destruct (Nat.eqb_spec i id) as [->|]; [injection Hs as <-; rewrite Hc; exact (Hall id t Ek (Hal Ha) Hb)|exact (Hall i s Hs Ha Hb)]. }
    assert (Hid : ginv st b) by (split; assumption).
    destruct e as [[o| |id|id| |]|d n sent]; cbn [gstep mm_event].
    - destruct (Nat.ltb_spec 0 (mm_owners st)) as [Ho|Ho]; [|eauto].
      destruct (mop_event cmp TO o (mm_values st) (mwf_map _ _ W)) as (m' & ds & r & Hm' & _ & Hs & Happ & H).
      destruct (H st eq_refl W Ho) as (st' & E & _ & W' & Ev & Ec & _). rewrite E. cbn [option_map fst]. exists st'. split; [reflexivity|].
      split; [exact W'|]. rewrite Ec, Ev. intros id s Hn Ha Hb. rewrite nth_error_map in Hn. destruct (nth_error (mm_chans st) id) as [s0|] eqn:E0; [|discriminate].
      injection Hn as <-. rewrite calive_recv in Ha. rewrite ctotal_recv by exact Ha.
      assert (Q : b id = false -> caught_up cmp (ctotal s0 ++ ds) m') by (intros Hb0; eapply caught_more; [apply (Hall id s0 E0 Ha Hb0)|exact Happ]).
      destruct o as [|k|es|k v|es|k v]; try (now apply Q).
      + destruct Hs as [H1 H2]. destruct (mm_values st) as [|x m] eqn:Em; [now apply Q|]. rewrite H2 in Happ |- * by discriminate.
        cbn in Happ. injection Happ as <-. now apply (caught_whole _ MClear (x :: m) []).
      + cbn in Hs. subst ds. cbn in Happ. injection Happ as Hx. apply (caught_whole _ (MReplace m') (mm_values st)); [reflexivity|]. cbn. now rewrite Hx.
      + cbn in Hs. subst ds. cbn in Happ. injection Happ as Hx. apply (caught_whole _ (MReplace m') (mm_values st)); [reflexivity|]. cbn. now rewrite Hx.
    - destruct (Nat.ltb_spec 0 (mm_owners st)) as [Ho|Ho]; [|eauto]. eexists. split; [reflexivity|]. destruct W as [W1 W2 W3 W4]. split.
      + unfold mm_subscribe. constructor; cbn [mm_senders mm_chans mm_owners mm_values].
        * apply (NoDup_Add (a := length (mm_chans st)) (l := mm_senders st)); [rewrite <- (app_nil_r (mm_senders st)) at 1; apply Add_app|]. split; [exact W1|]. intros Hi. apply W2 in Hi. lia.
        * intros i Hi. rewrite app_length. cbn. apply in_app_iff in Hi as [Hi|[<-|[]]]; [apply W2 in Hi|]; lia.
        * intros _ i s Hs Ha. apply in_app_iff. destruct (Nat.lt_ge_cases i (length (mm_chans st))) as [Hl|Hl].
          -- left. rewrite nth_error_app1 in Hs by exact Hl. exact (W3 Ho _ _ Hs Ha).
          -- right. left. assert (i < length (mm_chans st ++ [new_chan (match mm_values st with [] => [] | _ => [MReplace (mm_values st)] end)])) by (apply nth_error_Some; congruence).
             rewrite app_length in *. cbn in *. lia.
        * exact W4.
      + intros i s Hs Ha Hb. unfold mm_subscribe in *. cbn [mm_chans mm_values] in *. unfold fupd in Hb. destruct (Nat.eqb_spec i (length (mm_chans st))) as [->|Hne].
        * rewrite nth_error_app2 in Hs by lia. rewrite Nat.sub_diag in Hs. injection Hs as <-. exists [], (ctotal (new_chan (match mm_values st with [] => [] | _ => [MReplace (mm_values st)] end))).
          split; [reflexivity|]. split; [|now left]. destruct (mm_values st) as [|x m] eqn:Em; [reflexivity|]. unfold ctotal, new_chan. cbn -[bt_from_iter].
          rewrite <- Em. rewrite (from_iter_map cmp TO) by (rewrite Em; exact W4). reflexivity.
        * assert (Hl : i < length (mm_chans st)).
          { assert (i < length (mm_chans st ++ [new_chan (match mm_values st with [] => [] | _ => [MReplace (mm_values st)] end)])) by (apply nth_error_Some; congruence). rewrite app_length in *. cbn in *. lia. }
          rewrite nth_error_app1 in Hs by exact Hl. exact (Hall i s Hs Ha Hb).
    - assert (E : (if 0 <? mm_owners st then b else b) = b) by (destruct (0 <? mm_owners st); reflexivity). rewrite E. eexists. split; [reflexivity|].
      destruct (nth_error (mm_chans st) id) as [s|] eqn:Es; [|exact Hid]. destruct (calive s) eqn:Ea; [|exact Hid]. eapply Hset; [exact Es|auto|apply ctotal_poll].
    - assert (E : (if 0 <? mm_owners st then b else b) = b) by (destruct (0 <? mm_owners st); reflexivity). rewrite E. eexists. split; [reflexivity|].
      destruct (nth_error (mm_chans st) id) as [s|] eqn:Es; [|exact Hid]. eapply Hset; [exact Es|discriminate|reflexivity].
    - assert (E : (if 0 <? mm_owners st then b else b) = b) by (destruct (0 <? mm_owners st); reflexivity). rewrite E. eexists. split; [reflexivity|].
      destruct (Nat.ltb_spec 0 (mm_owners st)); [|exact Hid]. destruct W as [W1 W2 W3 W4]. split; [constructor; cbn; [exact W1|exact W2|intros _; exact (W3 H)|exact W4]|exact Hall].
    - assert (E : (if 0 <? mm_owners st then b else b) = b) by (destruct (0 <? mm_owners st); reflexivity). rewrite E. eexists. split; [reflexivity|].
      destruct W as [W1 W2 W3 W4]. destruct (mm_owners st) as [|[|n]] eqn:Eo; [exact Hid| |].
      + split; [constructor; cbn; [constructor|intros i []|lia|exact W4]|]. cbn. intros i s Hs Ha Hb. rewrite nth_error_map in Hs.
        destruct (nth_error (mm_chans st) i) as [s0|] eqn:E0; [|discriminate]. injection Hs as <-. exact (Hall i s0 E0 Ha Hb).
      + split; [constructor; cbn; [exact W1|exact W2|intros _; apply W3; lia|exact W4]|exact Hall].
    - destruct (Nat.ltb_spec 0 (mm_owners st)) as [Ho|Ho]; [|eauto]. destruct (apply_to_map cmp d (mm_values st)) as [m'|] eqn:Ea; [|eauto].
      destruct W as [W1 W2 W3 W4].
      destruct (msend_stop_spec d (mm_senders st) n sent (mm_chans st) W1) as (sn & cs & E & L & D & I & A & N). rewrite E. eexists. split; [reflexivity|]. split.
      + constructor; cbn; [exact D| | |].
        * intros i Hi. rewrite L. apply W2, I, Hi.
        * intros _ i s Hs Hal. assert (Q : exists s0, nth_error (mm_chans st) i = Some s0 /\ calive s0 = true).
          { rewrite N in Hs. destruct (in_dec _ _ _); [|eauto]. destruct (nth_error (mm_chans st) i) as [s0|]; [|discriminate]. injection Hs as <-. rewrite calive_send in Hal. eauto. }
          destruct Q as (s0 & Q1 & Q2). apply A; [exact (W3 Ho _ _ Q1 Q2)|]. unfold c_alive. now rewrite Q1.
        * exact (apply_is_map _ _ _ W4 Ea).
      + cbn [mm_chans mm_values]. intros i s Hs Hal Hb. rewrite N in Hs. destruct (in_dec Nat.eq_dec i _) as [Hi|Hi].
        * rewrite (proj2 (existsb_in _ _) Hi) in Hb. destruct (nth_error (mm_chans st) i) as [s0|] eqn:E0; [|discriminate]. injection Hs as <-. rewrite calive_send in Hal.
          rewrite ctotal_send by exact Hal. destruct (whole d) eqn:Ew; [now apply (caught_whole _ d (mm_values st))|]. cbn in Hb. rewrite andb_true_r in Hb.
          eapply caught_more; [exact (Hall i s0 E0 Hal Hb)|]. cbn. rewrite Ea. reflexivity.
        * destruct (existsb _ _) eqn:Ex; [apply existsb_in in Ex; contradiction|discriminate].
  Qed.

  Lemma grun_inv es : forall st b, ginv st b -> exists st', grun cmp es st = Some st' /\ ginv st' (behind_run cmp es st b).
  Proof.
    induction es as [|e es IH]; intros st b H; cbn [grun behind_run]; [eauto|]. destruct (gstep_inv e st b H) as (st1 & E & H1). rewrite E. now apply IH.
  Qed.
  Lemma gnew_inv init b : ginv (mm_new cmp init) b.
  Proof. split; [apply (mm_new_inv cmp TO)|]. cbn. intros [|id] s Hs; discriminate. Qed.

  (** *** The properties *)
  Lemma g_in_step (init : list (K * V)) es : exists st, grun cmp es (mm_new cmp init) = Some st /\ is_map cmp (mm_values st)
    /\ forall id s, nth_error (mm_chans st) id = Some s -> calive s = true -> behind_run cmp es (mm_new cmp init) (fun _ => false) id = false ->
       caught_up cmp (ctotal s) (mm_values st).
  Proof.
    destruct (grun_inv es (mm_new cmp init) (fun _ => false) (gnew_inv init _)) as (st & E & W & H). exists st. split; [exact E|]. split; [apply W|]. exact H.
  Qed.

  Lemma gstep_reach init es (st : mmp) : grun cmp es (mm_new cmp init) = Some st -> mwf cmp st.
  Proof. intros E. destruct (grun_inv es (mm_new cmp init) (fun _ => false) (gnew_inv init _)) as (st' & E' & W & _). congruence. Qed.

  Lemma g_stop (init : list (K * V)) es st d n sent k id s m' : grun cmp es (mm_new cmp init) = Some st -> 0 < mm_owners st ->
    apply_to_map cmp d (mm_values st) = Some m' -> nth_error (mm_senders st) k = Some id -> nth_error (mm_chans st) id = Some s -> calive s = true ->
    exists st' s', gstep cmp (GStop d n sent) st = Some st' /\ mm_values st' = m' /\ nth_error (mm_chans st') id = Some s' /\ calive s' = true
      /\ ctotal s' = ctotal s ++ (if (k <? n) || (sent && (k =? n)) then [d] else []).
  Proof.
    intros E Ho Ea Hk Hs Hal. destruct (gstep_reach _ _ _ E) as [W1 W2 W3 W4]. cbn [gstep]. destruct (Nat.ltb_spec 0 (mm_owners st)); [|lia]. rewrite Ea.
    destruct (msend_stop_spec d (mm_senders st) n sent (mm_chans st) W1) as (sn & cs & E1 & L & D & I & A & N). rewrite E1.
    assert (Hin : In id (firstn (if sent then S n else n) (mm_senders st)) <-> k < (if sent then S n else n)).
    { split.
      - intros Hi. apply In_nth_error in Hi as (j & Hj). assert (j < length (firstn (if sent then S n else n) (mm_senders st))) by (apply nth_error_Some; congruence).
        rewrite firstn_length in *. assert (Hj' : nth_error (mm_senders st) j = Some id).
        { rewrite <- (firstn_skipn (if sent then S n else n) (mm_senders st)). rewrite nth_error_app1 by (rewrite firstn_length; lia). exact Hj. }
        assert (j = k); [|lia]. apply (proj1 (NoDup_nth_error (mm_senders st)) W1); [lia|congruence].
      - intros Hl. apply (nth_error_In _ k). assert (k < length (mm_senders st)) by (apply nth_error_Some; congruence).
        rewrite <- (firstn_skipn (if sent then S n else n) (mm_senders st)) in Hk. rewrite nth_error_app1 in Hk by (rewrite firstn_length; lia). exact Hk. }
    assert (Eb : (k <? n) || (sent && (k =? n)) = true <-> k < (if sent then S n else n)).
    { rewrite orb_true_iff, andb_true_iff, Nat.ltb_lt, Nat.eqb_eq. destruct sent; [|intuition; try lia; discriminate]. split; [intros [?|[_ ?]]; lia|]. intros Hl. assert (k < n \/ k = n) by lia. tauto. }
    exists (mkMap m' sn cs (mm_owners st)). cbn [mm_chans mm_values]. rewrite N, Hs. destruct (in_dec Nat.eq_dec _ _) as [Hi|Hi].
    - cbn [option_map]. eexists. split; [reflexivity|]. split; [reflexivity|]. split; [reflexivity|]. rewrite calive_send. split; [exact Hal|].
      rewrite (proj2 Eb (proj1 Hin Hi)). now apply ctotal_send.
    - exists s. split; [reflexivity|]. split; [reflexivity|]. split; [reflexivity|]. split; [exact Hal|].
      destruct ((k <? n) || (sent && (k =? n))) eqn:Q; [destruct (Hi (proj2 Hin (proj1 Eb eq_refl)))|]. now rewrite app_nil_r.
  Qed.

  (** Without such panics nobody is behind. *)
  Lemma g_calm (es : list (gevent K V)) : forall st b id, Forall (fun e => match e with GEvent _ => True | GStop _ _ _ => False end) es -> b id = false -> behind_run cmp es st b id = false.
  Proof.
    induction es as [|e es IH]; intros st b id F Hb; cbn [behind_run]; [exact Hb|]. inversion F; subst. destruct (gstep cmp e st); [|exact Hb].
    apply IH; [assumption|]. unfold behind. destruct (0 <? mm_owners st); [|exact Hb]. destruct e as [[o| |i|i| |]|]; try exact Hb; try contradiction.
    - destruct o; try exact Hb; try reflexivity. destruct (mm_values st); [exact Hb|reflexivity].
    - unfold fupd. destruct (id =? _); [reflexivity|exact Hb].
  Qed.
End MapCaught.
