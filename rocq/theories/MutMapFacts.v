(** Proofs for MutableBTreeMap. *)
From Coq Require Import Sorted.
From Verif Require Import Base Spec BaseFacts LoopFacts VecFacts VecDiffFacts MutVecFacts MutVecRun MapDiff MapSpec MapFacts Mpsc MutMap MutMapSpec.

(** ** Sending *)
Section Send.
  Context {D : Type}.
  Implicit Types c : chan D.

  Definition csend_alive (d : D) c : chan D := if calive c then cdeliver d c else c.
  Definition c_alive (cs : list (chan D)) (id : nat) : bool :=
    match nth_error cs id with Some s => calive s | None => false end.

  Lemma calive_send d c : calive (csend_alive d c) = calive c.
  Proof. unfold csend_alive. destruct (calive c) eqn:E; exact E. Qed.

  Lemma csend_spec id (d : D) cs : exists cs', csend id d cs = (cs', c_alive cs id) /\ length cs' = length cs
    /\ forall k, nth_error cs' k = if k =? id then option_map (csend_alive d) (nth_error cs k) else nth_error cs k.
  Proof.
    unfold csend, c_alive. destruct (nth_error cs id) as [s|] eqn:E.
    - destruct (calive s) eqn:Ea.
      + eexists. split; [reflexivity|]. split; [apply (length_replace _ _ _ _ E)|].
        intros k. rewrite (nth_replace _ _ _ _ _ E). destruct (Nat.eqb_spec k id) as [->|]; [|reflexivity].
        rewrite E. simpl. unfold csend_alive. rewrite Ea. reflexivity.
      + exists cs. split; [reflexivity|]. split; [reflexivity|]. intros k.
        destruct (Nat.eqb_spec k id) as [->|]; [|reflexivity]. rewrite E. simpl. unfold csend_alive. rewrite Ea. reflexivity.
    - exists cs. split; [reflexivity|]. split; [reflexivity|]. intros k.
      destruct (Nat.eqb_spec k id) as [->|]; [|reflexivity]. rewrite E. reflexivity.
  Qed.

  (** What a channel receives when the diffs [ds] are sent to it. *)
  Definition crecv (ds : list D) c : chan D :=
    if calive c then
      mkChan (cqueue c ++ ds) (cgot c) true (match ds with [] => cwaiting c | _ => false end)
             (match ds with [] => cwoken c | _ => cwoken c || cwaiting c end)
    else c.

  Lemma crecv_nil c : crecv [] c = c.
  Proof. unfold crecv. destruct c as [q g [] w k]; simpl; rewrite ?app_nil_r; reflexivity. Qed.

  Lemma crecv_one d c : csend_alive d c = crecv [d] c.
  Proof. unfold crecv, csend_alive, cdeliver. destruct (calive c); reflexivity. Qed.

  Lemma ctotal_recv ds c : calive c = true -> ctotal (crecv ds c) = ctotal c ++ ds.
  Proof. intros H. unfold ctotal, crecv. rewrite H. simpl. apply app_assoc. Qed.

  Lemma calive_recv ds c : calive (crecv ds c) = calive c.
  Proof. unfold crecv. destruct (calive c) eqn:E; [reflexivity|exact E]. Qed.

  Lemma ctotal_poll b c : ctotal (fst (cpoll b c)) = ctotal c.
  Proof.
    unfold ctotal, cpoll. destruct (cqueue c) as [|d q] eqn:E.
    - destruct b; simpl; rewrite yielded_app; simpl; rewrite !app_nil_r; reflexivity.
    - simpl. rewrite yielded_app, <- app_assoc. reflexivity.
  Qed.

  Lemma cgot_poll b c : cgot (fst (cpoll b c)) = cgot c ++ [snd (cpoll b c)].
  Proof. unfold cpoll. destruct (cqueue c); [destruct b|]; reflexivity. Qed.

  Lemma calive_poll b c : calive (fst (cpoll b c)) = calive c.
  Proof. unfold cpoll. destruct (cqueue c); [destruct b|]; reflexivity. Qed.
End Send.

Section MutMap.
  Context {K V : Type} (cmp : K -> K -> comparison) (TO : total_order cmp).
  Local Notation mmp := (mmap K V).

  Lemma mm_retain_spec (d : mapdiff K V) sn : forall cs, NoDup sn ->
    exists cs', mm_retain d sn cs = (filter (c_alive cs) sn, cs') /\ length cs' = length cs
      /\ forall k, nth_error cs' k = if in_dec Nat.eq_dec k sn then option_map (csend_alive d) (nth_error cs k) else nth_error cs k.
  Proof.
    induction sn as [|id sn IH]; intros cs Hnd; cbn [mm_retain].
    - exists cs. split; [reflexivity|]. split; [reflexivity|]. intros k. reflexivity.
    - inversion Hnd as [|? ? Hni Hnd']; subst.
      destruct (csend_spec id d cs) as (cs1 & E1 & L1 & N1). rewrite E1.
      destruct (IH cs1 Hnd') as (cs2 & E2 & L2 & N2). rewrite E2.
      assert (Hf : filter (c_alive cs1) sn = filter (c_alive cs) sn).
      { apply filter_ext. intros k. unfold c_alive. rewrite N1.
        destruct (k =? id); [|reflexivity]. destruct (nth_error cs k) as [s|]; [|reflexivity].
        simpl. apply calive_send. }
      exists cs2. split; [|split; [congruence|]].
      + rewrite Hf. simpl. destruct (c_alive cs id); reflexivity.
      + intros k. rewrite N2, N1. destruct (Nat.eqb_spec k id) as [->|Hne].
        * destruct (in_dec Nat.eq_dec id sn) as [Hi|_]; [contradiction|].
          destruct (in_dec Nat.eq_dec id (id :: sn)) as [_|Hn]; [reflexivity|].
          exfalso. apply Hn. left. reflexivity.
        * destruct (in_dec Nat.eq_dec k sn) as [Hi|Hi], (in_dec Nat.eq_dec k (id :: sn)) as [Hj|Hj]; try reflexivity.
          -- exfalso. apply Hj. right. exact Hi.
          -- destruct Hj as [Hj|Hj]; [congruence|contradiction].
  Qed.

  (** notify_clone never panics and does what notify does. *)
  Lemma retain_clone_spec {A} (f : A -> mapdiff K V) a sn : forall cs,
    mm_retain_clone f (Some a) (length sn) sn cs = Some (mm_retain (f a) sn cs).
  Proof.
    induction sn as [|id sn IH]; intros cs; [reflexivity|].
    cbn [mm_retain_clone mm_retain length]. unfold usub. cbn [Nat.leb]. replace (S (length sn) - 1) with (length sn) by lia.
    destruct (csend id (f a) cs) as [cs1 ok]. destruct sn as [|id' sn].
    - simpl. reflexivity.
    - cbn [length Nat.eqb negb]. change (S (length sn)) with (length (id' :: sn)). rewrite IH.
      destruct (mm_retain (f a) (id' :: sn) cs1) as [sn2 cs2]. reflexivity.
  Qed.

  Lemma notify_clone_spec {A} (a : A) (f : A -> mapdiff K V) (st0 st : mmp) : mm_senders st0 = mm_senders st ->
    mm_notify_clone (mm_change a st0) f st = Some (mm_notify (f a) st).
  Proof.
    intros E. unfold mm_notify_clone, mm_change, mm_notify. rewrite E.
    destruct (mm_senders st) as [|id sn] eqn:Es.
    - simpl. destruct st; simpl in *. rewrite Es. reflexivity.
    - rewrite retain_clone_spec. cbn [length]. simpl Nat.ltb. cbn iota.
      destruct (mm_retain (f a) (id :: sn) (mm_chans st)) as [sn' cs']. reflexivity.
  Qed.

  (** Which channels the map is connected to. *)
  Record mwf (st : mmp) : Prop := {
    mwf_nodup : NoDup (mm_senders st);
    mwf_range : forall id, In id (mm_senders st) -> id < length (mm_chans st);
    mwf_alive : 0 < mm_owners st -> forall id s, nth_error (mm_chans st) id = Some s -> calive s = true -> In id (mm_senders st);
    mwf_map : is_map cmp (mm_values st) }.

  Lemma mm_notify_spec (d : mapdiff K V) (st : mmp) : mwf st -> 0 < mm_owners st ->
    mwf (mm_notify d st) /\ mm_chans (mm_notify d st) = map (crecv [d]) (mm_chans st)
    /\ mm_values (mm_notify d st) = mm_values st /\ mm_owners (mm_notify d st) = mm_owners st
    /\ forall id, In id (mm_senders (mm_notify d st)) -> c_alive (mm_chans (mm_notify d st)) id = true.
  Proof.
    intros W Ho. unfold mm_notify.
    destruct (mm_retain_spec d (mm_senders st) (mm_chans st) (mwf_nodup _ W)) as (cs & E & L & N). rewrite E.
    assert (Hs : cs = map (crecv [d]) (mm_chans st)).
    { apply nth_error_ext. intros k. rewrite N, nth_error_map.
      destruct (in_dec Nat.eq_dec k (mm_senders st)) as [_|Hn].
      - destruct (nth_error (mm_chans st) k) as [s|]; [|reflexivity]. simpl. rewrite crecv_one. reflexivity.
      - destruct (nth_error (mm_chans st) k) as [s|] eqn:Ek; [|reflexivity].
        simpl. f_equal. unfold crecv. destruct (calive s) eqn:Ea; [|reflexivity].
        exfalso. apply Hn. exact (mwf_alive _ W Ho _ _ Ek Ea). }
    split; [|split; [exact Hs|split; [reflexivity|split; [reflexivity|]]]].
    - constructor; cbn [mm_senders mm_chans mm_owners mm_values].
      + apply NoDup_filter. apply W.
      + intros id Hi. apply filter_In in Hi. rewrite L. apply W. apply Hi.
      + intros _ id s Es Ha. apply filter_In. rewrite N in Es.
        assert (Hi : exists s0, nth_error (mm_chans st) id = Some s0 /\ calive s0 = true).
        { destruct (in_dec Nat.eq_dec id (mm_senders st)); [|exists s; auto].
          destruct (nth_error (mm_chans st) id) as [s0|]; [|discriminate]. simpl in Es. injection Es as <-.
          rewrite calive_send in Ha. exists s0. auto. }
        destruct Hi as (s0 & E0 & A0). split; [exact (mwf_alive _ W Ho _ _ E0 A0)|].
        unfold c_alive. rewrite E0. exact A0.
      + apply W.
    - cbn [mm_senders mm_chans]. intros id Hi. apply filter_In in Hi. destruct Hi as [_ Hi]. unfold c_alive in *.
      rewrite Hs, nth_error_map. destruct (nth_error (mm_chans st) id) as [s|]; [|discriminate]. simpl.
      rewrite calive_recv. exact Hi.
  Qed.

  Definition mm_notify_opt (d : option (mapdiff K V)) (st : mmp) : mmp :=
    match d with Some d => mm_notify d st | None => st end.
  Definition dlist (d : option (mapdiff K V)) : list (mapdiff K V) := match d with Some d => [d] | None => [] end.

  (** What each operation does, as a function of the contents. *)
  Lemma mop_cases (o : mop K V) (m : list (K * V)) : is_map cmp m ->
    exists m' d r, (forall st : mmp, mm_values st = m -> mm_op cmp o st = Some (mm_notify_opt d (mm_set m' st), r))
      /\ is_map cmp m' /\ mop_means o m m' r /\ mop_sends o m m' (dlist d)
      /\ apply_all (apply_to_map cmp) m (dlist d) = Some m'.
  Proof.
    intros Hm. assert (Hset : forall st : mmp, mm_values st = m -> mm_set m st = st).
    { intros st <-. destruct st. reflexivity. }
    assert (Hold : forall k, forall v, bt_get cmp k m = Some v <-> In (k, v) m) by (intros; apply get_in; assumption).
    assert (Hins : forall k v, bt_get cmp k m = None ->
      is_map cmp (bt_insert cmp k v m) /\ mop_means (MOInsert k v) m (bt_insert cmp k v m) (ROld None)
      /\ mop_sends (MOInsert k v) m (bt_insert cmp k v m) [MInsert k v]
      /\ apply_all (apply_to_map cmp) m [MInsert k v] = Some (bt_insert cmp k v m)).
    { intros k v E. split; [apply insert_is_map; assumption|]. split; [|split].
      - split; [intros; apply in_insert; assumption|]. exists None. split; [reflexivity|]. rewrite <- E. apply Hold.
      - split; [reflexivity|]. intros H. apply get_none in E; [contradiction|exact TO|exact Hm].
      - simpl. rewrite E. reflexivity. }
    assert (Hupd : forall k v w, bt_get cmp k m = Some w ->
      is_map cmp (bt_insert cmp k v m) /\ mop_means (MOInsert k v) m (bt_insert cmp k v m) (ROld (Some w))
      /\ mop_sends (MOInsert k v) m (bt_insert cmp k v m) [MUpdate k v]
      /\ apply_all (apply_to_map cmp) m [MUpdate k v] = Some (bt_insert cmp k v m)).
    { intros k v w E. split; [apply insert_is_map; assumption|]. split; [|split].
      - split; [intros; apply in_insert; assumption|]. exists (Some w). split; [reflexivity|]. rewrite <- E. apply Hold.
      - split; [|reflexivity]. intros H. exfalso. apply H. apply (get_key cmp TO k m Hm). eauto.
      - simpl. rewrite E. reflexivity. }
    assert (Hrep : forall es, exists m' d r, (forall st : mmp, mm_values st = m -> mm_replace (bt_from_iter cmp es) st = Some (mm_notify_opt d (mm_set m' st), r))
      /\ is_map cmp m' /\ mop_means (MOReplace es) m m' r /\ mop_sends (MOReplace es) m m' (dlist d)
      /\ apply_all (apply_to_map cmp) m (dlist d) = Some m').
    { intros es. exists (bt_from_iter cmp es), (Some (MReplace (bt_from_iter cmp es))), RNothing. split.
      - intros st Es. unfold mm_replace. rewrite notify_clone_spec by reflexivity. reflexivity.
      - split; [apply from_iter_is_map; exact TO|]. split; [|split; [reflexivity|]].
        + split; [|reflexivity]. intros k v. apply in_from_iter. exact TO.
        + simpl. rewrite (from_iter_map cmp TO) by (apply from_iter_is_map; exact TO). reflexivity. }
    destruct o as [|k|es|k v|es|k v]; cbn [mm_op].
    - destruct m as [|e m1] eqn:Em.
      + exists [], None, RNothing. split.
        * intros st Es. unfold mm_clear. rewrite Es. simpl. rewrite (Hset st Es). reflexivity.
        * split; [exact Hm|]. simpl. repeat split; congruence.
      + exists [], (Some MClear), RNothing. split.
        * intros st Es. unfold mm_clear. rewrite Es. reflexivity.
        * split; [constructor|]. simpl. repeat split; congruence.
    - destruct (bt_get cmp k m) as [w|] eqn:E.
      + exists (bt_remove cmp k m), (Some (MRemove k)), (ROld (Some w)). split; [|split; [|split; [|split]]].
        * intros st Es. unfold mm_remove. rewrite Es, E. rewrite notify_clone_spec by reflexivity. reflexivity.
        * apply remove_is_map; assumption.
        * split; [intros; apply in_remove; assumption|]. exists (Some w). split; [reflexivity|]. rewrite <- E. apply Hold.
        * split; [|reflexivity]. intros H. exfalso. apply H. apply (get_key cmp TO k m Hm). eauto.
        * simpl. rewrite E. reflexivity.
      + assert (Hno : ~ has_key k m) by (apply (get_none cmp TO k m Hm); exact E).
        exists m, None, (ROld None). split; [|split; [|split; [|split]]].
        * intros st Es. unfold mm_remove. rewrite Es, E. simpl. rewrite (Hset st Es). reflexivity.
        * exact Hm.
        * split.
          -- intros k' v'. split; [|tauto]. intros Hi. split; [|exact Hi]. intros ->. apply Hno.
             apply in_map_iff. exists (k, v'). auto.
          -- exists None. split; [reflexivity|]. rewrite <- E. apply Hold.
        * split; [reflexivity|]. intros H. contradiction.
        * reflexivity.
    - apply Hrep.
    - destruct (bt_get cmp k m) as [w|] eqn:E.
      + exists (bt_insert cmp k v m), (Some (MUpdate k v)), (ROld (Some w)). split; [|exact (Hupd k v w E)].
        intros st Es. unfold mm_insert_cloned. rewrite Es, E. rewrite notify_clone_spec by reflexivity. reflexivity.
      + exists (bt_insert cmp k v m), (Some (MInsert k v)), (ROld None). split; [|exact (Hins k v E)].
        intros st Es. unfold mm_insert_cloned. rewrite Es, E. rewrite notify_clone_spec by reflexivity. reflexivity.
    - apply Hrep.
    - destruct (bt_get cmp k m) as [w|] eqn:E.
      + exists (bt_insert cmp k v m), (Some (MUpdate k v)), (ROld (Some w)). split; [|exact (Hupd k v w E)].
        intros st Es. unfold mm_insert. rewrite Es, E. reflexivity.
      + exists (bt_insert cmp k v m), (Some (MInsert k v)), (ROld None). split; [|exact (Hins k v E)].
        intros st Es. unfold mm_insert. rewrite Es, E. reflexivity.
  Qed.

  Lemma mwf_set m' (st : mmp) : is_map cmp m' -> mwf st -> mwf (mm_set m' st).
  Proof. intros Hm [H1 H2 H3 H4]. constructor; simpl; assumption. Qed.

  (** One operation, for every subscriber at once. *)
  Lemma mop_event (o : mop K V) (m : list (K * V)) : is_map cmp m ->
    exists m' ds r, is_map cmp m' /\ mop_means o m m' r /\ mop_sends o m m' ds
      /\ apply_all (apply_to_map cmp) m ds = Some m'
      /\ forall st : mmp, mm_values st = m -> mwf st -> 0 < mm_owners st ->
         exists st', mm_op cmp o st = Some (st', r) /\ mm_event cmp (MOp o) st = Some st' /\ mwf st' /\ mm_values st' = m'
           /\ mm_chans st' = map (crecv ds) (mm_chans st) /\ mm_owners st' = mm_owners st
           /\ (ds <> [] -> forall id, In id (mm_senders st') -> c_alive (mm_chans st') id = true).
  Proof.
    intros Hm. destruct (mop_cases o m Hm) as (m' & d & r & E & Hm' & Hmean & Hsend & Happ).
    exists m', (dlist d), r. split; [exact Hm'|]. split; [exact Hmean|]. split; [exact Hsend|]. split; [exact Happ|].
    intros st Es W Ho. exists (mm_notify_opt d (mm_set m' st)).
    assert (W1 := mwf_set m' st Hm' W). rewrite (E st Es). split; [reflexivity|]. split.
    - unfold mm_event. rewrite (E st Es). destruct (Nat.ltb_spec 0 (mm_owners st)); [reflexivity|lia].
    - destruct d as [d|]; cbn [mm_notify_opt dlist].
      + destruct (mm_notify_spec d (mm_set m' st) W1 Ho) as (N1 & N2 & N3 & N4 & N5). rewrite N2, N3, N4.
        rewrite N2 in N5. cbn [mm_set mm_chans mm_values mm_owners] in *. auto 10.
      + split; [exact W1|]. split; [reflexivity|]. cbn [mm_set mm_chans]. rewrite (map_ext _ _ crecv_nil), map_id.
        repeat split. congruence.
  Qed.

  (** ** Invariant of histories *)
  Definition chan_ok (st : mmp) (s : chan (mapdiff K V)) : Prop :=
    calive s = true ->
    mreplay cmp (ctotal s) = Some (mm_values st)
    /\ (cwaiting s = true -> cqueue s = [] /\ 0 < mm_owners st)
    /\ (last_out (cgot s) Pending -> cwaiting s = true /\ cwoken s = false \/ cwoken s = true /\ (cqueue s <> [] \/ mm_owners st = 0))
    /\ (In (Ready None) (cgot s) -> mm_owners st = 0 /\ cqueue s = [])
    /\ ascending_entries cmp (ctotal s).

  Definition minv (st : mmp) : Prop :=
    mwf st /\ forall id s, nth_error (mm_chans st) id = Some s -> chan_ok st s.

  Lemma cpoll_ok (st : mmp) s : chan_ok st s -> chan_ok st (fst (cpoll (mm_owners st =? 0) s)).
  Proof.
    intros H Ha. rewrite calive_poll in Ha. specialize (H Ha). destruct H as (H1 & H2 & H3 & H4 & H5).
    rewrite ctotal_poll. split; [exact H1|]. rewrite cgot_poll.
    unfold cpoll. destruct (cqueue s) as [|d q] eqn:Eq.
    - destruct (Nat.eqb_spec (mm_owners st) 0) as [Eo|Eo]; cbn [fst snd cwaiting cwoken cqueue].
      + split; [intros Hw; split; [reflexivity|apply H2; exact Hw]|]. split; [|split; [|exact H5]].
        * intros Hl. apply last_out_snoc in Hl. discriminate.
        * intros _. auto.
      + split; [intros _; split; [reflexivity|lia]|]. split; [auto|]. split; [|exact H5].
        intros Hi. apply in_app_iff in Hi. destruct Hi as [Hi|[Hi|[]]]; [auto|discriminate].
    - cbn [fst snd cwaiting cwoken cqueue]. split; [|split; [|split; [|exact H5]]].
      + intros Hw. apply H2 in Hw. destruct Hw as [Hw _]. discriminate.
      + intros Hl. apply last_out_snoc in Hl. discriminate.
      + intros Hi. apply in_app_iff in Hi. destruct Hi as [Hi|[Hi|[]]]; [|discriminate].
        apply H4 in Hi. destruct Hi as [_ Hi]. discriminate.
  Qed.

  (** Later states of one subscriber. *)
  Definition cextends (s s' : chan (mapdiff K V)) : Prop :=
    (exists more, ctotal s' = ctotal s ++ more) /\ (exists polls, cgot s' = cgot s ++ polls).
  Lemma cextends_refl s : cextends s s.
  Proof. split; exists []; rewrite app_nil_r; reflexivity. Qed.
  Lemma cextends_trans a b c : cextends a b -> cextends b c -> cextends a c.
  Proof.
    intros [[x Hx] [y Hy]] [[x' Hx'] [y' Hy']]. split.
    - exists (x ++ x'). rewrite Hx', Hx, app_assoc. reflexivity.
    - exists (y ++ y'). rewrite Hy', Hy, app_assoc. reflexivity.
  Qed.

  Lemma sends_ascending (o : mop K V) m m' ds : is_map cmp m' -> mop_sends o m m' ds -> 
    apply_all (apply_to_map cmp) m ds = Some m' -> ascending_entries cmp ds.
  Proof.
    intros Hm' Hs _ es Hi. destruct o as [|k|es0|k v|es0|k v]; simpl in Hs.
    - destruct Hs as [H1 H2]. destruct m; [rewrite H1 in Hi by reflexivity; destruct Hi|].
      rewrite H2 in Hi by discriminate. destruct Hi as [Hi|[]]; discriminate.
    - destruct Hs as [H1 H2]. exfalso. revert Hi H1 H2. clear. intros Hi H1 H2.
      assert (Hc : ~ (has_key k m \/ ~ has_key k m)).
      { intros [H|H]; [rewrite (H2 H) in Hi; destruct Hi as [Hi|[]]; discriminate|rewrite (H1 H) in Hi; destruct Hi]. }
      tauto.
    - subst ds. destruct Hi as [Hi|[]]. injection Hi as <-. exact Hm'.
    - exfalso. destruct Hs as [H1 H2].
      assert (Hc : ~ (has_key k m \/ ~ has_key k m)).
      { intros [H|H]; [rewrite (H2 H) in Hi|rewrite (H1 H) in Hi]; destruct Hi as [Hi|[]]; discriminate. }
      tauto.
    - subst ds. destruct Hi as [Hi|[]]. injection Hi as <-. exact Hm'.
    - exfalso. destruct Hs as [H1 H2].
      assert (Hc : ~ (has_key k m \/ ~ has_key k m)).
      { intros [H|H]; [rewrite (H2 H) in Hi|rewrite (H1 H) in Hi]; destruct Hi as [Hi|[]]; discriminate. }
      tauto.
  Qed.

  (** One event keeps the invariant, does not panic, and only extends what subscribers have. *)
  Lemma mevent_inv (e : mevent K V) st : minv st -> exists st', mm_event cmp e st = Some st' /\ minv st'
    /\ forall id s, nth_error (mm_chans st) id = Some s ->
       exists s', nth_error (mm_chans st') id = Some s' /\ cextends s s'.
  Proof.
    intros [W Hall].
    assert (Hsame : minv st /\ forall id s, nth_error (mm_chans st) id = Some s ->
       exists s', nth_error (mm_chans st) id = Some s' /\ cextends s s').
    { split; [split; assumption|]. intros id s Hs. exists s. split; [exact Hs|apply cextends_refl]. }
    assert (Hset : forall id t t', nth_error (mm_chans st) id = Some t -> (calive t' = true -> calive t = true) -> chan_ok st t' ->
      cextends t t' -> minv (mm_set_chan id t' st) /\ forall id0 s, nth_error (mm_chans st) id0 = Some s ->
       exists s', nth_error (mm_chans (mm_set_chan id t' st)) id0 = Some s' /\ cextends s s').
    { intros id t t' Ek Hal Hok Hext. unfold mm_set_chan. split; [split|].
      - destruct W as [W1 W2 W3 W4]. constructor; cbn [mm_senders mm_chans mm_owners mm_values]; [exact W1| | |exact W4].
        + intros i Hi. rewrite (length_replace _ _ _ _ Ek). apply W2. exact Hi.
        + intros Ho i s Hs Ha. rewrite (nth_replace _ _ _ _ _ Ek) in Hs.
          destruct (Nat.eqb_spec i id) as [->|]; [injection Hs as <-; exact (W3 Ho _ _ Ek (Hal Ha))|exact (W3 Ho _ _ Hs Ha)].
      - intros i s Hs. cbn [mm_chans] in Hs. rewrite (nth_replace _ _ _ _ _ Ek) in Hs.
        destruct (Nat.eqb_spec i id) as [->|]; [injection Hs as <-; exact Hok|exact (Hall i s Hs)].
      - intros i s Hs. cbn [mm_chans]. rewrite (nth_replace _ _ _ _ _ Ek).
        destruct (Nat.eqb_spec i id) as [->|]; [|exists s; split; [exact Hs|apply cextends_refl]].
        exists t'. split; [reflexivity|]. congruence. }
    destruct e as [o| |k|k| |].
    - destruct (Nat.ltb_spec 0 (mm_owners st)) as [Ho|Ho].
      2: { exists st. split; [|exact Hsame]. unfold mm_event. destruct (Nat.ltb_spec 0 (mm_owners st)); [lia|reflexivity]. }
      destruct (mop_event o (mm_values st) (mwf_map _ W)) as (m' & ds & r & Hm' & _ & Hsend & Happ & H).
      destruct (H st eq_refl W Ho) as (st' & _ & E & W' & Ev & Ec & Eo & _). exists st'. split; [exact E|]. split; [split|].
      + exact W'.
      + intros id s' Hs' Ha'. rewrite Ec, nth_error_map in Hs'.
        destruct (nth_error (mm_chans st) id) as [s|] eqn:Hs; [|discriminate]. simpl in Hs'. injection Hs' as <-.
        rewrite calive_recv in Ha'. destruct (Hall id s Hs Ha') as (H1 & H2 & H3 & H4 & H5).
        rewrite Eo, Ev. split; [|split; [|split; [|split]]].
        * rewrite ctotal_recv by exact Ha'. rewrite mreplay_app, H1. exact Happ.
        * unfold crecv. rewrite Ha'. cbn [cwaiting cqueue]. destruct ds; [rewrite app_nil_r; exact H2|discriminate].
        * unfold crecv. rewrite Ha'. cbn [cgot cwaiting cwoken cqueue]. intros Hl. apply H3 in Hl.
          destruct ds; [rewrite app_nil_r; exact Hl|]. right. split.
          -- destruct Hl as [[Hl _]|[Hl _]]; rewrite Hl; [apply orb_true_r|reflexivity].
          -- left. intros Hn. apply app_eq_nil in Hn. destruct Hn. discriminate.
        * unfold crecv. rewrite Ha'. cbn [cgot cqueue]. intros Hi. apply H4 in Hi. lia.
        * rewrite ctotal_recv by exact Ha'. intros es Hi. apply in_app_iff in Hi. destruct Hi as [Hi|Hi]; [exact (H5 es Hi)|].
          exact (sends_ascending o _ _ _ Hm' Hsend Happ es Hi).
      + intros id s Hs. exists (crecv ds s). rewrite Ec, nth_error_map, Hs. split; [reflexivity|].
        destruct (calive s) eqn:Ea.
        * split; [exists ds; apply ctotal_recv; exact Ea|]. exists []. unfold crecv. rewrite Ea, app_nil_r. reflexivity.
        * unfold crecv. rewrite Ea. apply cextends_refl.
    - unfold mm_event. eexists. split; [reflexivity|]. destruct (Nat.ltb_spec 0 (mm_owners st)) as [Ho|Ho]; [|exact Hsame].
      unfold mm_subscribe. set (ms := match mm_values st with [] => [] | _ => _ end). split; [split|].
      + destruct W as [W1 W2 W3 W4]. constructor; cbn [mm_senders mm_chans mm_owners mm_values]; [| | |exact W4].
        * apply NoDup_rev in W1. rewrite <- (rev_involutive (mm_senders st ++ _)). apply NoDup_rev.
          rewrite rev_app_distr. simpl. constructor; [|exact W1]. rewrite <- in_rev. intros Hi. apply W2 in Hi. lia.
        * intros id Hi. rewrite app_length. simpl. apply in_app_iff in Hi. destruct Hi as [Hi|[<-|[]]]; [apply W2 in Hi|]; lia.
        * intros _ id s Hs Ha. apply in_app_iff. destruct (Nat.lt_ge_cases id (length (mm_chans st))) as [Hlt|Hge].
          -- rewrite nth_error_app1 in Hs by exact Hlt. left. exact (W3 Ho _ _ Hs Ha).
          -- right. left. assert (Hl : id < length (mm_chans st ++ [new_chan ms])).
             { apply nth_error_Some. rewrite Hs. discriminate. }
             rewrite app_length in Hl. simpl in Hl. lia.
      + intros id s Hs Ha. cbn [mm_chans] in Hs. destruct (Nat.lt_ge_cases id (length (mm_chans st))) as [Hlt|Hge].
        * rewrite nth_error_app1 in Hs by exact Hlt. exact (Hall id s Hs Ha).
        * rewrite nth_error_app2 in Hs by exact Hge. destruct (id - length (mm_chans st)) as [|j]; [|destruct j; discriminate].
          simpl in Hs. injection Hs as <-. split; [|split; [|split; [|split]]].
          -- unfold ctotal, ms, mreplay. simpl. pose proof (mwf_map _ W) as Hmap. destruct (mm_values st) as [|e m1]; [reflexivity|].
             cbn [apply_all apply_to_map]. rewrite (from_iter_map cmp TO) by exact Hmap. reflexivity.
          -- simpl. discriminate.
          -- simpl. intros Hl. destruct (last_out_nil _ Hl).
          -- simpl. tauto.
          -- intros es Hi. unfold ctotal, ms in Hi. simpl in Hi. pose proof (mwf_map _ W) as Hmap.
             destruct (mm_values st) as [|e m1]; [destruct Hi|]. destruct Hi as [Hi|[]]. injection Hi as <-. exact Hmap.
      + intros id s Hs. exists s. split; [|apply cextends_refl]. cbn [mm_chans].
        rewrite nth_error_app1; [exact Hs|]. apply nth_error_Some. congruence.
    - unfold mm_event. eexists. split; [reflexivity|].
      destruct (nth_error (mm_chans st) k) as [t|] eqn:Ek; [|exact Hsame]. destruct (calive t) eqn:Ea; [|exact Hsame].
      apply (Hset k t); [exact Ek|intros _; exact Ea|exact (cpoll_ok st t (Hall k t Ek))|].
      split; [exists []; rewrite ctotal_poll, app_nil_r; reflexivity|]. rewrite cgot_poll. eexists. reflexivity.
    - unfold mm_event. eexists. split; [reflexivity|].
      destruct (nth_error (mm_chans st) k) as [t|] eqn:Ek; [|exact Hsame].
      apply (Hset k t); [exact Ek|discriminate|intros Ha; discriminate Ha|]. split; exists []; rewrite app_nil_r; reflexivity.
    - unfold mm_event. eexists. split; [reflexivity|]. destruct (Nat.ltb_spec 0 (mm_owners st)) as [Ho|Ho]; [|exact Hsame].
      split; [split|].
      + destruct W as [W1 W2 W3 W4]. constructor; cbn [mm_senders mm_chans mm_owners mm_values]; [exact W1|exact W2|intros _; apply W3; exact Ho|exact W4].
      + intros id s Hs Ha. destruct (Hall id s Hs Ha) as (H1 & H2 & H3 & H4 & H5). split; [exact H1|]. cbn [mm_owners].
        split; [intros Hw; split; [apply H2; exact Hw|lia]|].
        split; [intros Hl; destruct (H3 Hl) as [Hx|[Hx [Hy|Hy]]]; [left; exact Hx|right; split; [exact Hx|left; exact Hy]|exfalso; lia]|].
        split; [|exact H5]. intros Hi. apply H4 in Hi. lia.
      + intros id s Hs. exists s. split; [exact Hs|apply cextends_refl].
    - unfold mm_event. eexists. split; [reflexivity|]. destruct (mm_owners st) as [|[|n]] eqn:Eo; [exact Hsame| |].
      + split; [split|].
        * destruct W as [W1 W2 W3 W4]. constructor; cbn [mm_senders mm_chans mm_owners mm_values]; [constructor|intros id []|lia|exact W4].
        * intros id s' Hs' Ha'. cbn [mm_chans] in Hs'. rewrite nth_error_map in Hs'.
          destruct (nth_error (mm_chans st) id) as [s|] eqn:Hs; [|discriminate]. simpl in Hs'. injection Hs' as <-.
          destruct (Hall id s Hs Ha') as (H1 & H2 & H3 & H4 & H5). split; [exact H1|]. simpl.
          split; [discriminate|]. split; [|split; [intros Hi; apply H4 in Hi; lia|exact H5]].
          intros Hl. right. split; [|right; reflexivity]. destruct (H3 Hl) as [[E _]|[E _]]; rewrite E; [apply orb_true_r|reflexivity].
        * intros id s Hs. cbn [mm_chans]. rewrite nth_error_map, Hs. eexists. split; [reflexivity|].
          split; exists []; rewrite app_nil_r; reflexivity.
      + split; [split|].
        * destruct W as [W1 W2 W3 W4]. constructor; cbn [mm_senders mm_chans mm_owners mm_values]; [exact W1|exact W2| |exact W4].
          intros _. apply W3. lia.
        * intros id s Hs Ha. destruct (Hall id s Hs Ha) as (H1 & H2 & H3 & H4 & H5). split; [exact H1|]. cbn [mm_owners].
          split; [intros Hw; split; [apply H2; exact Hw|lia]|].
        split; [intros Hl; destruct (H3 Hl) as [Hx|[Hx [Hy|Hy]]]; [left; exact Hx|right; split; [exact Hx|left; exact Hy]|exfalso; lia]|].
        split; [|exact H5]. intros Hi. apply H4 in Hi. lia.
        * intros id s Hs. exists s. split; [exact Hs|apply cextends_refl].
  Qed.

  Lemma mm_new_inv es : minv (mm_new cmp es).
  Proof.
    split.
    - constructor; simpl; [constructor|tauto| |apply from_iter_is_map; exact TO]. intros _ id s Hs. destruct id; discriminate.
    - intros id s Hs. destruct id; discriminate.
  Qed.

  Lemma mm_run_inv es : forall st, minv st -> exists st', mm_run cmp es st = Some st' /\ minv st'
    /\ forall id s, nth_error (mm_chans st) id = Some s ->
       exists s', nth_error (mm_chans st') id = Some s' /\ cextends s s'.
  Proof.
    induction es as [|e es IH]; intros st Hi; cbn [mm_run].
    - exists st. split; [reflexivity|]. split; [exact Hi|]. intros id s Hs. exists s. split; [exact Hs|apply cextends_refl].
    - destruct (mevent_inv e st Hi) as (st1 & E1 & Hi1 & X1). rewrite E1.
      destruct (IH st1 Hi1) as (st2 & E2 & Hi2 & X2). exists st2. split; [exact E2|]. split; [exact Hi2|].
      intros id s Hs. destruct (X1 id s Hs) as (s1 & H1 & Y1). destruct (X2 id s1 H1) as (s2 & H2 & Y2).
      exists s2. split; [exact H2|]. exact (cextends_trans _ _ _ Y1 Y2).
  Qed.

  Lemma mm_run_app a : forall b (st : mmp), mm_run cmp (a ++ b) st =
    match mm_run cmp a st with Some st' => mm_run cmp b st' | None => None end.
  Proof.
    induction a as [|e a IH]; intros b st; [reflexivity|]. simpl.
    destruct (mm_event cmp e st); [apply IH|reflexivity].
  Qed.

  Lemma mm_reach (init : list (K * V)) es st : mm_run cmp es (mm_new cmp init) = Some st -> minv st.
  Proof.
    intros E. destruct (mm_run_inv es _ (mm_new_inv init)) as (st' & E' & Hi & _). congruence.
  Qed.

  (** ** C25 *)
  Lemma mm_lossless (init : list (K * V)) es : exists st, mm_run cmp es (mm_new cmp init) = Some st
    /\ is_map cmp (mm_values st)
    /\ forall id s, nth_error (mm_chans st) id = Some s -> calive s = true ->
       mreplay cmp (ctotal s) = Some (mm_values st).
  Proof.
    destruct (mm_run_inv es _ (mm_new_inv init)) as (st & E & (W & H) & _). exists st. split; [exact E|].
    split; [apply W|]. intros id s Hs Ha. apply (H id s Hs Ha).
  Qed.

  Lemma mm_prefix (init : list (K * V)) es1 es2 st1 st2 id s1 :
    mm_run cmp es1 (mm_new cmp init) = Some st1 -> mm_run cmp (es1 ++ es2) (mm_new cmp init) = Some st2 ->
    nth_error (mm_chans st1) id = Some s1 -> calive s1 = true ->
    exists s2 more, nth_error (mm_chans st2) id = Some s2 /\ ctotal s2 = ctotal s1 ++ more
      /\ mreplay cmp (ctotal s1) = Some (mm_values st1).
  Proof.
    intros E1 E2 Hs Ha. rewrite mm_run_app, E1 in E2. pose proof (mm_reach _ _ _ E1) as Hi.
    destruct (mm_run_inv es2 st1 Hi) as (st2' & E2' & _ & X). destruct (X id s1 Hs) as (s2 & H2 & (more & Hm) & _).
    exists s2, more. split; [congruence|]. split; [exact Hm|]. apply (proj2 Hi id s1 Hs Ha).
  Qed.

  Lemma mpoll_one (st : mmp) id s : nth_error (mm_chans st) id = Some s -> calive s = true ->
    exists st', mm_event cmp (MPoll id) st = Some st'
    /\ nth_error (mm_chans st') id = Some (fst (cpoll (mm_owners st =? 0) s))
    /\ mm_values st' = mm_values st.
  Proof.
    intros Hs Ha. unfold mm_event. rewrite Hs, Ha. eexists. split; [reflexivity|]. unfold mm_set_chan. cbn [mm_chans mm_values].
    rewrite (nth_replace _ _ _ _ _ Hs), Nat.eqb_refl. auto.
  Qed.

  Lemma mpoll_drains n : forall (st : mmp) id s,
    nth_error (mm_chans st) id = Some s -> calive s = true -> length (cqueue s) <= n ->
    exists st' s', mm_run cmp (repeat (MPoll id) n) st = Some st' /\ nth_error (mm_chans st') id = Some s' /\ calive s' = true
      /\ cqueue s' = [] /\ ctotal s' = ctotal s /\ mm_values st' = mm_values st.
  Proof.
    induction n as [|n IH]; intros st id s Hs Ha Hl.
    - exists st, s. simpl. repeat split; auto. apply length_zero_iff_nil. lia.
    - destruct (mpoll_one st id s Hs Ha) as (st1 & E1 & H1 & H2). cbn [repeat mm_run]. rewrite E1.
      destruct (IH st1 id _ H1) as (st2 & s2 & E2 & S1 & S2 & S3 & S4 & S5).
      + rewrite calive_poll. exact Ha.
      + unfold cpoll. destruct (cqueue s); [destruct (mm_owners st =? 0); simpl; lia|]. simpl in *. lia.
      + exists st2, s2. rewrite ctotal_poll in S4. rewrite H2 in S5. auto 10.
  Qed.

  Lemma mm_catches_up (init : list (K * V)) es st id s :
    mm_run cmp es (mm_new cmp init) = Some st ->
    nth_error (mm_chans st) id = Some s -> calive s = true ->
    exists n st' s', mm_run cmp (es ++ repeat (MPoll id) n) (mm_new cmp init) = Some st'
      /\ nth_error (mm_chans st') id = Some s' /\ mm_values st' = mm_values st
      /\ mreplay cmp (yielded (cgot s')) = Some (mm_values st).
  Proof.
    intros E Hs Ha. destruct (mpoll_drains (length (cqueue s)) st id s Hs Ha (le_n _)) as (st' & s' & E' & H1 & _ & H2 & H3 & H4).
    exists (length (cqueue s)), st', s'. rewrite mm_run_app, E. split; [exact E'|]. split; [exact H1|]. split; [exact H4|].
    destruct (proj2 (mm_reach _ _ _ E) id s Hs Ha) as (Hr & _). rewrite <- H3 in Hr. unfold ctotal in Hr.
    rewrite H2, app_nil_r in Hr. exact Hr.
  Qed.

  (** ** C26 *)
  Lemma mm_operation (init : list (K * V)) es st (o : mop K V) :
    mm_run cmp es (mm_new cmp init) = Some st -> 0 < mm_owners st ->
    exists st' r ds, mm_op cmp o st = Some (st', r) /\ mm_event cmp (MOp o) st = Some st'
      /\ is_map cmp (mm_values st') /\ mop_means o (mm_values st) (mm_values st') r
      /\ mop_sends o (mm_values st) (mm_values st') ds
      /\ forall id s, nth_error (mm_chans st) id = Some s ->
         exists s', nth_error (mm_chans st') id = Some s' /\ cgot s' = cgot s /\ calive s' = calive s
           /\ ctotal s' = (if calive s then ctotal s ++ ds else ctotal s)
           /\ (calive s = true -> cwaiting s = true -> ds <> [] -> cwoken s' = true).
  Proof.
    intros E Ho. destruct (mm_reach _ _ _ E) as [W _].
    destruct (mop_event o (mm_values st) (mwf_map _ W)) as (m' & ds & r & Hm' & Hmean & Hsend & Happ & H).
    destruct (H st eq_refl W Ho) as (st' & E1 & E2 & W' & Ev & Ec & Eo & _).
    exists st', r, ds. rewrite Ev. do 5 (split; [assumption|]).
    intros id s Hs. exists (crecv ds s). rewrite Ec, nth_error_map, Hs. split; [reflexivity|].
    split; [unfold crecv; destruct (calive s); reflexivity|]. split; [apply calive_recv|]. split.
    - destruct (calive s) eqn:Ea; [apply ctotal_recv; exact Ea|]. unfold crecv. rewrite Ea. reflexivity.
    - intros Ha Hw Hd. unfold crecv. rewrite Ha. simpl. destruct ds; [congruence|]. rewrite Hw. apply orb_true_r.
  Qed.

  (** Wake-ups and ends. *)
  Lemma mm_wakes (init : list (K * V)) es st id s : mm_run cmp es (mm_new cmp init) = Some st ->
    nth_error (mm_chans st) id = Some s -> calive s = true ->
    (last_out (cgot s) Pending -> (cwoken s = true <-> cqueue s <> [] \/ mm_owners st = 0))
    /\ (In (Ready None) (cgot s) -> mm_owners st = 0 /\ cqueue s = []).
  Proof.
    intros E Hs Ha. destruct (proj2 (mm_reach _ _ _ E) id s Hs Ha) as (_ & H2 & H3 & H4 & _). split; [|exact H4].
    intros Hl. destruct (H3 Hl) as [[Hw Hk]|[Hk Hq]]; [|tauto]. split; [congruence|]. intros Hq. exfalso.
    apply H2 in Hw. destruct Hw as [W1 W2]. destruct Hq; [contradiction|lia].
  Qed.

  Lemma mm_polls (init : list (K * V)) es st id s : mm_run cmp es (mm_new cmp init) = Some st ->
    nth_error (mm_chans st) id = Some s -> calive s = true ->
    exists st' s', mm_event cmp (MPoll id) st = Some st' /\ nth_error (mm_chans st') id = Some s' /\
      match cqueue s with
      | d :: q => cgot s' = cgot s ++ [Ready (Some d)] /\ cqueue s' = q
      | [] => cqueue s' = [] /\ (mm_owners st = 0 -> cgot s' = cgot s ++ [Ready None])
              /\ (0 < mm_owners st -> cgot s' = cgot s ++ [Pending])
      end.
  Proof.
    intros E Hs Ha. destruct (mpoll_one st id s Hs Ha) as (st' & E1 & H1 & _). exists st'. eexists. split; [exact E1|]. split; [exact H1|].
    unfold cpoll. destruct (cqueue s) as [|d q]; [|auto].
    destruct (Nat.eqb_spec (mm_owners st) 0) as [Eo|Eo]; simpl; repeat split; intros; try lia; reflexivity.
  Qed.

  (** Dropped subscribers are forgotten as soon as something is sent. *)
  Lemma mm_forgets (init : list (K * V)) es st (o : mop K V) st' id : mm_run cmp es (mm_new cmp init) = Some st -> 0 < mm_owners st ->
    mm_event cmp (MOp o) st = Some st' -> mm_values st' <> mm_values st -> In id (mm_senders st') ->
    exists s, nth_error (mm_chans st') id = Some s /\ calive s = true.
  Proof.
    intros E Ho Ee Hch Hi. destruct (mm_reach _ _ _ E) as [W _].
    destruct (mop_event o (mm_values st) (mwf_map _ W)) as (m' & ds & r & _ & _ & _ & Happ & H).
    destruct (H st eq_refl W Ho) as (st2 & _ & E2 & _ & Ev & _ & _ & Hf). rewrite Ee in E2. injection E2 as <-.
    assert (Hd : ds <> []). { intros ->. simpl in Happ. congruence. }
    specialize (Hf Hd id Hi). unfold c_alive in Hf. destruct (nth_error _ id) as [s|]; [exists s; auto|discriminate].
  Qed.

  (** The diffs of a subscriber can feed signal_vec_keys / entries. *)
  Lemma mm_feeds (init : list (K * V)) es st id s : mm_run cmp es (mm_new cmp init) = Some st ->
    nth_error (mm_chans st) id = Some s -> calive s = true ->
    mreplay cmp (ctotal s) = Some (mm_values st) /\ ascending_entries cmp (ctotal s).
  Proof. intros E Hs Ha. destruct (proj2 (mm_reach _ _ _ E) id s Hs Ha) as (H1 & _ & _ & _ & H5). auto. Qed.
End MutMap.

(** A new subscriber of a map. *)
Lemma mm_first {K V} (cmp : K -> K -> comparison) (init : list (K * V)) es st :
  mm_run cmp es (mm_new cmp init) = Some st -> 0 < mm_owners st ->
  exists st' s, mm_event cmp MSubscribe st = Some st' /\ mm_chans st' = mm_chans st ++ [s] /\ mm_values st' = mm_values st /\ calive s = true /\ cgot s = []
    /\ cqueue s = match mm_values st with [] => [] | m => [MReplace m] end.
Proof.
  intros _ Ho. cbn [mm_event]. replace (0 <? mm_owners st) with true by (symmetry; apply Nat.ltb_lt; exact Ho).
  do 2 eexists. split; [reflexivity|]. cbn. repeat (split; [reflexivity|]). destruct (mm_values st); reflexivity.
Qed.
