(** Proofs about histories of a MutableVec and its subscribers. *)
From Verif Require Import Base Spec BaseFacts VecDiff VecSpec VecFacts VecDiffFacts LoopFacts MutVec MutVecSpec MutVecFacts.

Definition send_alive {A} (d : vecdiff A) (s : sub A) : sub A := if alive s then deliver d s else s.

Definition is_alive {A} (ss : list (sub A)) (id : nat) : bool :=
  match nth_error ss id with Some s => alive s | None => false end.

Lemma nth_replace {A} (ss : list A) id x y k : nth_error ss id = Some y ->
  nth_error (firstn id ss ++ x :: skipn (id + 1) ss) k = if k =? id then Some x else nth_error ss k.
Proof.
  intros E. apply nth_error_split in E. destruct E as (p & s & -> & <-).
  rewrite firstn_app, firstn_all, Nat.sub_diag. simpl firstn. rewrite app_nil_r.
  rewrite skipn_app, skipn_all2 by lia. replace (length p + 1 - length p) with 1 by lia. simpl skipn. simpl app.
  rewrite !nth_mid. destruct (Nat.eqb_spec k (length p)) as [->|Hne].
  - rewrite Nat.ltb_irrefl. reflexivity.
  - destruct (k <? length p); reflexivity.
Qed.

Lemma length_replace {A} (ss : list A) id x y : nth_error ss id = Some y ->
  length (firstn id ss ++ x :: skipn (id + 1) ss) = length ss.
Proof.
  intros E. assert (id < length ss) by (apply nth_error_Some; congruence).
  rewrite app_length, firstn_length. simpl. rewrite skipn_length. lia.
Qed.

Lemma unbounded_send_spec {A} id (d : vecdiff A) ss :
  exists ss1, unbounded_send id d ss = (ss1, is_alive ss id) /\ length ss1 = length ss
    /\ forall k, nth_error ss1 k = if k =? id then option_map (send_alive d) (nth_error ss k) else nth_error ss k.
Proof.
  unfold unbounded_send, is_alive. destruct (nth_error ss id) as [s|] eqn:E.
  - destruct (alive s) eqn:Ea.
    + eexists. split; [reflexivity|]. split; [eapply length_replace; exact E|].
      intros k. rewrite (nth_replace _ _ _ _ _ E). destruct (Nat.eqb_spec k id) as [->|]; [|reflexivity].
      rewrite E. simpl. unfold send_alive. rewrite Ea. reflexivity.
    + exists ss. split; [reflexivity|]. split; [reflexivity|].
      intros k. destruct (Nat.eqb_spec k id) as [->|]; [|reflexivity].
      rewrite E. simpl. unfold send_alive. rewrite Ea. reflexivity.
  - exists ss. split; [reflexivity|]. split; [reflexivity|].
    intros k. destruct (Nat.eqb_spec k id) as [->|]; [|reflexivity]. rewrite E. reflexivity.
Qed.

Lemma alive_send {A} (d : vecdiff A) s : alive (send_alive d s) = alive s.
Proof. unfold send_alive. destruct (alive s) eqn:E; [exact E|exact E]. Qed.

Lemma retain_send_spec {A} (d : vecdiff A) sn : forall ss, NoDup sn ->
  exists ss', retain_send d sn ss = (filter (is_alive ss) sn, ss') /\ length ss' = length ss
    /\ forall k, nth_error ss' k = if in_dec Nat.eq_dec k sn then option_map (send_alive d) (nth_error ss k) else nth_error ss k.
Proof.
  induction sn as [|id sn IH]; intros ss Hnd; cbn [retain_send].
  - exists ss. split; [reflexivity|]. split; [reflexivity|]. intros k. reflexivity.
  - inversion Hnd as [|? ? Hni Hnd']; subst.
    destruct (unbounded_send_spec id d ss) as (ss1 & E1 & L1 & N1). rewrite E1.
    destruct (IH ss1 Hnd') as (ss2 & E2 & L2 & N2). rewrite E2.
    assert (Hf : filter (is_alive ss1) sn = filter (is_alive ss) sn).
    { apply filter_ext. intros k. unfold is_alive. rewrite N1.
      destruct (k =? id); [|reflexivity]. destruct (nth_error ss k) as [s|]; [|reflexivity].
      simpl. apply alive_send. }
    exists ss2. split; [|split; [congruence|]].
    + rewrite Hf. simpl. destruct (is_alive ss id); reflexivity.
    + intros k. rewrite N2, N1. destruct (Nat.eqb_spec k id) as [->|Hne].
      * destruct (in_dec Nat.eq_dec id sn) as [Hi|_]; [contradiction|].
        destruct (in_dec Nat.eq_dec id (id :: sn)) as [_|Hn]; [reflexivity|].
        exfalso. apply Hn. left. reflexivity.
      * destruct (in_dec Nat.eq_dec k sn) as [Hi|Hi], (in_dec Nat.eq_dec k (id :: sn)) as [Hj|Hj]; try reflexivity.
        -- exfalso. apply Hj. right. exact Hi.
        -- destruct Hj as [Hj|Hj]; [congruence|contradiction].
Qed.

(** Which channels a MutableVec is connected to. *)
Record wf {A} (st : mvec A) : Prop := {
  wf_nodup : NoDup (senders st);
  wf_range : forall id, In id (senders st) -> id < length (subs st);
  wf_alive : 0 < owners st -> forall id s, nth_error (subs st) id = Some s -> alive s = true -> In id (senders st) }.

Lemma notify_spec {A} (d : vecdiff A) st : wf st -> 0 < owners st ->
  wf (notify d st) /\ subs (notify d st) = map (send_alive d) (subs st).
Proof.
  intros W Ho. unfold notify.
  destruct (retain_send_spec d (senders st) (subs st) (wf_nodup _ W)) as (ss & E & L & N). rewrite E.
  assert (Hs : ss = map (send_alive d) (subs st)).
  { apply nth_error_ext. intros k. rewrite N, nth_error_map.
    destruct (in_dec Nat.eq_dec k (senders st)) as [_|Hn]; [reflexivity|].
    destruct (nth_error (subs st) k) as [s|] eqn:Ek; [|reflexivity].
    simpl. f_equal. unfold send_alive. destruct (alive s) eqn:Ea; [|reflexivity].
    exfalso. apply Hn. exact (wf_alive _ W Ho _ _ Ek Ea). }
  split; [|exact Hs]. constructor; cbn [senders subs owners].
  - apply NoDup_filter. apply W.
  - intros id Hi. apply filter_In in Hi. rewrite L. apply W. apply Hi.
  - intros _ id s Es Ha. apply filter_In. rewrite N in Es.
    assert (Hi : exists s0, nth_error (subs st) id = Some s0 /\ alive s0 = true).
    { destruct (in_dec Nat.eq_dec id (senders st)); [|exists s; auto].
      destruct (nth_error (subs st) id) as [s0|]; [|discriminate]. simpl in Es. injection Es as <-.
      rewrite alive_send in Ha. exists s0. auto. }
    destruct Hi as (s0 & E0 & A0). split; [exact (wf_alive _ W Ho _ _ E0 A0)|].
    unfold is_alive. rewrite E0. exact A0.
Qed.

Definition recv {A} (ds : list (vecdiff A)) (s : sub A) : sub A :=
  if alive s then
    mkSub (queue s ++ ds) (got s) true (match ds with [] => waiting s | _ => false end)
          (match ds with [] => woken s | _ => woken s || waiting s end)
  else s.

Lemma recv_nil {A} (s : sub A) : recv [] s = s.
Proof. unfold recv. destruct s as [q g [] w k]; simpl; rewrite ?app_nil_r; reflexivity. Qed.

Lemma recv_cons {A} d (ds : list (vecdiff A)) s : recv ds (send_alive d s) = recv (d :: ds) s.
Proof.
  unfold recv, send_alive. destruct s as [q g [] w k]; simpl; [|reflexivity].
  rewrite <- app_assoc. destruct ds; simpl; rewrite ?orb_false_r; reflexivity.
Qed.

Lemma notify_all_spec {A} (ds : list (vecdiff A)) : forall st, wf st -> 0 < owners st ->
  wf (notify_all ds st) /\ subs (notify_all ds st) = map (recv ds) (subs st).
Proof.
  induction ds as [|d ds IH]; intros st W Ho; simpl notify_all.
  - split; [exact W|]. rewrite (map_ext _ _ recv_nil), map_id. reflexivity.
  - destruct (notify_spec d st W Ho) as [W1 S1].
    change (wf (notify_all ds (notify d st)) /\ subs (notify_all ds (notify d st)) = map (recv (d :: ds)) (subs st)).
    destruct (IH (notify d st) W1) as [W2 S2]; [rewrite owners_notify; exact Ho|].
    split; [exact W2|]. rewrite S2, S1, map_map. apply map_ext. intros s. apply recv_cons.
Qed.

Lemma wf_set {A} (v : list A) st : wf st -> wf (set_values v st).
Proof. intros [H1 H2 H3]. constructor; simpl; assumption. Qed.

(** One operation, for every subscriber at once. *)
Lemma op_event {A} (o : op A) (v : list A) :
  (op_panics o v /\ exists v', forall st, values st = v -> wf st -> 0 < owners st -> poisoned st = false ->
      mv_op o st = Panic (set_values v' st) /\ mv_event (EOp o) st = poison (set_values v' st))
  \/ (~ op_panics o v /\ exists v' ds r,
      apply_all apply_to_vec v ds = Some v' /\ op_means o v v' r /\ (op_noop o v -> ds = [])
      /\ forall st, values st = v -> wf st -> 0 < owners st -> poisoned st = false ->
         mv_op o st = Done (mv_event (EOp o) st) r
         /\ wf (mv_event (EOp o) st) /\ values (mv_event (EOp o) st) = v'
         /\ subs (mv_event (EOp o) st) = map (recv ds) (subs st)
         /\ owners (mv_event (EOp o) st) = owners st /\ poisoned (mv_event (EOp o) st) = false).
Proof.
  destruct (op_cases o v) as [(Hp & v' & H)|(Hn & v' & ds & r & Ha & Hr & Hm & H0)].
  - left. split; [exact Hp|]. exists v'. intros st Hv W Ho Hpo. split; [apply H; exact Hv|].
    unfold mv_event. rewrite Hpo, (H st Hv). destruct (Nat.ltb_spec 0 (owners st)); [reflexivity|lia].
  - right. split; [exact Hn|]. exists v', ds, r. split; [exact Hr|]. split; [exact Hm|]. split; [exact H0|].
    intros st Hv W Ho Hpo.
    assert (E : mv_event (EOp o) st = set_values v' (notify_all ds st)).
    { unfold mv_event. rewrite Hpo, (Ha st Hv). destruct (Nat.ltb_spec 0 (owners st)); [reflexivity|lia]. }
    rewrite E. destruct (notify_all_spec ds st W Ho) as [W' S'].
    split; [apply Ha; exact Hv|]. split; [apply wf_set; exact W'|]. split; [reflexivity|].
    split; [exact S'|]. simpl. rewrite owners_notify_all, poisoned_notify_all. auto.
Qed.

(** ** Invariant of histories *)
Definition sub_ok {A} (st : mvec A) (s : sub A) : Prop :=
  alive s = true ->
  (exists v, replay (total s) = Some v /\ (poisoned st = false -> v = values st))
  /\ (waiting s = true -> queue s = [] /\ 0 < owners st)
  /\ (last_out (got s) Pending -> waiting s = true /\ woken s = false \/ woken s = true /\ (queue s <> [] \/ owners st = 0))
  /\ (In (Ready None) (got s) -> owners st = 0 /\ queue s = []).

Definition inv {A} (st : mvec A) : Prop :=
  wf st /\ forall id s, nth_error (subs st) id = Some s -> sub_ok st s.

(** Later states of one subscriber. *)
Definition extends {A} (s s' : sub A) : Prop :=
  (exists more, total s' = total s ++ more) /\ (exists polls, got s' = got s ++ polls).

Lemma extends_refl {A} (s : sub A) : extends s s.
Proof. split; exists []; rewrite app_nil_r; reflexivity. Qed.

Lemma extends_trans {A} (a b c : sub A) : extends a b -> extends b c -> extends a c.
Proof.
  intros [[x Hx] [y Hy]] [[x' Hx'] [y' Hy']]. split.
  - exists (x ++ x'). rewrite Hx', Hx, app_assoc. reflexivity.
  - exists (y ++ y'). rewrite Hy', Hy, app_assoc. reflexivity.
Qed.

Lemma total_recv {A} ds (s : sub A) : alive s = true -> total (recv ds s) = total s ++ ds.
Proof. intros H. unfold total, recv. rewrite H. simpl. apply app_assoc. Qed.

Lemma recv_extends {A} ds (s : sub A) : extends s (recv ds s).
Proof.
  destruct (alive s) eqn:E.
  - split; [exists ds; apply total_recv; exact E|]. exists []. unfold recv. rewrite E, app_nil_r. reflexivity.
  - unfold recv. rewrite E. apply extends_refl.
Qed.

Lemma alive_recv {A} ds (s : sub A) : alive (recv ds s) = alive s.
Proof. unfold recv. destruct (alive s) eqn:E; [reflexivity|exact E]. Qed.

Lemma total_poll {A} c (s : sub A) : total (fst (poll_sub c s)) = total s.
Proof.
  unfold total, poll_sub. destruct (queue s) as [|d q] eqn:E.
  - destruct c; simpl; rewrite yielded_app; simpl; rewrite !app_nil_r; reflexivity.
  - simpl. rewrite yielded_app, <- app_assoc. reflexivity.
Qed.

Lemma got_poll {A} c (s : sub A) : got (fst (poll_sub c s)) = got s ++ [snd (poll_sub c s)].
Proof. unfold poll_sub. destruct (queue s); [destruct c|]; reflexivity. Qed.

Lemma alive_poll {A} c (s : sub A) : alive (fst (poll_sub c s)) = alive s.
Proof. unfold poll_sub. destruct (queue s); [destruct c|]; reflexivity. Qed.

Lemma poll_sub_ok {A} (st : mvec A) s : sub_ok st s -> sub_ok st (fst (poll_sub (owners st =? 0) s)).
Proof.
  intros H Ha. rewrite alive_poll in Ha. specialize (H Ha). destruct H as (H1 & H2 & H3 & H4).
  split; [rewrite total_poll; exact H1|]. rewrite got_poll.
  unfold poll_sub. destruct (queue s) as [|d q] eqn:Eq.
  - destruct (Nat.eqb_spec (owners st) 0) as [Eo|Eo]; cbn [fst snd waiting woken queue].
    + split; [intros Hw; split; [reflexivity|apply H2; exact Hw]|]. split.
      * intros Hl. apply last_out_snoc in Hl. discriminate.
      * intros _. auto.
    + split; [intros _; split; [reflexivity|lia]|]. split; [auto|].
      intros Hi. apply in_app_iff in Hi. destruct Hi as [Hi|[Hi|[]]]; [auto|discriminate].
  - cbn [fst snd waiting woken queue]. split.
    + intros Hw. apply H2 in Hw. destruct Hw as [Hw _]. discriminate.
    + split.
      * intros Hl. apply last_out_snoc in Hl. discriminate.
      * intros Hi. apply in_app_iff in Hi. destruct Hi as [Hi|[Hi|[]]]; [|discriminate].
        apply H4 in Hi. destruct Hi as [_ Hi]. discriminate.
Qed.

(** What one event does to an existing subscriber. *)
Lemma event_extends {A} (e : event A) st id s : inv st -> nth_error (subs st) id = Some s ->
  exists s', nth_error (subs (mv_event e st)) id = Some s' /\ extends s s'.
Proof.
  intros [W Hall] Hs. destruct e as [o| |k|k| |].
  - destruct ((0 <? owners st) && negb (poisoned st)) eqn:Eb.
    + apply andb_prop in Eb. destruct Eb as [E1 E2]. apply Nat.ltb_lt in E1. apply negb_true_iff in E2.
      destruct (op_event o (values st)) as [(_ & v' & H)|(_ & v' & ds & r & _ & _ & _ & H)];
        specialize (H st eq_refl W E1 E2).
      * destruct H as [_ H]. rewrite H. simpl. exists s. split; [exact Hs|apply extends_refl].
      * destruct H as (_ & _ & _ & H & _). rewrite H, nth_error_map, Hs. eexists. split; [reflexivity|apply recv_extends].
    + unfold mv_event. rewrite Eb. exists s. split; [exact Hs|apply extends_refl].
  - exists s. split; [|apply extends_refl]. unfold mv_event, mv_subscribe.
    destruct (_ && _); [|exact Hs]. simpl. rewrite nth_error_app1; [exact Hs|]. apply nth_error_Some. congruence.
  - unfold mv_event. destruct (nth_error (subs st) k) as [t|] eqn:Ek; [|exists s; split; [exact Hs|apply extends_refl]].
    destruct (alive t); [|exists s; split; [exact Hs|apply extends_refl]].
    unfold set_sub. cbn [subs]. rewrite (nth_replace _ _ _ _ _ Ek). destruct (Nat.eqb_spec id k) as [->|].
    + eexists. split; [reflexivity|]. rewrite Ek in Hs. injection Hs as ->. split.
      * exists []. rewrite total_poll, app_nil_r. reflexivity.
      * rewrite got_poll. eexists. reflexivity.
    + exists s. split; [exact Hs|apply extends_refl].
  - unfold mv_event. destruct (nth_error (subs st) k) as [t|] eqn:Ek; [|exists s; split; [exact Hs|apply extends_refl]].
    unfold set_sub. cbn [subs]. rewrite (nth_replace _ _ _ _ _ Ek). destruct (Nat.eqb_spec id k) as [->|].
    + eexists. split; [reflexivity|]. rewrite Ek in Hs. injection Hs as ->. split; exists []; rewrite app_nil_r; reflexivity.
    + exists s. split; [exact Hs|apply extends_refl].
  - exists s. split; [|apply extends_refl]. unfold mv_event. destruct (0 <? owners st); exact Hs.
  - unfold mv_event. destruct (owners st) as [|[|n]].
    + exists s. split; [exact Hs|apply extends_refl].
    + cbn [subs]. rewrite nth_error_map, Hs. eexists. split; [reflexivity|]. split; exists []; rewrite app_nil_r; reflexivity.
    + exists s. split; [exact Hs|apply extends_refl].
Qed.

Lemma event_inv {A} (e : event A) st : inv st -> inv (mv_event e st).
Proof.
  intros [W Hall]. destruct e as [o| |k|k| |].
  - destruct ((0 <? owners st) && negb (poisoned st)) eqn:Eb.
    + apply andb_prop in Eb. destruct Eb as [E1 E2]. apply Nat.ltb_lt in E1. apply negb_true_iff in E2.
      destruct (op_event o (values st)) as [(_ & v' & H)|(_ & v' & ds & r & Hr & _ & _ & H)];
        specialize (H st eq_refl W E1 E2).
      * destruct H as [_ H]. rewrite H. split.
        -- destruct W as [W1 W2 W3]. constructor; simpl; assumption.
        -- intros id s Hs Ha. simpl in Hs. destruct (Hall id s Hs Ha) as ((v & H1 & _) & H2 & H3 & H4).
           simpl. split; [|auto]. exists v. split; [exact H1|discriminate].
      * destruct H as (_ & W' & Hv & Hsub & Ho & Hp). split; [exact W'|].
        intros id s' Hs' Ha'. rewrite Hsub, nth_error_map in Hs'.
        destruct (nth_error (subs st) id) as [s|] eqn:Hs; [|discriminate]. simpl in Hs'. injection Hs' as <-.
        rewrite alive_recv in Ha'. destruct (Hall id s Hs Ha') as ((v & H1 & H1') & H2 & H3 & H4).
        rewrite (H1' E2) in *. rewrite Ho, Hv.
        split; [|split; [|split]].
        -- exists v'. split; [|reflexivity]. rewrite total_recv by exact Ha'. rewrite replay_app, H1. exact Hr.
        -- unfold recv. rewrite Ha'. cbn [waiting queue]. destruct ds; [rewrite app_nil_r; exact H2|discriminate].
        -- unfold recv. rewrite Ha'. cbn [got waiting woken queue]. intros Hl. apply H3 in Hl.
           destruct ds; [rewrite app_nil_r; exact Hl|]. right. split.
           ++ destruct Hl as [[Hl _]|[Hl _]]; rewrite Hl; [apply orb_true_r|reflexivity].
           ++ left. intros Hn. apply app_eq_nil in Hn. destruct Hn. discriminate.
        -- unfold recv. rewrite Ha'. cbn [got queue]. intros Hi. apply H4 in Hi. lia.
    + unfold mv_event. rewrite Eb. split; assumption.
  - unfold mv_event. destruct ((0 <? owners st) && negb (poisoned st)) eqn:Eb; [|split; assumption].
    apply andb_prop in Eb. destruct Eb as [E1 E2]. apply Nat.ltb_lt in E1. apply negb_true_iff in E2.
    unfold mv_subscribe. split.
    + destruct W as [W1 W2 W3]. constructor; cbn [senders subs owners].
      * apply NoDup_rev in W1. rewrite <- (rev_involutive (senders st ++ _)). apply NoDup_rev.
        rewrite rev_app_distr. simpl. constructor; [|exact W1]. rewrite <- in_rev. intros Hi. apply W2 in Hi. lia.
      * intros id Hi. rewrite app_length. simpl. apply in_app_iff in Hi. destruct Hi as [Hi|[<-|[]]]; [apply W2 in Hi|]; lia.
      * intros _ id s Hs Ha. apply in_app_iff. destruct (Nat.lt_ge_cases id (length (subs st))) as [Hlt|Hge].
        -- rewrite nth_error_app1 in Hs by exact Hlt. left. exact (W3 E1 _ _ Hs Ha).
        -- right. left. assert (id < length (subs st ++ [mkSub (if 0 <? length (values st) then [Replace (values st)] else []) [] true false false])).
           { apply nth_error_Some. rewrite Hs. discriminate. }
           rewrite app_length in H. simpl in H. lia.
    + intros id s Hs Ha. cbn [subs] in Hs. destruct (Nat.lt_ge_cases id (length (subs st))) as [Hlt|Hge].
      * rewrite nth_error_app1 in Hs by exact Hlt. exact (Hall id s Hs Ha).
      * rewrite nth_error_app2 in Hs by exact Hge. destruct (id - length (subs st)) as [|m]; [|destruct m; discriminate].
        simpl in Hs. injection Hs as <-. split; [|split; [|split]].
        -- exists (values st). split; [|reflexivity]. unfold total. simpl. destruct (values st); reflexivity.
        -- simpl. discriminate.
        -- simpl. intros Hl. destruct (last_out_nil _ Hl).
        -- simpl. tauto.
  - unfold mv_event. destruct (nth_error (subs st) k) as [t|] eqn:Ek; [|split; assumption].
    destruct (alive t) eqn:Ea; [|split; assumption].
    unfold set_sub. split.
    + destruct W as [W1 W2 W3]. constructor; cbn [senders subs owners].
      * exact W1.
      * intros id Hi. rewrite (length_replace _ _ _ _ Ek). apply W2. exact Hi.
      * intros Ho id s Hs Ha. rewrite (nth_replace _ _ _ _ _ Ek) in Hs.
        destruct (Nat.eqb_spec id k) as [->|]; [exact (W3 Ho _ _ Ek Ea)|exact (W3 Ho _ _ Hs Ha)].
    + intros id s Hs. cbn [subs] in Hs. rewrite (nth_replace _ _ _ _ _ Ek) in Hs.
      destruct (Nat.eqb_spec id k) as [->|]; [|exact (Hall id s Hs)].
      injection Hs as <-. exact (poll_sub_ok st t (Hall k t Ek)).
  - unfold mv_event. destruct (nth_error (subs st) k) as [t|] eqn:Ek; [|split; assumption].
    unfold set_sub. split.
    + destruct W as [W1 W2 W3]. constructor; cbn [senders subs owners].
      * exact W1.
      * intros id Hi. rewrite (length_replace _ _ _ _ Ek). apply W2. exact Hi.
      * intros Ho id s Hs Ha. rewrite (nth_replace _ _ _ _ _ Ek) in Hs.
        destruct (Nat.eqb_spec id k) as [->|]; [injection Hs as <-; discriminate Ha|exact (W3 Ho _ _ Hs Ha)].
    + intros id s Hs. cbn [subs] in Hs. rewrite (nth_replace _ _ _ _ _ Ek) in Hs.
      destruct (Nat.eqb_spec id k) as [->|]; [|exact (Hall id s Hs)].
      injection Hs as <-. intros Ha. discriminate Ha.
  - unfold mv_event. destruct (Nat.ltb_spec 0 (owners st)) as [Ho|Ho]; [|split; assumption]. split.
    + destruct W as [W1 W2 W3]. constructor; cbn [senders subs owners]; [exact W1|exact W2|]. intros _. apply W3. exact Ho.
    + intros id s Hs Ha. destruct (Hall id s Hs Ha) as (H1 & H2 & H3 & H4). split; [exact H1|]. cbn [owners].
      split; [intros Hw; split; [apply H2; exact Hw|lia]|]. 
      split; [intros Hl; destruct (H3 Hl) as [Hx|[Hx [Hy|Hy]]]; [left; exact Hx|right; split; [exact Hx|left; exact Hy]|exfalso; lia]|].
      intros Hi. apply H4 in Hi. lia.
  - unfold mv_event. destruct (owners st) as [|[|n]] eqn:Eo; [split; assumption| |].
    + split.
      * constructor; cbn [senders subs owners]; [constructor|intros id []|lia].
      * intros id s' Hs' Ha'. cbn [subs] in Hs'. rewrite nth_error_map in Hs'.
        destruct (nth_error (subs st) id) as [s|] eqn:Hs; [|discriminate]. simpl in Hs'. injection Hs' as <-.
        destruct (Hall id s Hs Ha') as (H1 & H2 & H3 & H4). split; [exact H1|]. simpl.
        split; [discriminate|]. split; [|intros Hi; apply H4 in Hi; lia].
        intros Hl. right. split; [|right; reflexivity]. destruct (H3 Hl) as [[E _]|[E _]]; rewrite E; [apply orb_true_r|reflexivity].
    + split.
      * destruct W as [W1 W2 W3]. constructor; cbn [senders subs owners]; [exact W1|exact W2|]. intros _. apply W3. lia.
      * intros id s Hs Ha. destruct (Hall id s Hs Ha) as (H1 & H2 & H3 & H4). split; [exact H1|]. cbn [owners].
        split; [intros Hw; split; [apply H2; exact Hw|lia]|]. 
      split; [intros Hl; destruct (H3 Hl) as [Hx|[Hx [Hy|Hy]]]; [left; exact Hx|right; split; [exact Hx|left; exact Hy]|exfalso; lia]|].
      intros Hi. apply H4 in Hi. lia.
Qed.

Lemma new_inv {A} (v : list A) : inv (mv_new v).
Proof.
  split.
  - constructor; simpl; [constructor|tauto|]. intros _ id s Hs. destruct id; discriminate.
  - intros id s Hs. destruct id; discriminate.
Qed.

Lemma run_mv_inv {A} (es : list (event A)) : forall st, inv st -> inv (mv_run es st).
Proof.
  induction es as [|e es IH]; intros st H; [exact H|]. simpl. apply IH. apply event_inv. exact H.
Qed.

Lemma mv_run_app {A} (a b : list (event A)) st : mv_run (a ++ b) st = mv_run b (mv_run a st).
Proof. apply fold_left_app. Qed.

Lemma run_extends {A} (es : list (event A)) : forall st id s, inv st -> nth_error (subs st) id = Some s ->
  exists s', nth_error (subs (mv_run es st)) id = Some s' /\ extends s s'.
Proof.
  induction es as [|e es IH]; intros st id s Hi Hs; [exists s; split; [exact Hs|apply extends_refl]|].
  destruct (event_extends e st id s Hi Hs) as (s1 & H1 & X1).
  destruct (IH (mv_event e st) id s1 (event_inv e st Hi) H1) as (s2 & H2 & X2).
  exists s2. split; [exact H2|]. exact (extends_trans _ _ _ X1 X2).
Qed.

(** ** C01 *)
Lemma mv_lossless {A} (v : list A) es id s :
  nth_error (subs (mv_run es (mv_new v))) id = Some s -> alive s = true ->
  poisoned (mv_run es (mv_new v)) = false ->
  replay (total s) = Some (values (mv_run es (mv_new v))).
Proof.
  intros Hs Ha Hp. destruct (run_mv_inv es _ (new_inv v)) as [_ H].
  destruct (H id s Hs Ha) as ((w & E & E') & _). rewrite E, (E' Hp). reflexivity.
Qed.

Lemma mv_history {A} (v : list A) es1 es2 id s1 :
  nth_error (subs (mv_run es1 (mv_new v))) id = Some s1 -> alive s1 = true ->
  poisoned (mv_run es1 (mv_new v)) = false ->
  exists s2 more, nth_error (subs (mv_run (es1 ++ es2) (mv_new v))) id = Some s2
    /\ total s2 = total s1 ++ more
    /\ replay (total s1) = Some (values (mv_run es1 (mv_new v))).
Proof.
  intros Hs Ha Hp. rewrite mv_run_app.
  destruct (run_extends es2 _ id s1 (run_mv_inv es1 _ (new_inv v)) Hs) as (s2 & H2 & (more & E) & _).
  exists s2, more. split; [exact H2|]. split; [exact E|]. exact (mv_lossless v es1 id s1 Hs Ha Hp).
Qed.

(** A subscriber that keeps polling receives everything. *)
Lemma poll_one {A} (st : mvec A) id s : nth_error (subs st) id = Some s -> alive s = true ->
  nth_error (subs (mv_event (EPoll id) st)) id = Some (fst (poll_sub (owners st =? 0) s))
  /\ values (mv_event (EPoll id) st) = values st /\ poisoned (mv_event (EPoll id) st) = poisoned st.
Proof.
  intros Hs Ha. unfold mv_event. rewrite Hs, Ha. unfold set_sub. cbn [subs values poisoned].
  rewrite (nth_replace _ _ _ _ _ Hs), Nat.eqb_refl. auto.
Qed.

Lemma poll_drains {A} (n : nat) : forall (st : mvec A) id s,
  nth_error (subs st) id = Some s -> alive s = true -> length (queue s) <= n ->
  exists s', nth_error (subs (mv_run (repeat (EPoll id) n) st)) id = Some s' /\ alive s' = true
    /\ drained s' /\ total s' = total s
    /\ values (mv_run (repeat (EPoll id) n) st) = values st
    /\ poisoned (mv_run (repeat (EPoll id) n) st) = poisoned st.
Proof.
  induction n as [|n IH]; intros st id s Hs Ha Hl.
  - exists s. simpl. split; [exact Hs|]. split; [exact Ha|]. split; [|auto].
    unfold drained. apply length_zero_iff_nil. lia.
  - destruct (poll_one st id s Hs Ha) as (H1 & H2 & H3).
    simpl. destruct (IH (mv_event (EPoll id) st) id _ H1) as (s' & S1 & S2 & S3 & S4 & S5 & S6).
    + rewrite alive_poll. exact Ha.
    + unfold poll_sub. destruct (queue s); [destruct (owners st =? 0); simpl; lia|]. simpl in *. lia.
    + exists s'. split; [exact S1|]. split; [exact S2|]. split; [exact S3|].
      split; [rewrite S4; apply total_poll|]. rewrite <- H2, <- H3. auto.
Qed.

Lemma mv_catches_up {A} (v : list A) es id s :
  nth_error (subs (mv_run es (mv_new v))) id = Some s -> alive s = true ->
  poisoned (mv_run es (mv_new v)) = false ->
  exists n s', nth_error (subs (mv_run (es ++ repeat (EPoll id) n) (mv_new v))) id = Some s'
    /\ replay (yielded (got s')) = Some (values (mv_run es (mv_new v))).
Proof.
  intros Hs Ha Hp. exists (length (queue s)). rewrite mv_run_app.
  destruct (poll_drains (length (queue s)) _ id s Hs Ha (le_n _)) as (s' & H1 & _ & H2 & H3 & _).
  exists s'. split; [exact H1|]. rewrite <- (mv_lossless v es id s Hs Ha Hp), <- H3.
  unfold total. rewrite H2, app_nil_r. reflexivity.
Qed.

(** ** C02, C03, C04, C05 *)
Lemma mv_reach_wf {A} (v : list A) es : wf (mv_run es (mv_new v)).
Proof. apply (run_mv_inv es _ (new_inv v)). Qed.

Lemma mv_op_means {A} (v : list A) es (o : op A) :
  let st := mv_run es (mv_new v) in
  0 < owners st -> poisoned st = false -> ~ op_panics o (values st) ->
  exists st' r, mv_op o st = Done st' r /\ mv_event (EOp o) st = st'
    /\ op_means o (values st) (values st') r /\ poisoned st' = false.
Proof.
  intros st Ho Hp Hn. destruct (op_event o (values st)) as [(Hb & _)|(_ & v' & ds & r & _ & Hm & _ & H)]; [contradiction|].
  destruct (H st eq_refl (mv_reach_wf v es) Ho Hp) as (H1 & _ & H2 & _ & _ & H3).
  exists (mv_event (EOp o) st), r. rewrite H2. auto.
Qed.

Lemma mv_op_panics {A} (v : list A) es (o : op A) :
  let st := mv_run es (mv_new v) in
  0 < owners st -> poisoned st = false ->
  ((exists st', mv_op o st = Panic st') <-> op_panics o (values st))
  /\ (op_panics o (values st) -> subs (mv_event (EOp o) st) = subs st).
Proof.
  intros st Ho Hp. destruct (op_event o (values st)) as [(Hb & v' & H)|(Hn & v' & ds & r & _ & _ & _ & H)];
    specialize (H st eq_refl (mv_reach_wf v es) Ho Hp).
  - destruct H as [H1 H2]. split; [|intros _; rewrite H2; reflexivity].
    split; [intros _; exact Hb|]. intros _. rewrite H1. eexists. reflexivity.
  - destruct H as [H1 _]. split; [|contradiction]. split; [|contradiction].
    intros [st' E]. rewrite H1 in E. discriminate.
Qed.

Lemma mv_noop {A} (v : list A) es (o : op A) :
  let st := mv_run es (mv_new v) in
  0 < owners st -> poisoned st = false -> op_noop o (values st) -> ~ op_panics o (values st) ->
  subs (mv_event (EOp o) st) = subs st /\ values (mv_event (EOp o) st) = values st.
Proof.
  intros st Ho Hp H0 Hn. destruct (op_event o (values st)) as [(Hb & _)|(_ & v' & ds & r & Ha & _ & Hd & H)]; [contradiction|].
  destruct (H st eq_refl (mv_reach_wf v es) Ho Hp) as (_ & _ & H2 & H3 & _).
  rewrite (Hd H0) in *. simpl in Ha. injection Ha as <-. split; [|exact H2].
  rewrite H3, (map_ext _ _ recv_nil), map_id. reflexivity.
Qed.

Lemma mv_change_notifies {A} (v : list A) es (o : op A) id s :
  let st := mv_run es (mv_new v) in
  0 < owners st -> poisoned st = false -> ~ op_panics o (values st) ->
  values (mv_event (EOp o) st) <> values st ->
  nth_error (subs st) id = Some s -> alive s = true ->
  exists s' d ds, nth_error (subs (mv_event (EOp o) st)) id = Some s' /\ total s' = total s ++ d :: ds
    /\ (waiting s = true -> woken s' = true).
Proof.
  intros st Ho Hp Hn Hch Hs Ha.
  destruct (op_event o (values st)) as [(Hb & _)|(_ & v' & ds & r & Hr & _ & _ & H)]; [contradiction|].
  destruct (H st eq_refl (mv_reach_wf v es) Ho Hp) as (_ & _ & H2 & H3 & _).
  destruct ds as [|d ds].
  - simpl in Hr. injection Hr as <-. contradiction.
  - exists (recv (d :: ds) s), d, ds. rewrite H3, nth_error_map, Hs. split; [reflexivity|].
    split; [apply total_recv; exact Ha|]. intros Hw. unfold recv. rewrite Ha. simpl. rewrite Hw. apply orb_true_r.
Qed.

Lemma mv_isolation {A} (o : op A) (contents : list A) : ~ op_panics o contents ->
  exists contents' r ds, forall (v : list A) es,
    let st := mv_run es (mv_new v) in
    0 < owners st -> poisoned st = false -> values st = contents ->
    mv_op o st = Done (mv_event (EOp o) st) r
    /\ values (mv_event (EOp o) st) = contents'
    /\ forall id s, nth_error (subs st) id = Some s ->
       exists s', nth_error (subs (mv_event (EOp o) st)) id = Some s'
         /\ got s' = got s /\ alive s' = alive s
         /\ total s' = if alive s then total s ++ ds else total s.
Proof.
  intros Hn. destruct (op_event o contents) as [(Hb & _)|(_ & v' & ds & r & Hr & _ & _ & H)]; [contradiction|].
  exists v', r, ds. intros v es st Ho Hp Hv.
  destruct (H st Hv (mv_reach_wf v es) Ho Hp) as (H1 & _ & H2 & H3 & _).
  split; [exact H1|]. split; [exact H2|]. intros id s Hs. exists (recv ds s).
  rewrite H3, nth_error_map, Hs. split; [reflexivity|]. split; [unfold recv; destruct (alive s); reflexivity|].
  split; [apply alive_recv|]. destruct (alive s) eqn:E; [apply total_recv; exact E|]. unfold recv. rewrite E. reflexivity.
Qed.

Lemma mv_other_events {A} (e : event A) st id s :
  nth_error (subs st) id = Some s ->
  (e = ESubscribe \/ e = EClone \/ (exists k, k <> id /\ (e = EPoll k \/ e = EDropSub k))) ->
  nth_error (subs (mv_event e st)) id = Some s /\ values (mv_event e st) = values st.
Proof.
  intros Hs [->|[->|(k & Hk & [->| ->])]]; unfold mv_event.
  - destruct (_ && _); [|auto]. unfold mv_subscribe. cbn [subs values]. split; [|reflexivity].
    rewrite nth_error_app1; [exact Hs|]. apply nth_error_Some. congruence.
  - destruct (0 <? owners st); auto.
  - destruct (nth_error (subs st) k) as [t|] eqn:Ek; [|auto]. destruct (alive t); [|auto].
    unfold set_sub. cbn [subs values]. rewrite (nth_replace _ _ _ _ _ Ek).
    destruct (Nat.eqb_spec id k); [congruence|]. auto.
  - destruct (nth_error (subs st) k) as [t|] eqn:Ek; [|auto].
    unfold set_sub. cbn [subs values]. rewrite (nth_replace _ _ _ _ _ Ek).
    destruct (Nat.eqb_spec id k); [congruence|]. auto.
Qed.

(** ** C06 *)
Definition is_drop {A} (e : event A) : bool := match e with EDrop => true | _ => false end.

Lemma apply_diff_event {A} (d : vecdiff A) st v' : wf st -> 0 < owners st -> poisoned st = false ->
  apply_to_vec d (values st) = Some v' ->
  values (mv_event (EOp (OApply d)) st) = v' /\ poisoned (mv_event (EOp (OApply d)) st) = false
  /\ owners (mv_event (EOp (OApply d)) st) = owners st.
Proof.
  intros W Ho Hp E. destruct (op_event (OApply d) (values st)) as [(Hb & _)|(_ & v2 & ds & r & _ & Hm & _ & H)].
  - exfalso. assert (Hd : diff_panics d (values st)).
    { destruct d; try exact Hb. simpl in Hb. destruct Hb as [_ Hb]. exact Hb. }
    apply apply_panics in Hd. congruence.
  - destruct (H st eq_refl W Ho Hp) as (_ & _ & H2 & _ & H3 & H4). rewrite H2, H3, H4.
    split; [|auto]. destruct Hm as [[Hm|(a & -> & ->)] _].
    + exact (means_unique _ _ _ _ Hm (apply_means _ _ _ E)).
    + cbn [apply_to_vec] in E. destruct (vremove a (values st)) as [[x w]|] eqn:Er; [|discriminate].
      apply vremove_inv in Er. destruct Er as (p & s & -> & -> & <-).
      rewrite vinsert_app in E by reflexivity. congruence.
Qed.

Lemma other_event_values {A} (e : event A) st : inv st -> 0 < owners st ->
  match e with EOp _ | EDrop => False | _ => True end ->
  values (mv_event e st) = values st /\ poisoned (mv_event e st) = poisoned st /\ 0 < owners (mv_event e st).
Proof.
  intros _ Ho He. destruct e as [o| |k|k| |]; try contradiction; unfold mv_event.
  - destruct (_ && _); auto.
  - destruct (nth_error (subs st) k) as [t|]; [|auto]. destruct (alive t); auto.
  - destruct (nth_error (subs st) k) as [t|]; auto.
  - destruct (Nat.ltb_spec 0 (owners st)); [|auto]. simpl. repeat split. lia.
Qed.

Lemma replicate_values {A} (es : list (event A)) : forall st ds v',
  inv st -> 0 < owners st -> poisoned st = false ->
  driven_by es ds -> apply_all apply_to_vec (values st) ds = Some v' ->
  values (mv_run es st) = v' /\ poisoned (mv_run es st) = false /\ 0 < owners (mv_run es st).
Proof.
  induction es as [|e es IH]; intros st ds v' Hi Ho Hp Hd Ha.
  - inversion Hd; subst. simpl in *. injection Ha as <-. auto.
  - simpl. inversion Hd as [|d es' ds' Hd' E1 E2|e' es' ds' He Hd' E1 E2]; subst.
    + simpl in Ha. destruct (apply_to_vec d (values st)) as [v1|] eqn:E; [|discriminate].
      destruct (apply_diff_event d st v1 (proj1 Hi) Ho Hp E) as (H1 & H2 & H3).
      apply (IH _ ds'); [apply event_inv; exact Hi|rewrite H3; exact Ho|exact H2|exact Hd'|rewrite H1; exact Ha].
    + destruct (other_event_values e st Hi Ho He) as (H1 & H2 & H3).
      apply (IH _ ds); [apply event_inv; exact Hi|exact H3|rewrite H2; exact Hp|exact Hd'|rewrite H1; exact Ha].
Qed.

Lemma mv_replication {A} (ds ds' : list (vecdiff A)) v : replay ds = Some v -> replicated ds ds' -> replay ds' = Some v.
Proof.
  intros Hv Hr. induction Hr as [ds|ds es id s ds' Hd Hs Ha Hr IH]; [exact Hv|].
  apply IH. destruct (replicate_values es (mv_new []) ds v (new_inv []) (le_n 1) eq_refl Hd Hv) as (H1 & H2 & _).
  rewrite (mv_lossless [] es id s Hs Ha H2), H1. reflexivity.
Qed.

Lemma mv_replica_contents {A} (ds : list (vecdiff A)) v es : replay ds = Some v -> driven_by es ds ->
  values (mv_run es (mv_new [])) = v /\ poisoned (mv_run es (mv_new [])) = false.
Proof.
  intros Hv Hd. destruct (replicate_values es (mv_new []) ds v (new_inv []) (le_n 1) eq_refl Hd Hv) as (H1 & H2 & _). auto.
Qed.

(** ** C59 *)
Lemma mv_wakes {A} (v : list A) es id s :
  nth_error (subs (mv_run es (mv_new v))) id = Some s -> alive s = true ->
  (last_out (got s) Pending -> (woken s = true <-> queue s <> [] \/ owners (mv_run es (mv_new v)) = 0))
  /\ (In (Ready None) (got s) -> owners (mv_run es (mv_new v)) = 0 /\ drained s).
Proof.
  intros Hs Ha. destruct (run_mv_inv es _ (new_inv v)) as [_ H].
  destruct (H id s Hs Ha) as (_ & H2 & H3 & H4). split; [|exact H4].
  intros Hl. destruct (H3 Hl) as [[Hw Hk]|[Hk Hq]]; [|tauto]. split; [congruence|]. intros Hq. exfalso.
  apply H2 in Hw. destruct Hw as [W1 W2]. destruct Hq; [contradiction|lia].
Qed.

Lemma mv_polls {A} (v : list A) es id s :
  let st := mv_run es (mv_new v) in
  nth_error (subs st) id = Some s -> alive s = true ->
  exists s', nth_error (subs (mv_event (EPoll id) st)) id = Some s' /\
    match queue s with
    | d :: q => got s' = got s ++ [Ready (Some d)] /\ queue s' = q
    | [] => queue s' = [] /\ (owners st = 0 -> got s' = got s ++ [Ready None]) /\ (0 < owners st -> got s' = got s ++ [Pending])
    end.
Proof.
  intros st Hs Ha. destruct (poll_one st id s Hs Ha) as (H1 & _). eexists. split; [exact H1|].
  unfold poll_sub. destruct (queue s) as [|d q]; [|auto].
  destruct (Nat.eqb_spec (owners st) 0) as [E|E]; simpl; repeat split; intros; try lia; reflexivity.
Qed.

(** ** Dropped subscribers are forgotten *)
Lemma notify_forgets {A} (d : vecdiff A) st id : wf st -> 0 < owners st ->
  In id (senders (notify d st)) -> is_alive (subs (notify d st)) id = true.
Proof.
  intros W Ho. destruct (notify_spec d st W Ho) as [_ Hs]. rewrite Hs. unfold notify.
  destruct (retain_send_spec d (senders st) (subs st) (wf_nodup _ W)) as (ss & E & _ & _). rewrite E.
  cbn [senders]. intros Hi. apply filter_In in Hi. destruct Hi as [_ Hi]. unfold is_alive in *.
  rewrite nth_error_map. destruct (nth_error (subs st) id) as [s|]; [|discriminate].
  simpl. rewrite alive_send. exact Hi.
Qed.

Lemma notify_all_forgets {A} (ds : list (vecdiff A)) : forall d st id, wf st -> 0 < owners st ->
  In id (senders (notify_all (d :: ds) st)) -> is_alive (subs (notify_all (d :: ds) st)) id = true.
Proof.
  induction ds as [|d' ds IH]; intros d st id W Ho; [apply notify_forgets; assumption|].
  intros Hi. apply (IH d' (notify d st)); [apply notify_spec; assumption|rewrite owners_notify; exact Ho|exact Hi].
Qed.

Lemma mv_forgets {A} (v : list A) es (o : op A) id :
  let st := mv_run es (mv_new v) in
  0 < owners st -> poisoned st = false -> ~ op_panics o (values st) ->
  values (mv_event (EOp o) st) <> values st ->
  In id (senders (mv_event (EOp o) st)) ->
  exists s, nth_error (subs (mv_event (EOp o) st)) id = Some s /\ alive s = true.
Proof.
  intros st Ho Hp Hn Hch Hi.
  destruct (op_cases o (values st)) as [(Hb & _)|(_ & v' & ds & r & Ha & Hr & _)]; [contradiction|].
  assert (E : mv_event (EOp o) st = set_values v' (notify_all ds st)).
  { unfold mv_event. rewrite Hp, (Ha st eq_refl). destruct (Nat.ltb_spec 0 (owners st)); [reflexivity|lia]. }
  rewrite E in *. destruct ds as [|d ds].
  - simpl in Hr. injection Hr as <-. exfalso. apply Hch. reflexivity.
  - cbn [senders subs set_values] in *.
    pose proof (notify_all_forgets ds d st id (mv_reach_wf v es) Ho Hi) as H. unfold is_alive in H.
    destruct (nth_error _ id) as [s|]; [exists s; auto|discriminate].
Qed.
