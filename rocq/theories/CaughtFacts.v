(** Proofs for Caught.v. *)
From Verif Require Import Base Spec BaseFacts VecDiff VecSpec VecFacts VecDiffFacts MutVec MutVecSpec MutVecFacts MutVecRun Caught.

(** *** Operations with a bad index *)
Definition without {A} (a : nat) (v : list A) : list A := firstn a v ++ skipn (a + 1) v.

Lemma move_panics {A} (a b : nat) (st : mvec A) : a <> b -> length (values st) <= a \/ length (values st) <= b ->
  mv_move_from_to a b st = Panic (set_values (if a <? length (values st) then without a (values st) else values st) st).
Proof.
  intros Hn H. unfold mv_move_from_to. destruct (Nat.eqb_spec a b); [contradiction|]. cbn [negb]. unfold vremove.
  destruct (Nat.ltb_spec a (length (values st))) as [Ha|Ha].
  - destruct (nth_error (values st) a) as [x|] eqn:E; [|apply nth_error_None in E; lia]. cbn [values set_values]. unfold vinsert.
    fold (without a (values st)). assert (L : length (without a (values st)) = length (values st) - 1).
    { unfold without. rewrite app_length, firstn_length, skipn_length. lia. }
    rewrite L. destruct (Nat.leb_spec b (length (values st) - 1)); [lia|]. reflexivity.
  - rewrite (proj2 (nth_error_None _ _) Ha), set_same. reflexivity.
Qed.

Lemma op_panics_exact {A} (o : op A) (st : mvec A) : op_panics o (values st) ->
  exists v, mv_op o st = Panic (set_values v st) /\ ((exists a, loses o (values st) a /\ v = without a (values st)) \/ (v = values st /\ ~ exists a, loses o (values st) a)).
Proof.
  intros H.
  assert (K : mv_op o st = Panic st -> (forall a b, o <> OMove a b /\ o <> OSwap a b /\ o <> OApply (Move a b)) ->
    exists v, mv_op o st = Panic (set_values v st) /\ ((exists a, loses o (values st) a /\ v = without a (values st)) \/ (v = values st /\ ~ exists a, loses o (values st) a))).
  { intros E Ho. exists (values st). rewrite set_same. split; [exact E|]. right. split; [reflexivity|]. intros (a & b & Hb & _). destruct (Ho a b) as (? & ? & ?). tauto. }
  assert (KM : forall a b, o = OMove a b \/ o = OSwap a b \/ o = OApply (Move a b) -> a <> b -> length (values st) <= a \/ length (values st) <= b ->
    mv_op o st = Panic (set_values (if a <? length (values st) then without a (values st) else values st) st) ->
    exists v, mv_op o st = Panic (set_values v st) /\ ((exists a, loses o (values st) a /\ v = without a (values st)) \/ (v = values st /\ ~ exists a, loses o (values st) a))).
  { intros a b Ho Hn Hl E. eexists. split; [exact E|]. destruct (Nat.ltb_spec a (length (values st))) as [Ha|Ha].
    - left. exists a. split; [|reflexivity]. exists b. split; [exact Ho|]. lia.
    - right. split; [reflexivity|]. intros (a' & b' & Hb' & Hla & _). assert (a' = a) by (destruct Ho as [-> | [-> | ->]], Hb' as [?|[?|?]]; congruence). lia. }
  destruct o as [|i|o n|  |f|b1 b2|n|a b| |x|i x|i x|vs|x|i x|i x|vs|vs|d]; cbn [op_panics] in H; try contradiction; cbn [mv_op].
  - apply K; [|intros; repeat split; discriminate]. unfold mv_remove, vremove. cbn [mv_op]. unfold mv_remove, vremove. rewrite (proj2 (nth_error_None _ _) H). reflexivity.
  - destruct H as [Hn Hl]. apply (KM o n); auto. cbn [mv_op]. rewrite (move_panics _ _ _ Hn Hl). reflexivity.
  - apply K; [|intros; repeat split; discriminate]. cbn [mv_op]. unfold mv_drain.
    assert (E : convert_range b1 b2 (length (values st)) = None); [|rewrite E; reflexivity].
    unfold convert_range. unfold bounds in H. cbn [fst snd] in H.
    match goal with |- context [?x <? ?y] => destruct (Nat.ltb_spec x y) as [L|L] end; [reflexivity|].
    match goal with |- context [?x <? ?y] => destruct (Nat.ltb_spec x y) as [L1|L1] end; [reflexivity|]. lia.
  - destruct H as [Hn Hl]. apply (KM a b); auto. cbn [mv_op]. unfold mv_swap. destruct (Nat.ltb_spec a b); [|destruct (Nat.ltb_spec b a); [|lia]];
      rewrite (move_panics _ _ _ Hn Hl); reflexivity.
  - apply K; [|intros; repeat split; discriminate]. cbn [mv_op]. unfold mv_insert_copy. destruct (Nat.eqb_spec i (length (values st))); [lia|]. rewrite vinsert_out by lia. reflexivity.
  - apply K; [|intros; repeat split; discriminate]. cbn [mv_op]. unfold mv_set_copy. rewrite vset_out by lia. reflexivity.
  - apply K; [|intros; repeat split; discriminate]. cbn [mv_op]. unfold mv_insert_clone. destruct (Nat.eqb_spec i (length (values st))); [lia|].
    unfold notify_with. rewrite vinsert_out by lia. destruct (_ =? 0); reflexivity.
  - apply K; [|intros; repeat split; discriminate]. cbn [mv_op]. unfold mv_set_clone, notify_with. rewrite vset_out by lia. destruct (_ =? 0); reflexivity.
  - destruct d as [vs|i x|i x|i|a b|x| |]; cbn [diff_panics] in H; try contradiction.
    + apply K; [|intros; repeat split; discriminate]. cbn [mv_op mv_apply_vec_diff]. unfold mv_insert_clone. destruct (Nat.eqb_spec i (length (values st))); [lia|].
      unfold notify_with. rewrite vinsert_out by lia. destruct (_ =? 0); reflexivity.
    + apply K; [|intros; repeat split; discriminate]. cbn [mv_op mv_apply_vec_diff]. unfold mv_set_clone, notify_with. rewrite vset_out by lia. destruct (_ =? 0); reflexivity.
    + apply K; [|intros; repeat split; discriminate]. cbn [mv_op mv_apply_vec_diff]. unfold mv_remove, vremove. rewrite (proj2 (nth_error_None _ _) H). reflexivity.
    + destruct H as [Hn Hl]. apply (KM a b); auto. cbn [mv_op mv_apply_vec_diff]. rewrite (move_panics _ _ _ Hn Hl). reflexivity.
    + apply K; [|intros; repeat split; discriminate]. cbn [mv_op mv_apply_vec_diff]. unfold mv_pop. rewrite H. reflexivity.
Qed.

(** *** retain *)
Lemma retain_stop_spec {A} (f : A -> option bool) l : let '(kept, p) := retain_stop f l in
  if p then exists q x r, l = q ++ x :: r /\ f x = None /\ (forall y, In y q -> f y <> None) /\ kept = filter (fun y => match f y with Some b => b | None => true end) q ++ x :: r
  else forall y, In y l -> f y <> None.
Proof.
  induction l as [|x l IH]; cbn; [intros y []|]. destruct (f x) as [b|] eqn:E.
  - destruct (retain_stop f l) as [kept [|]].
    + destruct IH as (q & z & r & -> & Hz & Hq & ->). exists (x :: q), z, r. split; [reflexivity|]. split; [exact Hz|]. split.
      * intros y [<-|Hy]; [congruence|auto].
      * cbn. rewrite E. destruct b; reflexivity.
    + intros y [<-|Hy]; [congruence|auto].
  - exists [], x, l. repeat split; auto.
Qed.

Lemma first_panic {A} (f : A -> option bool) (q q' r r' : list A) x x' : q ++ x :: r = q' ++ x' :: r' -> f x = None -> f x' = None ->
  (forall y, In y q -> f y <> None) -> (forall y, In y q' -> f y <> None) -> q = q'.
Proof.
  revert q'. induction q as [|a q IH]; intros [|b q'] E Hx Hx' Hq Hq'; cbn in E.
  - reflexivity.
  - injection E as <- _. destruct (Hq' x (or_introl eq_refl) Hx).
  - injection E as <- _. destruct (Hq a (or_introl eq_refl) Hx').
  - injection E as <- E. f_equal. apply IH; auto; intros y Hy; [apply Hq|apply Hq']; right; exact Hy.
Qed.

Lemma filter_short {A} (g : A -> bool) l : length (filter g l) <= length l /\ ((exists y, In y l /\ g y = false) -> length (filter g l) < length l).
Proof.
  induction l as [|a l [IH1 IH2]]; cbn; [split; [lia|intros (y & [] & _)]|]. destruct (g a) eqn:E; cbn; split; try lia.
  - intros (y & [<-|Hy] & Hg); [congruence|]. assert (length (filter g l) < length l) by (apply IH2; eauto). lia.
Qed.

(** *** A panic in a notification *)
Lemma send_stop_spec {A} (d : vecdiff A) sn : forall n sent ss, NoDup sn ->
  exists sn' ss', send_stop d n sent sn ss = (sn', ss') /\ length ss' = length ss /\ NoDup sn' /\ (forall i, In i sn' -> In i sn)
    /\ (forall i, In i sn -> is_alive ss i = true -> In i sn')
    /\ forall k, nth_error ss' k = if in_dec Nat.eq_dec k (firstn (if sent then S n else n) sn) then option_map (send_alive d) (nth_error ss k) else nth_error ss k.
Proof.
  induction sn as [|id sn IH]; intros n sent ss Hnd; cbn [send_stop].
  - exists [], ss. split; [destruct n; reflexivity|]. split; [reflexivity|]. split; [constructor|]. split; [auto|]. split; [auto|]. intros k. destruct sent, n; reflexivity.
  - inversion Hnd as [|? ? Hni Hnd']; subst. destruct (unbounded_send_spec id d ss) as (ss1 & E1 & L1 & N1). destruct n as [|n]; cbn [send_stop].
    + destruct sent.
      * exists (id :: sn), ss1. rewrite E1. cbn [fst]. split; [reflexivity|]. split; [exact L1|]. split; [exact Hnd|]. split; [auto|]. split; [auto|]. intros k. rewrite N1. cbn [firstn].
        destruct (Nat.eqb_spec k id) as [->|Hn], (in_dec Nat.eq_dec _ _) as [Hi|Hi]; try reflexivity; [destruct Hi; left; reflexivity|destruct Hi as [Hi|[]]; congruence].
      * exists (id :: sn), ss. repeat split; auto.
    + rewrite E1. destruct (IH n sent ss1 Hnd') as (sn2 & ss2 & E2 & L2 & D2 & I2 & A2 & N2). rewrite E2.
      assert (Hna : forall i, is_alive ss1 i = is_alive ss i).
      { intros i. unfold is_alive. rewrite N1. destruct (i =? id); [|reflexivity]. destruct (nth_error ss i); [apply alive_send|reflexivity]. }
      exists (if is_alive ss id then id :: sn2 else sn2), ss2. split; [reflexivity|]. split; [congruence|]. split; [|split; [|split]].
      * destruct (is_alive ss id); [|exact D2]. constructor; [|exact D2]. intros Hi. apply Hni, I2, Hi.
      * intros i Hi. destruct (is_alive ss id); [destruct Hi as [<-|Hi]; [left; reflexivity|]|]; right; apply I2, Hi.
      * intros i [<-|Hi] Ha; [rewrite Ha; left; reflexivity|]. rewrite <- Hna in Ha. specialize (A2 i Hi Ha). destruct (is_alive ss id); [right|]; exact A2.
      * intros k. rewrite N2, N1. replace (if sent then S (S n) else S n) with (S (if sent then S n else n)) by (destruct sent; reflexivity). cbn [firstn].
        destruct (Nat.eqb_spec k id) as [->|Hn].
        -- destruct (in_dec Nat.eq_dec id (firstn (if sent then S n else n) sn)) as [Hi|_]; [exfalso; apply Hni; rewrite <- (firstn_skipn (if sent then S n else n) sn); apply in_or_app; auto|].
           destruct (in_dec Nat.eq_dec id (id :: _)) as [_|Hx]; [reflexivity|]. destruct Hx. left. reflexivity.
        -- destruct (in_dec Nat.eq_dec k (firstn (if sent then S n else n) sn)) as [Hi|Hi], (in_dec Nat.eq_dec k (id :: firstn (if sent then S n else n) sn)) as [Hj|Hj]; try reflexivity.
           ++ destruct Hj. right. exact Hi.
           ++ destruct Hj as [Hj|Hj]; [congruence|contradiction].
Qed.

Lemma nth_error_firstn_lt {A} (l : list A) : forall n k, k < n -> nth_error (firstn n l) k = nth_error l k.
Proof. induction l as [|a l IH]; intros [|n] [|k] H; try lia; try reflexivity. cbn. apply IH. lia. Qed.

(** *** Histories *)
Lemma kstep_wf {A} (e : kevent A) st : inv st -> ~ harmful e st -> inv (kstep e st).
Proof.
  intros HI Hh. destruct HI as [W Hall]. destruct e as [e|o|f|d n sent]; cbn [kstep harmful] in *.
  - apply event_inv. split; assumption.
  - destruct ((0 <? owners st) && negb (poisoned st)) eqn:Eb; [|split; assumption].
    pose proof Eb as Eb'. apply andb_prop in Eb'. destruct Eb' as [E1 E2]. apply Nat.ltb_lt in E1. apply negb_true_iff in E2.
    destruct (op_event o (values st)) as [(Hp & _)|(_ & v' & ds & r & _ & _ & _ & H)].
    + destruct (op_panics_exact o st Hp) as (v & Ev & [(a & Ha & _)|[-> _]]); [destruct Hh; eauto|]. rewrite Ev, set_same. split; assumption.
    + destruct (H st eq_refl W E1 E2) as (E & _). rewrite E. apply event_inv. split; assumption.
  - destruct ((0 <? owners st) && negb (poisoned st)) eqn:Eb; [|split; assumption].
    pose proof (retain_stop_spec f (values st)) as Hs. destruct (retain_stop f (values st)) as [kept [|]]; [|apply event_inv; split; assumption].
    destruct Hs as (q & x & r & Ev & Hx & Hq & Ek).
    assert (Hk : kept = values st).
    { rewrite Ev, Ek. f_equal. clear -Hh Ev Hx Hq.
      assert (Hg : forall y, In y q -> (match f y with Some b => b | None => true end) = true).
      { intros y Hy. destruct (f y) as [[|]|] eqn:E; try reflexivity. destruct Hh. exists q, x, r. repeat split; eauto. }
      clear -Hg. induction q as [|a q IH]; [reflexivity|]. cbn. rewrite (Hg a (or_introl eq_refl)). f_equal. apply IH. intros y Hy. apply Hg. right. exact Hy. }
    rewrite Hk, set_same. split; assumption.
  - destruct ((0 <? owners st) && negb (poisoned st)) eqn:Eb; [|split; assumption].
    apply andb_prop in Eb. destruct Eb as [E1 E2]. apply Nat.ltb_lt in E1. apply negb_true_iff in E2.
    destruct (apply_to_vec d (values st)) as [v|] eqn:Ea; [|split; assumption].
    assert (Hsame : forall sn n ss, length sn <= n -> send_stop d n sent sn ss = retain_send d sn ss).
    { clear. induction sn as [|i sn IH]; intros n ss Hl; [destruct n; reflexivity|]. destruct n; [cbn in Hl; lia|]. cbn [send_stop retain_send].
      destruct (unbounded_send i d ss) as [ss1 ok]. rewrite IH by (cbn in Hl; lia). reflexivity. }
    rewrite Hsame by lia. destruct (notify_spec d st W E1) as [W1 S1]. unfold notify in W1, S1.
    destruct (retain_send d (senders st) (subs st)) as [sn ss]. split.
    + destruct W1 as [X1 X2 X3]. constructor; cbn in *; assumption.
    + intros id s' Hs' Ha'. cbn [subs] in Hs'. cbn in S1. subst ss. rewrite nth_error_map in Hs'. destruct (nth_error (subs st) id) as [s|] eqn:Hs; [|discriminate].
      cbn in Hs'. injection Hs' as <-. rewrite alive_send in Ha'. destruct (Hall id s Hs Ha') as ((w & H1 & H1') & H2 & H3 & H4). specialize (H1' E2). subst w.
      unfold send_alive. rewrite Ha'. unfold deliver, total. cbn [got queue waiting woken owners values poisoned]. split; [|split; [|split]].
      * exists v. split; [|reflexivity]. rewrite app_assoc. fold (total s). rewrite replay_app, H1. cbn. rewrite Ea. reflexivity.
      * discriminate.
      * intros Hl. right. apply H3 in Hl. split; [destruct Hl as [[Hl _]|[Hl _]]; rewrite Hl; [apply orb_true_r|reflexivity]|]. left. intros Hn. apply app_eq_nil in Hn. destruct Hn. discriminate.
      * intros Hi. apply H4 in Hi. lia.
Qed.

Lemma krun_snoc {A} (es : list (kevent A)) e st : krun (es ++ [e]) st = kstep e (krun es st).
Proof. unfold krun. rewrite fold_left_app. reflexivity. Qed.

Lemma caught_in_step {A} (v : list A) es id s :
  (forall es1 e es2, es = es1 ++ e :: es2 -> ~ harmful e (krun es1 (mv_new v))) ->
  nth_error (subs (krun es (mv_new v))) id = Some s -> alive s = true -> poisoned (krun es (mv_new v)) = false ->
  replay (total s) = Some (values (krun es (mv_new v))).
Proof.
  intros H Hs Ha Hp.
  assert (HI : inv (krun es (mv_new v))).
  { clear -H. induction es as [|e es IH] using rev_ind; [apply new_inv|]. rewrite krun_snoc. apply kstep_wf; [|apply (H es e []); reflexivity].
    apply IH. intros es1 e1 es2 ->. apply (H es1 e1 (es2 ++ [e])). rewrite <- app_assoc. reflexivity. }
  destruct HI as [_ HI]. destruct (HI id s Hs Ha) as ((w & H1 & H2) & _). rewrite H1, (H2 Hp). reflexivity.
Qed.

(** What harm is done. *)
Lemma caught_loses {A} (o : op A) (st : mvec A) a : 0 < owners st -> poisoned st = false -> loses o (values st) a ->
  kstep (KOp o) st = set_values (firstn a (values st) ++ skipn (a + 1) (values st)) st.
Proof.
  intros Ho Hp (b & Hb & Ha & Hl). cbn [kstep]. rewrite Hp. destruct (Nat.ltb_spec 0 (owners st)); [|lia]. cbn [negb andb].
  assert (Hn : a <> b) by lia. assert (Hl2 : length (values st) <= a \/ length (values st) <= b) by lia.
  pose proof (move_panics a b st Hn Hl2) as M. destruct (Nat.ltb_spec a (length (values st))); [|lia].
  destruct Hb as [-> | [-> | ->]]; cbn [mv_op mv_apply_vec_diff].
  - rewrite M. reflexivity.
  - unfold mv_swap. destruct (Nat.ltb_spec a b); [|lia]. rewrite M. reflexivity.
  - rewrite M. reflexivity.
Qed.
Lemma caught_retain {A} (f : A -> option bool) (st : mvec A) p x r : 0 < owners st -> poisoned st = false ->
  values st = p ++ x :: r -> f x = None -> (forall y, In y p -> f y <> None) ->
  kstep (KRetain f) st = set_values (filter (fun y => match f y with Some b => b | None => true end) p ++ x :: r) st.
Proof.
  intros Ho Hp Hv Hx Hq. cbn [kstep]. rewrite Hp. destruct (Nat.ltb_spec 0 (owners st)); [|lia]. cbn [negb andb].
  assert (E : retain_stop f (values st) = (filter (fun y => match f y with Some b => b | None => true end) p ++ x :: r, true)); [|rewrite E; reflexivity].
  rewrite Hv. clear -Hx Hq. induction p as [|a p IH]; cbn; [rewrite Hx; reflexivity|]. destruct (f a) as [b|] eqn:E; [|destruct (Hq a (or_introl eq_refl) E)].
  rewrite IH by (intros y Hy; apply Hq; right; exact Hy). destruct b; reflexivity.
Qed.

Lemma caught_harm {A} (e : kevent A) (st : mvec A) id s : 0 < owners st -> poisoned st = false ->
  (exists o a, e = KOp o /\ loses o (values st) a) \/ (exists f, e = KRetain f /\ half_way f (values st)) ->
  nth_error (subs st) id = Some s -> replay (total s) = Some (values st) ->
  nth_error (subs (kstep e st)) id = Some s /\ poisoned (kstep e st) = false /\ length (values (kstep e st)) < length (values st) /\ replay (total s) <> Some (values (kstep e st)).
Proof.
  intros Ho Hp He Hs Hr.
  assert (K : forall v, kstep e st = set_values v st -> length v < length (values st) ->
    nth_error (subs (kstep e st)) id = Some s /\ poisoned (kstep e st) = false /\ length (values (kstep e st)) < length (values st) /\ replay (total s) <> Some (values (kstep e st))).
  { intros v -> Hl. cbn. repeat split; auto. rewrite Hr. intros [= E]. rewrite E in Hl. lia. }
  destruct He as [(o & a & -> & Hl)|(f & -> & p & x & r & Hv & Hx & Hq & Hy)].
  - eapply K; [exact (caught_loses o st a Ho Hp Hl)|]. destruct Hl as (b & _ & Hl & _). rewrite app_length, firstn_length, skipn_length. lia.
  - eapply K; [exact (caught_retain f st p x r Ho Hp Hv Hx Hq)|]. rewrite Hv, !app_length. destruct Hy as (y & Hi & Hy).
    destruct (filter_short (fun y => match f y with Some b => b | None => true end) p) as [_ Hf]. cbn.
    assert (length (filter (fun y => match f y with Some b => b | None => true end) p) < length p); [apply Hf; exists y; rewrite Hy; auto|]. lia.
Qed.

Lemma send_stop_total {A} (v : list A) es d n sent k id s : let st := krun es (mv_new v) in
  (forall es1 e es2, es = es1 ++ e :: es2 -> ~ harmful e (krun es1 (mv_new v))) ->
  0 < owners st -> poisoned st = false -> apply_to_vec d (values st) <> None ->
  nth_error (senders st) k = Some id -> nth_error (subs st) id = Some s -> alive s = true ->
  exists s', nth_error (subs (kstep (KStop d n sent) st)) id = Some s' /\ alive s' = true
    /\ total s' = total s ++ (if (k <? n) || (sent && (k =? n)) then [d] else [])
    /\ apply_to_vec d (values st) = Some (values (kstep (KStop d n sent) st)).
Proof.
  intros st H Ho Hp Hd Hk Hs Ha.
  assert (HI : inv st).
  { unfold st. clear -H. induction es as [|e es IH] using rev_ind; [apply new_inv|]. rewrite krun_snoc. apply kstep_wf; [|apply (H es e []); reflexivity].
    apply IH. intros es1 e1 es2 ->. apply (H es1 e1 (es2 ++ [e])). rewrite <- app_assoc. reflexivity. }
  destruct HI as [W _]. cbn [kstep]. rewrite Hp. destruct (Nat.ltb_spec 0 (owners st)); [|lia]. cbn [negb andb].
  destruct (apply_to_vec d (values st)) as [v'|]; [|contradiction].
  destruct (send_stop_spec d (senders st) n sent (subs st) (wf_nodup _ W)) as (sn' & ss' & E & L & _ & _ & _ & N). rewrite E. cbn [subs values]. rewrite N, Hs.
  assert (Hin : In id (firstn (if sent then S n else n) (senders st)) <-> k < (if sent then S n else n)).
  { split.
    - intros Hi. apply In_nth_error in Hi as (j & Hj). assert (j < length (firstn (if sent then S n else n) (senders st))) by (apply nth_error_Some; congruence).
      rewrite firstn_length in *. rewrite nth_error_firstn_lt in Hj by lia. assert (j = k); [|lia].
      apply (proj1 (NoDup_nth_error (senders st)) (wf_nodup _ W)); [lia|congruence].
    - intros Hl. apply (nth_error_In _ k). rewrite nth_error_firstn_lt by exact Hl. exact Hk. }
  assert (Eb : (k <? n) || (sent && (k =? n)) = true <-> k < (if sent then S n else n)).
  { rewrite orb_true_iff, andb_true_iff, Nat.ltb_lt, Nat.eqb_eq. destruct sent; [|intuition; try lia; discriminate]. split; [intros [?|[_ ?]]; lia|]. intros Hl. assert (k < n \/ k = n) by lia. tauto. }
  destruct (in_dec Nat.eq_dec _ _) as [Hi|Hi].
  - cbn [option_map]. eexists. split; [reflexivity|]. rewrite alive_send. split; [exact Ha|]. split; [|reflexivity].
    rewrite (proj2 Eb (proj1 Hin Hi)). unfold send_alive. rewrite Ha. unfold total, deliver. cbn. apply app_assoc.
  - exists s. split; [reflexivity|]. split; [exact Ha|]. split; [|reflexivity].
    destruct ((k <? n) || (sent && (k =? n))) eqn:Q; [destruct (Hi (proj2 Hin (proj1 Eb eq_refl)))|]. rewrite app_nil_r. reflexivity.
Qed.
