(** Exactly which diffs an operation on a MutableVec sends. *)
From Verif Require Import Base Spec BaseFacts VecDiff VecSpec VecFacts VecDiffFacts LoopFacts MutVec MutVecSpec MutVecFacts MutVecRun.

(** ** Specification *)
Section Sends.
Context {A : Type}.
Implicit Types (v : list A) (o : op A).

(** The positions [is] are removed one after the other from a vector of length [len]. *)
Fixpoint removed_at (is : list nat) (len : nat) : list (vecdiff A) :=
  match is with
  | [] => []
  | i :: is => (if i + 1 =? len then Pop else RemoveAt i) :: removed_at is (len - 1)
  end.

(** The positions at which [f] does not hold, from the last one to the first one. *)
Fixpoint positions (f : A -> bool) (k : nat) v : list nat :=
  match v with
  | [] => []
  | x :: v => positions f (S k) v ++ (if f x then [] else [k])
  end.

Definition removed_range (a b len : nat) : list (vecdiff A) :=
  if b <=? a then [] else if (a =? 0) && (b =? len) then [Clear] else removed_at (rev (seq a (b - a))) len.

Definition moved (a b : nat) : list (vecdiff A) := if a =? b then [] else [Move a b].

(** The diffs that each operation sends, on contents [v], if it does not panic. *)
Definition op_sends o v : list (vecdiff A) :=
  match o with
  | OPop => match v with [] => [] | _ => [Pop] end
  | ORemove i | OApply (RemoveAt i) => [if i + 1 =? length v then Pop else RemoveAt i]
  | OMove a b | OApply (Move a b) => moved a b
  | OClear | OApply Clear => match v with [] => [] | _ => [Clear] end
  | ORetain f => match v, filter f v with
                 | [], _ => []
                 | _, [] => [Clear]
                 | _, _ => removed_at (positions f 0 v) (length v)
                 end
  | ODrain b1 b2 => removed_range (fst (bounds b1 b2 (length v))) (snd (bounds b1 b2 (length v))) (length v)
  | OTruncate n => removed_range n (length v) (length v)
  | OSwap a b => moved a b ++ (if a <? b then moved (b - 1) a else if b <? a then moved (b + 1) a else [])
  | OReverse => map (fun i => Move (length v - 1) i) (seq 0 (length v - 1))
  | OPush x | OPushCloned x | OApply (Push x) => [Push x]
  | OInsert i x | OInsertCloned i x | OApply (InsertAt i x) => [if i =? length v then Push x else InsertAt i x]
  | OSet i x | OSetCloned i x | OApply (UpdateAt i x) => [UpdateAt i x]
  | OReplace vs | OReplaceCloned vs | OApply (Replace vs) => [Replace vs]
  | OExtend vs => map Push vs
  | OApply Pop => [Pop]
  end.

(** ** Proof *)

Lemma removed_rem is : forall len, length is <= len -> removed_at is len = rem_diffs is len.
Proof.
  induction is as [|i is IH]; intros len H; [reflexivity|]. cbn [removed_at rem_diffs length] in *. rewrite IH by lia. f_equal.
  destruct (Nat.eqb_spec (i + 1) len), (Nat.eqb_spec i (len - 1)); try reflexivity; lia.
Qed.

Lemma positions_loop (f : A -> bool) v : forall k, positions f k v = rev (snd (fst (retain_loop f k v))).
Proof.
  induction v as [|x v IH]; intros k; cbn [positions retain_loop]; [reflexivity|]. rewrite IH, Nat.add_1_r.
  destruct (retain_loop f (S k) v) as [[a b] c]. cbn [fst snd]. destruct (f x); cbn; [apply app_nil_r|reflexivity].
Qed.

Definition exact_on {R} v (f : mvec A -> res (mvec A) R) ds : Prop := exists v' r, acts v f v' ds r.

Lemma exact_ret {R} v (f : mvec A -> res (mvec A) R) (g : R -> ret A) ds : exact_on v f ds -> exact_on v (fun st => with_ret g (f st)) ds.
Proof. intros (v' & r & H). exists v', (g r). exact (acts_ret _ _ _ _ r g (g r) H eq_refl). Qed.

Lemma exact_move v a b : ~ (a <> b /\ (length v <= a \/ length v <= b)) -> exact_on v (mv_move_from_to a b) (moved a b).
Proof.
  intros H. unfold moved. destruct (Nat.eqb_spec a b) as [->|Hne]; [exists v, tt; apply move_same|].
  destruct (apply_to_vec (Move a b) v) as [v'|] eqn:E; [exists v', tt; apply move_ok; assumption|].
  apply apply_panics in E. exfalso. apply H. split; [exact Hne|exact E].
Qed.

Lemma exact_remove v i : ~ length v <= i -> exact_on v (mv_remove i) [if i + 1 =? length v then Pop else RemoveAt i].
Proof.
  intros H. destruct (nth_error v i) as [x|] eqn:E; [|apply nth_error_None in E; contradiction].
  apply nth_error_split in E. destruct E as (p & s & -> & <-). exists (p ++ s), x.
  replace [if length p + 1 =? length (p ++ x :: s) then Pop else RemoveAt (length p)]
    with [match s with [] => Pop | _ => @RemoveAt A (length p) end]; [apply remove_mid|].
  rewrite app_length. simpl. destruct s as [|y s]; simpl; [rewrite Nat.eqb_refl; reflexivity|].
  destruct (Nat.eqb_spec (length p + 1) (length p + S (S (length s)))); [lia|reflexivity].
Qed.

Lemma split_at v i : ~ length v < i -> exists p s, v = p ++ s /\ length p = i.
Proof. intros H. exists (firstn i v), (skipn i v). split; [symmetry; apply firstn_skipn|]. rewrite firstn_length. lia. Qed.

Lemma insert_diff (p s : list A) (x : A) :
  [if length p =? length (p ++ s) then Push x else InsertAt (length p) x] = [match s with [] => Push x | _ => InsertAt (length p) x end].
Proof.
  rewrite app_length. destruct s; simpl; [rewrite Nat.add_0_r, Nat.eqb_refl; reflexivity|].
  destruct (Nat.eqb_spec (length p) (length p + S (length s))); [lia|reflexivity].
Qed.

Lemma exact_insert_copy v i x : ~ length v < i -> exact_on v (mv_insert_copy i x) [if i =? length v then Push x else InsertAt i x].
Proof. intros H. destruct (split_at v i H) as (p & s & -> & <-). rewrite insert_diff. exists (p ++ x :: s), tt. apply insert_copy_acts. Qed.

Lemma exact_insert_clone v i x : ~ length v < i -> exact_on v (mv_insert_clone i x) [if i =? length v then Push x else InsertAt i x].
Proof. intros H. destruct (split_at v i H) as (p & s & -> & <-). rewrite insert_diff. exists (p ++ x :: s), tt. apply insert_clone_acts. Qed.

Lemma exact_set_copy v i x : ~ length v <= i -> exact_on v (mv_set_copy i x) [UpdateAt i x].
Proof.
  intros H. destruct (nth_error v i) as [y|] eqn:E; [|apply nth_error_None in E; contradiction].
  apply nth_error_split in E. destruct E as (p & s & -> & <-). exists (p ++ x :: s), tt. apply set_copy_acts.
Qed.

Lemma exact_set_clone v i x : ~ length v <= i -> exact_on v (mv_set_clone i x) [UpdateAt i x].
Proof.
  intros H. destruct (nth_error v i) as [y|] eqn:E; [|apply nth_error_None in E; contradiction].
  apply nth_error_split in E. destruct E as (p & s & -> & <-). exists (p ++ x :: s), tt. apply set_clone_acts.
Qed.

Lemma exact_retain (f : A -> bool) v : exact_on v (mv_retain f) (op_sends (ORetain f) v).
Proof.
  exists (filter f v), v. destruct v as [|x v].
  - intros st Hv. unfold mv_retain. rewrite Hv. simpl. rewrite <- Hv, set_same. reflexivity.
  - cbn [op_sends]. set (w := x :: v). destruct (retain_loop_spec f w 0) as (rm & E & HL & HA).
    assert (Hp : positions f 0 w = rev rm) by (rewrite positions_loop, E; reflexivity). rewrite Hp.
    destruct (filter f w) as [|y k] eqn:Ef; intros st Hv; unfold mv_retain; rewrite Hv, E.
    + simpl. apply (acts_notify w). exact Hv.
    + cbn [length w Nat.ltb Nat.leb values set_values Nat.eqb].
      assert (Hle : length (rev rm) <= S (length v)) by (rewrite rev_length; unfold w in HL; simpl in *; lia).
      rewrite notify_removals_eq by exact Hle. cbn [bind]. rewrite notify_all_set, removed_rem by exact Hle. reflexivity.
Qed.

Lemma exact_range a b len : b <= len -> forall st : mvec A, mv_remove_range a b len st = Done (notify_all (removed_range a b len) st) tt.
Proof.
  intros Hb st. unfold mv_remove_range, removed_range. destruct (Nat.ltb_spec a b), (Nat.leb_spec b a); try lia; [|reflexivity].
  destruct ((a =? 0) && (b =? len)); [reflexivity|].
  assert (Hle : length (rev (seq a (b - a))) <= len) by (rewrite rev_length, seq_length; lia).
  rewrite notify_removals_eq, removed_rem by exact Hle. reflexivity.
Qed.

Lemma exact_drain b1 b2 v : ~ op_panics (ODrain b1 b2) v -> exact_on v (mv_drain b1 b2) (op_sends (ODrain b1 b2) v).
Proof.
  intros H. cbn [op_panics op_sends] in *. unfold exact_on, acts, mv_drain, convert_range. unfold bounds in *. cbn [fst snd] in *.
  set (a := match b1 with Included s => s | Excluded s => s + 1 | Unbounded => 0 end) in *.
  set (b := match b2 with Included e => e + 1 | Excluded e => e | Unbounded => length v end) in *.
  do 2 eexists. intros st Hv. rewrite Hv. fold a b. destruct (Nat.ltb_spec b a); [lia|].
  destruct (Nat.ltb_spec (length v) b); [lia|]. rewrite exact_range by assumption. cbn [bind]. rewrite values_notify_all, Hv. reflexivity.
Qed.

Lemma exact_truncate n v : exact_on v (mv_truncate n) (op_sends (OTruncate n) v).
Proof.
  unfold exact_on, acts, mv_truncate. do 2 eexists. intros st Hv. rewrite Hv, exact_range by reflexivity. cbn [bind].
  rewrite values_notify_all, Hv. reflexivity.
Qed.

Lemma moved_acts v v' a b : a <> b -> apply_to_vec (Move a b) v = Some v' -> acts v (mv_move_from_to a b) v' (moved a b) tt.
Proof. intros H E. unfold moved. destruct (Nat.eqb_spec a b); [contradiction|]. apply move_ok; assumption. Qed.

Lemma exact_bind v (f : mvec A -> res (mvec A) unit) (g : mvec A -> res (mvec A) unit) v1 ds1 ds2 :
  acts v f v1 ds1 tt -> exact_on v1 g ds2 -> exact_on v (fun st => bind (f st) (fun st1 _ => g st1)) (ds1 ++ ds2).
Proof. intros H (v2 & [] & H2). exists v2, tt. exact (acts_bind _ _ _ f (fun st1 _ => g st1) _ _ tt tt H H2). Qed.

Lemma exact_swap v a b : ~ op_panics (OSwap a b) v -> exact_on v (mv_swap a b) (op_sends (OSwap a b) v).
Proof.
  cbn [op_panics op_sends]. intros H. destruct (Nat.eq_dec a b) as [->|Hne].
  - unfold moved. rewrite Nat.eqb_refl. exists v, tt. unfold mv_swap, moved. intros st Hv. rewrite !Nat.ltb_irrefl. apply acts_nothing. exact Hv.
  - destruct (apply_to_vec (Move a b) v) as [v1|] eqn:E.
    2:{ apply apply_panics in E. exfalso. apply H. split; [exact Hne|exact E]. }
    pose proof (moved_acts v v1 a b Hne E) as M. assert (L : length v1 = length v).
    { cbn [apply_to_vec] in E. destruct (vremove a v) as [[x v0]|] eqn:E0; [|discriminate].
      apply vremove_inv in E0. apply vinsert_inv in E. destruct E0 as (p & t & -> & -> & _), E as (q & u & E1 & -> & _).
      apply (f_equal (@length A)) in E1. rewrite !app_length in *. simpl. lia. }
    assert (Hr : a < length v /\ b < length v) by lia.
    unfold mv_swap. destruct (Nat.ltb_spec a b).
    + apply (exact_bind v (mv_move_from_to a b) (mv_move_from_to (b - 1) a) v1); [exact M|]. apply exact_move. lia.
    + destruct (Nat.ltb_spec b a); [|lia].
      apply (exact_bind v (mv_move_from_to a b) (mv_move_from_to (b + 1) a) v1); [exact M|]. apply exact_move. lia.
Qed.

Lemma exact_reverse_loop n : forall (w t : list A) stop, length w = n + 1 -> length (rev t ++ w) = stop + 1 ->
  exact_on (rev t ++ w) (reverse_loop n stop (length t)) (map (fun i => Move stop i) (seq (length t) n)).
Proof.
  induction n as [|n IH]; intros w t stop Hw Hl; cbn [reverse_loop seq map].
  - exists (rev t ++ w), tt. apply acts_nothing.
  - destruct (@exists_last _ w) as (w' & x & ->); [intros ->; simpl in Hw; lia|].
    rewrite app_length in Hw. simpl in Hw.
    assert (Hm : apply_to_vec (Move stop (length t)) (rev t ++ w' ++ [x]) = Some (rev (x :: t) ++ w')).
    { simpl rev. rewrite <- (app_assoc (rev t)). simpl.
      rewrite (app_assoc (rev t) w' [x]). apply apply_move_app.
      - rewrite !app_length in *. simpl in *. lia.
      - apply rev_length.
      - apply app_nil_r. }
    change (Move stop (length t) :: map (fun i => Move stop i) (seq (S (length t)) n))
      with ([Move stop (length t)] ++ map (fun i => @Move A stop i) (seq (S (length t)) n)).
    apply (exact_bind _ (mv_move_from_to stop (length t)) (reverse_loop n stop (length t + 1)) (rev (x :: t) ++ w')).
    + apply move_ok; [|exact Hm]. rewrite !app_length, rev_length in Hl. simpl in Hl. lia.
    + rewrite Nat.add_1_r. apply (IH w' (x :: t) stop).
      * lia.
      * simpl rev. rewrite !app_length in *. simpl in *. lia.
Qed.

Lemma exact_reverse v : exact_on v mv_reverse (op_sends OReverse v).
Proof.
  cbn [op_sends]. destruct (Nat.le_gt_cases (length v) 1) as [Hle|Hgt].
  - exists v, tt. replace (length v - 1) with 0 by lia. intros st Hv. unfold mv_reverse. rewrite Hv.
    destruct (Nat.ltb_spec 1 (length v)); [lia|]. apply acts_nothing. exact Hv.
  - destruct (exact_reverse_loop (length v - 1) v [] (length v - 1)) as (v' & r & H); [lia|simpl; lia|].
    exists v', r. intros st Hv. unfold mv_reverse. rewrite Hv. destruct (Nat.ltb_spec 1 (length v)); [|lia]. exact (H st Hv).
Qed.

Lemma op_exact o v : ~ op_panics o v -> exact_on v (mv_op o) (op_sends o v).
Proof.
  intros H. destruct o as [|i|a b|  |f|b1 b2|n|a b| |x|i x|i x|vs|x|i x|i x|vs|vs|d]; cbn [mv_op].
  19: destruct d as [vs|i x|i x|i|a b|x| |]; cbn [mv_apply_vec_diff].
  all: try (apply exact_ret).
  - destruct v as [|x v _] using rev_ind; [exists [], None; exact pop_empty|]. exists v, (Some x).
    cbn [op_sends]. destruct (v ++ [x]) eqn:E; [destruct v; discriminate|]. rewrite <- E. apply pop_snoc.
  - apply exact_remove. exact H.
  - apply exact_move. exact H.
  - exists [], tt. apply clear_acts.
  - apply exact_retain.
  - apply exact_drain. exact H.
  - apply exact_truncate.
  - apply exact_swap. exact H.
  - apply exact_reverse.
  - exists (v ++ [x]), tt. apply push_copy_acts.
  - apply exact_insert_copy. exact H.
  - apply exact_set_copy. exact H.
  - exists vs, tt. apply replace_clone_acts.
  - exists (v ++ [x]), tt. apply push_clone_acts.
  - apply exact_insert_clone. exact H.
  - apply exact_set_clone. exact H.
  - exists vs, tt. apply replace_clone_acts.
  - exists (v ++ vs), tt. apply extend_acts.
  - exists vs, tt. apply replace_clone_acts.
  - apply exact_insert_clone. exact H.
  - apply exact_set_clone. exact H.
  - apply exact_remove. exact H.
  - apply exact_move. exact H.
  - exists (v ++ [x]), tt. apply push_clone_acts.
  - destruct v as [|x v _] using rev_ind; [exfalso; apply H; reflexivity|]. exists v, RUnit.
    intros st Hv. cbv beta; cbn [mv_apply_vec_diff mv_op]; rewrite (pop_snoc v x st Hv). reflexivity.
  - exists [], tt. apply clear_acts.
Qed.

(** One operation, for every subscriber at once. *)
Lemma op_event_exact o (st : mvec A) : wf st -> 0 < owners st -> poisoned st = false -> ~ op_panics o (values st) ->
  subs (mv_event (EOp o) st) = map (recv (op_sends o (values st))) (subs st)
  /\ apply_all apply_to_vec (values st) (op_sends o (values st)) = Some (values (mv_event (EOp o) st)).
Proof.
  intros W Ho Hp Hn. destruct (op_exact o (values st) Hn) as (v' & r & Ha).
  assert (E : forall st0, values st0 = values st -> 0 < owners st0 -> poisoned st0 = false ->
    mv_event (EOp o) st0 = set_values v' (notify_all (op_sends o (values st)) st0)).
  { intros st0 Hv0 Ho0 Hp0. unfold mv_event. rewrite Hp0, (Ha st0 Hv0). destruct (Nat.ltb_spec 0 (owners st0)); [reflexivity|lia]. }
  rewrite (E st eq_refl Ho Hp). split; [apply notify_all_spec; assumption|]. cbn [values set_values].
  (* a subscriber that is there sees them *)
  destruct (op_event o (values st)) as [[H _]|(_ & v1 & ds & r1 & R & _ & _ & H)]; [contradiction|].
  set (pr := mkVec (values st) [0] [mkSub [] [] true false false] 1 false).
  assert (Wp : wf pr).
  { constructor; cbn.
    - constructor; [intros []|constructor].
    - intros id [<-|[]]. lia.
    - intros _ [|id] s Hs; [auto|]. destruct id; discriminate. }
  destruct (H pr eq_refl Wp Nat.lt_0_1 eq_refl) as (_ & _ & Hv1 & Hs1 & _).
  rewrite (E pr eq_refl Nat.lt_0_1 eq_refl) in Hv1, Hs1. cbn [values set_values subs] in Hv1, Hs1.
  rewrite (proj2 (notify_all_spec (op_sends o (values st)) pr Wp Nat.lt_0_1)) in Hs1. cbn in Hs1. injection Hs1 as Hs1 _ _.
  rewrite Hs1, Hv1. exact R.
Qed.
End Sends.

Lemma mv_sends {A} (v : list A) es (o : op A) :
  let st := mv_run es (mv_new v) in
  0 < owners st -> poisoned st = false -> ~ op_panics o (values st) ->
  forall id s, nth_error (subs st) id = Some s -> alive s = true ->
  exists s', nth_error (subs (mv_event (EOp o) st)) id = Some s' /\ alive s' = true /\ got s' = got s
    /\ queue s' = queue s ++ op_sends o (values st).
Proof.
  intros st Ho Hp Hn id s Hs Ha. destruct (op_event_exact o st (mv_reach_wf v es) Ho Hp Hn) as [-> _].
  exists (recv (op_sends o (values st)) s). rewrite nth_error_map, Hs. split; [reflexivity|].
  unfold recv. rewrite Ha. destruct (op_sends o (values st)) eqn:E; cbn; rewrite ?app_nil_r; auto.
Qed.

Lemma mv_sends_apply {A} (v : list A) es (o : op A) :
  let st := mv_run es (mv_new v) in
  0 < owners st -> poisoned st = false -> ~ op_panics o (values st) ->
  apply_all apply_to_vec (values st) (op_sends o (values st)) = Some (values (mv_event (EOp o) st)).
Proof. intros st Ho Hp Hn. apply (op_event_exact o st (mv_reach_wf v es) Ho Hp Hn). Qed.

Lemma mv_sends_first {A} (v : list A) es :
  let st := mv_run es (mv_new v) in
  0 < owners st -> poisoned st = false ->
  exists s, subs (mv_event ESubscribe st) = subs st ++ [s] /\ alive s = true /\ got s = []
    /\ queue s = match values st with [] => [] | vs => [Replace vs] end.
Proof.
  intros st Ho Hp. unfold mv_event. replace (0 <? owners st) with true by (symmetry; apply Nat.ltb_lt; exact Ho). rewrite Hp. cbn [negb andb].
  unfold mv_subscribe. cbn [subs]. eexists. split; [reflexivity|]. cbn. destruct (values st); auto.
Qed.
