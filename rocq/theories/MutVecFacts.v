(** Proofs about MutableVec. *)
From Verif Require Import Base Spec BaseFacts VecDiff VecSpec VecFacts VecDiffFacts LoopFacts MutVec MutVecSpec.

(** ** Notification *)
Definition notify_all {A} (ds : list (vecdiff A)) (st : mvec A) : mvec A :=
  fold_left (fun st d => notify d st) ds st.

Lemma notify_all_app {A} (a b : list (vecdiff A)) st : notify_all (a ++ b) st = notify_all b (notify_all a st).
Proof. apply fold_left_app. Qed.

Lemma values_notify {A} (d : vecdiff A) st : values (notify d st) = values st.
Proof. unfold notify. destruct (retain_send _ _ _). reflexivity. Qed.

Lemma values_notify_all {A} (ds : list (vecdiff A)) : forall st, values (notify_all ds st) = values st.
Proof. induction ds as [|d ds IH]; intros st; [reflexivity|]. simpl. rewrite IH. apply values_notify. Qed.

Lemma owners_notify {A} (d : vecdiff A) st : owners (notify d st) = owners st.
Proof. unfold notify. destruct (retain_send _ _ _). reflexivity. Qed.

Lemma poisoned_notify {A} (d : vecdiff A) st : poisoned (notify d st) = poisoned st.
Proof. unfold notify. destruct (retain_send _ _ _). reflexivity. Qed.

Lemma owners_notify_all {A} (ds : list (vecdiff A)) : forall st, owners (notify_all ds st) = owners st.
Proof. induction ds as [|d ds IH]; intros st; [reflexivity|]. simpl. rewrite IH. apply owners_notify. Qed.

Lemma poisoned_notify_all {A} (ds : list (vecdiff A)) : forall st, poisoned (notify_all ds st) = poisoned st.
Proof. induction ds as [|d ds IH]; intros st; [reflexivity|]. simpl. rewrite IH. apply poisoned_notify. Qed.

Lemma notify_set {A} (d : vecdiff A) v st : notify d (set_values v st) = set_values v (notify d st).
Proof. unfold notify, set_values. simpl. destruct (retain_send _ _ _). reflexivity. Qed.

Lemma notify_all_set {A} (ds : list (vecdiff A)) v : forall st,
  notify_all ds (set_values v st) = set_values v (notify_all ds st).
Proof. induction ds as [|d ds IH]; intros st; [reflexivity|]. simpl. rewrite notify_set. apply IH. Qed.

Lemma set_set {A} (v w : list A) st : set_values v (set_values w st) = set_values v st.
Proof. reflexivity. Qed.

Lemma set_same {A} (st : mvec A) : set_values (values st) st = st.
Proof. destruct st. reflexivity. Qed.

Lemma retain_with_send {A B} (mk : B -> vecdiff A) (v : B) : forall sn ss,
  sn <> [] -> retain_with mk (Some v) (length sn) sn ss = Some (retain_send (mk v) sn ss).
Proof.
  induction sn as [|id rest IH]; intros ss Hne; [congruence|].
  cbn [retain_with retain_send length]. rewrite usub_Some by lia. simpl Nat.sub. rewrite Nat.sub_0_r.
  destruct (unbounded_send id (mk v) ss) as [ss1 ok].
  destruct rest as [|id2 rest].
  - simpl. destruct ok; reflexivity.
  - cbn [length Nat.eqb]. rewrite IH by discriminate. destruct (retain_send _ _ ss1). reflexivity.
Qed.

Lemma notify_with_eq {A B} (value : B) (change : mvec A -> B -> res (mvec A) unit) (mk : B -> vecdiff A) st :
  (forall s r, change st value = Done s r -> senders s = senders st) ->
  notify_with value change mk st = bind (change st value) (fun st1 _ => Done (notify (mk value) st1) tt).
Proof.
  intros Hs. unfold notify_with.
  destruct (change st value) as [s r|s] eqn:E; cbn [bind].
  - specialize (Hs s r eq_refl). destruct (senders st) as [|id rest] eqn:Es.
    + simpl. destruct r. unfold notify. rewrite Hs. simpl. destruct s; simpl in *; subst; reflexivity.
    + simpl Nat.eqb. cbn iota. rewrite Hs. rewrite <- Es in *. rewrite retain_with_send by (rewrite Es; discriminate).
      unfold notify. rewrite Hs. destruct (retain_send _ _ _). reflexivity.
  - destruct (length (senders st) =? 0); reflexivity.
Qed.

(** ** What an operation does depends only on the contents *)
Definition acts {A R} (v : list A) (f : mvec A -> res (mvec A) R) (v' : list A) (ds : list (vecdiff A)) (r : R) :=
  forall st, values st = v -> f st = Done (set_values v' (notify_all ds st)) r.

Definition panics {A R} (v : list A) (f : mvec A -> res (mvec A) R) :=
  exists v', forall st, values st = v -> f st = Panic (set_values v' st).

Lemma acts_nothing {A R} (v : list A) (r : R) : acts v (fun st => Done st r) v [] r.
Proof. intros st <-. simpl. rewrite set_same. reflexivity. Qed.

Lemma acts_bind {A R Q} (v v1 v2 : list A) (f : mvec A -> res (mvec A) R) (g : mvec A -> R -> res (mvec A) Q) ds1 ds2 r1 r2 :
  acts v f v1 ds1 r1 -> acts v1 (fun st => g st r1) v2 ds2 r2 ->
  acts v (fun st => bind (f st) g) v2 (ds1 ++ ds2) r2.
Proof.
  intros Hf Hg st Hv. rewrite (Hf st Hv). cbn [bind].
  rewrite (Hg (set_values v1 (notify_all ds1 st)) eq_refl).
  rewrite notify_all_set, set_set, notify_all_app. reflexivity.
Qed.

Lemma acts_ret {A R} (v v1 : list A) (f : mvec A -> res (mvec A) R) ds r (g : R -> ret A) (q : ret A) :
  acts v f v1 ds r -> g r = q -> acts v (fun st => with_ret g (f st)) v1 ds q.
Proof. intros Hf <- st Hv. unfold with_ret. rewrite (Hf st Hv). reflexivity. Qed.

Lemma panics_ret {A R} (v : list A) (f : mvec A -> res (mvec A) R) (g : R -> ret A) :
  panics v f -> panics v (fun st => with_ret g (f st)).
Proof. intros [v' H]. exists v'. intros st Hv. unfold with_ret. rewrite (H st Hv). reflexivity. Qed.

Lemma panics_bind {A R Q} (v : list A) (f : mvec A -> res (mvec A) R) (g : mvec A -> R -> res (mvec A) Q) :
  panics v f -> panics v (fun st => bind (f st) g).
Proof. intros [v' H]. exists v'. intros st Hv. rewrite (H st Hv). reflexivity. Qed.

(** Effect of one notified change. *)
Lemma acts_notify {A R} (v v' : list A) d (r : R) :
  acts v (fun st => Done (notify d (set_values v' st)) r) v' [d] r.
Proof. intros st Hv. simpl. rewrite notify_set. reflexivity. Qed.

(** ** The individual operations *)
Lemma pop_empty {A} : acts (@nil A) mv_pop [] [] None.
Proof. intros st Hv. unfold mv_pop. rewrite Hv. simpl. rewrite <- Hv, set_same. reflexivity. Qed.

Lemma pop_snoc {A} (v : list A) x : acts (v ++ [x]) mv_pop v [Pop] (Some x).
Proof. intros st Hv. unfold mv_pop. rewrite Hv, vpop_app. apply (acts_notify (v ++ [x])). exact Hv. Qed.

Lemma remove_mid {A} (p s : list A) x :
  acts (p ++ x :: s) (mv_remove (length p)) (p ++ s)
    [match s with [] => Pop | _ => RemoveAt (length p) end] x.
Proof.
  intros st Hv. unfold mv_remove. rewrite Hv, vremove_app by reflexivity.
  rewrite app_length, usub_Some by (simpl; lia). simpl length.
  destruct s as [|y s].
  - simpl length. replace (length p + 1 - 1) with (length p) by lia. rewrite Nat.eqb_refl.
    apply (acts_notify (p ++ [x])). exact Hv.
  - destruct (Nat.eqb_spec (length p) (length p + S (length (y :: s)) - 1)) as [E|E]; [simpl in E; lia|].
    apply (acts_notify (p ++ x :: y :: s)). exact Hv.
Qed.

Lemma remove_out {A} (v : list A) i : length v <= i -> panics v (mv_remove i).
Proof.
  intros H. exists v. intros st Hv. unfold mv_remove. rewrite Hv.
  apply vremove_None in H. rewrite H, <- Hv, set_same. reflexivity.
Qed.

Lemma move_same {A} (v : list A) i : acts v (mv_move_from_to i i) v [] tt.
Proof. intros st Hv. unfold mv_move_from_to. rewrite Nat.eqb_refl. simpl. rewrite <- Hv, set_same. reflexivity. Qed.

Lemma move_ok {A} (v v' : list A) o n : o <> n ->
  apply_to_vec (Move o n) v = Some v' -> acts v (mv_move_from_to o n) v' [Move o n] tt.
Proof.
  intros Hne Ha st Hv. unfold mv_move_from_to. destruct (Nat.eqb_spec o n); [contradiction|]. cbn [negb].
  cbn [apply_to_vec] in Ha. rewrite Hv. destruct (vremove o v) as [[x v1]|]; [|discriminate].
  cbn [values set_values]. rewrite Ha, set_set. apply (acts_notify v). exact Hv.
Qed.

Lemma move_out {A} (v : list A) o n : o <> n -> apply_to_vec (Move o n) v = None -> panics v (mv_move_from_to o n).
Proof.
  intros Hne Ha. unfold mv_move_from_to. destruct (Nat.eqb_spec o n); [contradiction|]. cbn [negb].
  cbn [apply_to_vec] in Ha. destruct (vremove o v) as [[x v1]|] eqn:E.
  - exists v1. intros st Hv. rewrite Hv, E. cbn [values set_values]. rewrite Ha. reflexivity.
  - exists v. intros st Hv. rewrite Hv, E, <- Hv, set_same. reflexivity.
Qed.

Lemma clear_acts {A} (v : list A) : acts v mv_clear [] (match v with [] => [] | _ => [Clear] end) tt.
Proof.
  intros st Hv. unfold mv_clear. rewrite Hv. destruct v as [|x v]; simpl.
  - rewrite <- Hv, set_same. reflexivity.
  - apply (acts_notify (x :: v)). exact Hv.
Qed.

(** Removing a list of indexes from the back. *)
Fixpoint rem_diffs {A} (idxs : list nat) (len : nat) : list (vecdiff A) :=
  match idxs with
  | [] => []
  | i :: rest => (if i =? len - 1 then Pop else RemoveAt i) :: rem_diffs rest (len - 1)
  end.

Lemma rem_diffs_app {A} (a b : list nat) : forall len,
  @rem_diffs A (a ++ b) len = rem_diffs a len ++ rem_diffs b (len - length a).
Proof.
  induction a as [|i a IH]; intros len; simpl.
  - rewrite Nat.sub_0_r. reflexivity.
  - f_equal. rewrite IH. do 2 f_equal. lia.
Qed.

Lemma notify_removals_eq {A} (idxs : list nat) : forall len (st : mvec A),
  length idxs <= len -> notify_removals idxs len st = Done (notify_all (rem_diffs idxs len) st) tt.
Proof.
  induction idxs as [|i rest IH]; intros len st Hl; simpl; [reflexivity|].
  simpl in Hl. rewrite usub_Some by lia.
  rewrite IH by lia. destruct (i =? len - 1); reflexivity.
Qed.

Lemma retain_loop_spec {A} (f : A -> bool) l : forall k,
  exists removals, retain_loop f k l = (filter f l, removals, l)
    /\ length removals + length (filter f l) = length l
    /\ forall p s, length p = k ->
       apply_all apply_to_vec (p ++ l ++ s) (rem_diffs (rev removals) (length (p ++ l ++ s)))
       = Some (p ++ filter f l ++ s).
Proof.
  induction l as [|x l IH]; intros k.
  - exists []. split; [reflexivity|]. split; [reflexivity|]. intros p s _. reflexivity.
  - destruct (IH (k + 1)) as (rm & E & HL & HA). cbn [retain_loop]. rewrite E. cbn [filter].
    assert (HA' : forall p s, length p = k ->
       apply_all apply_to_vec (p ++ (x :: l) ++ s) (rem_diffs (rev rm) (length (p ++ (x :: l) ++ s)))
       = Some (p ++ x :: filter f l ++ s)).
    { intros p s Hp. specialize (HA (p ++ [x]) s). rewrite <- !app_assoc in HA. simpl in HA. simpl.
      apply HA. rewrite app_length. simpl. lia. }
    destruct (f x).
    + exists rm. split; [reflexivity|]. split; [simpl; lia|]. intros p s Hp. apply HA'. exact Hp.
    + exists (k :: rm). split; [reflexivity|]. split; [simpl; lia|]. intros p s Hp.
      simpl rev. rewrite rem_diffs_app, apply_all_app, HA' by exact Hp.
      simpl rem_diffs. rewrite rev_length.
      assert (Hlen : length (p ++ (x :: l) ++ s) - length rm - 1 = k + length (filter f l ++ s)).
      { rewrite !app_length. simpl. lia. }
      simpl app in Hlen. rewrite Hlen.
      destruct (Nat.eqb_spec k (k + length (filter f l ++ s))) as [E0|E0].
      * assert (E1 : filter f l ++ s = []) by (apply length_zero_iff_nil; lia).
        rewrite E1. cbn [apply_all]. rewrite apply_pop_app, app_nil_r. reflexivity.
      * cbn [apply_all]. rewrite apply_remove_app by exact Hp. reflexivity.
Qed.

Lemma retain_loop_all {A} (l : list A) : forall k,
  retain_loop (fun _ => false) k l = ([], seq k (length l), l).
Proof.
  induction l as [|x l IH]; intros k; [reflexivity|].
  cbn [retain_loop length seq]. rewrite IH. rewrite Nat.add_1_r. reflexivity.
Qed.

Lemma retain_loop_keep {A} (f : A -> bool) l : forall k, (forall x, In x l -> f x = true) ->
  retain_loop f k l = (l, [], l).
Proof.
  induction l as [|x l IH]; intros k H; [reflexivity|].
  cbn [retain_loop]. rewrite IH by (intros y Hy; apply H; right; exact Hy).
  rewrite H by (left; reflexivity). reflexivity.
Qed.

Lemma retain_acts {A} (f : A -> bool) (v : list A) :
  exists ds, acts v (mv_retain f) (filter f v) ds v
    /\ apply_all apply_to_vec v ds = Some (filter f v)
    /\ ((forall x, In x v -> f x = true) -> ds = []).
Proof.
  destruct v as [|x v].
  - exists []. split; [|split; [reflexivity|auto]].
    intros st Hv. unfold mv_retain. rewrite Hv. simpl. rewrite <- Hv, set_same. reflexivity.
  - set (w := x :: v). destruct (retain_loop_spec f w 0) as (rm & E & HL & HA).
    destruct (filter f w) as [|y k] eqn:Ef.
    + exists [Clear]. split; [|split; [reflexivity|]].
      * intros st Hv. unfold mv_retain. rewrite Hv, E. simpl. apply (acts_notify w). exact Hv.
      * intros Hall. rewrite (retain_loop_keep f w 0 Hall) in E. discriminate.
    + exists (rem_diffs (rev rm) (length w)). split; [|split].
      * intros st Hv. unfold mv_retain. rewrite Hv, E. cbn [length w Nat.ltb Nat.leb values set_values Nat.eqb].
        rewrite notify_removals_eq.
        -- cbn [bind]. rewrite notify_all_set. reflexivity.
        -- rewrite rev_length. unfold w in HL. simpl in *. lia.
      * specialize (HA [] [] eq_refl). simpl app in HA. rewrite !app_nil_r in HA. exact HA.
      * intros Hall. rewrite (retain_loop_keep f w 0 Hall) in E.
        assert (Erm : rm = []) by congruence. rewrite Erm. reflexivity.
Qed.

Lemma apply_all_single {A} (d : vecdiff A) v v' : apply_to_vec d v = Some v' -> apply_all apply_to_vec v [d] = Some v'.
Proof. intros H. simpl. rewrite H. reflexivity. Qed.

Lemma remove_range_acts {A} (p m s : list A) start stop len :
  length p = start -> length p + length m = stop -> length (p ++ m ++ s) = len ->
  exists ds,
    (forall st, mv_remove_range start stop len st = Done (notify_all ds st) tt)
    /\ apply_all apply_to_vec (p ++ m ++ s) ds = Some (p ++ s)
    /\ (m = [] -> ds = []).
Proof.
  intros Hstart Hstop Hlen. unfold mv_remove_range.
  destruct (Nat.ltb_spec start stop) as [Hlt|Hge].
  - destruct ((start =? 0) && (stop =? len)) eqn:Eb.
    + apply andb_prop in Eb. destruct Eb as [E1 E2]. apply Nat.eqb_eq in E1. apply Nat.eqb_eq in E2.
      rewrite !app_length in Hlen. assert (Ep : p = []) by (apply length_zero_iff_nil; lia).
      assert (Es : s = []) by (apply length_zero_iff_nil; lia). subst p s.
      exists [Clear]. split; [reflexivity|]. split; [reflexivity|]. intros ->. simpl in *. lia.
    + exists (rem_diffs (rev (seq start (stop - start))) len). split; [|split].
      * intros st. apply notify_removals_eq. rewrite rev_length, seq_length.
        rewrite !app_length in Hlen. lia.
      * destruct (retain_loop_spec (fun _ => false) m start) as (rm & E & HL & HA).
        rewrite retain_loop_all in E. injection E as E1 E2. rewrite <- E1 in HA, HL. subst rm.
        specialize (HA p s Hstart). simpl app in HA. rewrite Hlen in HA.
        replace (stop - start) with (length m) by lia. exact HA.
      * intros ->. simpl in *. lia.
  - exists []. split; [reflexivity|]. split; [|reflexivity].
    assert (Em : m = []) by (apply length_zero_iff_nil; lia). subst m. reflexivity.
Qed.

Lemma drain_acts {A} (p m s : list A) b1 b2 :
  bounds b1 b2 (length (p ++ m ++ s)) = (length p, length p + length m) ->
  exists ds, acts (p ++ m ++ s) (mv_drain b1 b2) (p ++ s) ds m
    /\ apply_all apply_to_vec (p ++ m ++ s) ds = Some (p ++ s)
    /\ (m = [] -> ds = []).
Proof.
  intros Hb.
  destruct (remove_range_acts p m s (length p) (length p + length m) _ eq_refl eq_refl eq_refl) as (ds & H1 & H2 & H3).
  exists ds. split; [|auto]. intros st Hv. unfold mv_drain, convert_range. rewrite Hv.
  unfold bounds in Hb. injection Hb as -> ->.
  destruct (Nat.ltb_spec (length p + length m) (length p)); [lia|].
  destruct (Nat.ltb_spec (length (p ++ m ++ s)) (length p + length m)) as [Hl|Hl]; [rewrite !app_length in Hl; lia|].
  rewrite H1. cbn [bind]. rewrite values_notify_all, Hv. f_equal.
  - f_equal. rewrite firstn_app, firstn_all, Nat.sub_diag. simpl. rewrite app_nil_r. f_equal.
    rewrite app_assoc, skipn_app, <- app_length, skipn_all, Nat.sub_diag. reflexivity.
  - replace (length p + length m - length p) with (length m) by lia.
    rewrite skipn_app, skipn_all, Nat.sub_diag. simpl.
    rewrite firstn_app, firstn_all, Nat.sub_diag. simpl. apply app_nil_r.
Qed.

Lemma drain_out {A} (v : list A) b1 b2 :
  snd (bounds b1 b2 (length v)) < fst (bounds b1 b2 (length v)) \/ length v < snd (bounds b1 b2 (length v)) ->
  panics v (mv_drain b1 b2).
Proof.
  intros H. exists v. intros st Hv. unfold mv_drain, convert_range. rewrite Hv.
  unfold bounds in H. cbn [fst snd] in H.
  destruct (Nat.ltb_spec (match b2 with Included e => e + 1 | Excluded e => e | Unbounded => length v end)
              (match b1 with Included s => s | Excluded s => s + 1 | Unbounded => 0 end)).
  - rewrite <- Hv, set_same. reflexivity.
  - destruct (Nat.ltb_spec (length v) (match b2 with Included e => e + 1 | Excluded e => e | Unbounded => length v end)).
    + rewrite <- Hv, set_same. reflexivity.
    + lia.
Qed.

Lemma truncate_acts {A} (v : list A) n :
  exists ds, acts v (mv_truncate n) (firstn n v) ds tt
    /\ apply_all apply_to_vec v ds = Some (firstn n v)
    /\ (length v <= n -> ds = []).
Proof.
  destruct (Nat.le_gt_cases (length v) n) as [Hle|Hgt].
  - exists []. rewrite firstn_all2 by exact Hle. split; [|split; reflexivity].
    intros st Hv. unfold mv_truncate, mv_remove_range. rewrite Hv.
    destruct (Nat.ltb_spec n (length v)); [lia|]. cbn [bind]. rewrite Hv, firstn_all2 by exact Hle.
    reflexivity.
  - assert (Hv0 : v = firstn n v ++ skipn n v ++ []) by (rewrite app_nil_r, firstn_skipn; reflexivity).
    assert (L1 : length (firstn n v) = n) by (rewrite firstn_length; lia).
    destruct (remove_range_acts (firstn n v) (skipn n v) [] n (length v) (length v)) as (ds & H1 & H2 & H3).
    + exact L1.
    + rewrite L1, skipn_length. lia.
    + rewrite <- Hv0. reflexivity.
    + exists ds. rewrite <- Hv0, app_nil_r in H2. split; [|split; [exact H2|lia]].
      intros st Hv. unfold mv_truncate. rewrite Hv, H1. cbn [bind]. rewrite values_notify_all, Hv. reflexivity.
Qed.

Lemma push_copy_acts {A} (v : list A) x : acts v (mv_push_copy x) (v ++ [x]) [Push x] tt.
Proof. intros st Hv. unfold mv_push_copy. rewrite Hv. apply (acts_notify v). exact Hv. Qed.

Lemma replace_clone_acts {A} (v vs : list A) : acts v (mv_replace_clone vs) vs [Replace vs] tt.
Proof.
  intros st Hv. unfold mv_replace_clone. rewrite notify_with_eq by (intros s r E; injection E as <- _; reflexivity).
  cbn [bind]. apply (acts_notify v). exact Hv.
Qed.

Lemma push_clone_acts {A} (v : list A) x : acts v (mv_push_clone x) (v ++ [x]) [Push x] tt.
Proof.
  intros st Hv. unfold mv_push_clone. rewrite notify_with_eq by (intros s r E; injection E as <- _; reflexivity).
  cbn [bind]. rewrite Hv. apply (acts_notify v). exact Hv.
Qed.

Lemma insert_copy_acts {A} (p s : list A) x :
  acts (p ++ s) (mv_insert_copy (length p) x) (p ++ x :: s)
    [match s with [] => Push x | _ => InsertAt (length p) x end] tt.
Proof.
  intros st Hv. unfold mv_insert_copy. rewrite Hv, app_length. destruct s as [|y s].
  - simpl. rewrite Nat.add_0_r, Nat.eqb_refl. rewrite app_nil_r in Hv. apply push_copy_acts. exact Hv.
  - destruct (Nat.eqb_spec (length p) (length p + length (y :: s))) as [E|E]; [simpl in E; lia|].
    rewrite vinsert_app by reflexivity. apply (acts_notify (p ++ y :: s)). exact Hv.
Qed.

Lemma insert_clone_acts {A} (p s : list A) x :
  acts (p ++ s) (mv_insert_clone (length p) x) (p ++ x :: s)
    [match s with [] => Push x | _ => InsertAt (length p) x end] tt.
Proof.
  intros st Hv. unfold mv_insert_clone. rewrite Hv, app_length. destruct s as [|y s].
  - simpl. rewrite Nat.add_0_r, Nat.eqb_refl. rewrite app_nil_r in Hv. apply push_clone_acts. exact Hv.
  - destruct (Nat.eqb_spec (length p) (length p + length (y :: s))) as [E|E]; [simpl in E; lia|].
    rewrite notify_with_eq, Hv, vinsert_app by reflexivity || (intros s0 r E0; destruct (vinsert _ _ _); [injection E0 as <- _; reflexivity|discriminate]).
    cbn [bind]. apply (acts_notify (p ++ y :: s)). exact Hv.
Qed.

Lemma set_copy_acts {A} (p s : list A) x y :
  acts (p ++ y :: s) (mv_set_copy (length p) x) (p ++ x :: s) [UpdateAt (length p) x] tt.
Proof.
  intros st Hv. unfold mv_set_copy. rewrite Hv, vset_app by reflexivity.
  apply (acts_notify (p ++ y :: s)). exact Hv.
Qed.

Lemma set_clone_acts {A} (p s : list A) x y :
  acts (p ++ y :: s) (mv_set_clone (length p) x) (p ++ x :: s) [UpdateAt (length p) x] tt.
Proof.
  intros st Hv. unfold mv_set_clone.
  rewrite notify_with_eq, Hv, vset_app by reflexivity || (intros s0 r E0; destruct (vset _ _ _); [injection E0 as <- _; reflexivity|discriminate]).
  cbn [bind]. apply (acts_notify (p ++ y :: s)). exact Hv.
Qed.

Lemma vinsert_out {A} (v : list A) i x : length v < i -> vinsert i x v = None.
Proof. intros H. unfold vinsert. destruct (Nat.leb_spec i (length v)); [lia|reflexivity]. Qed.

Lemma vset_out {A} (v : list A) i x : length v <= i -> vset i x v = None.
Proof. intros H. unfold vset. destruct (Nat.ltb_spec i (length v)); [lia|reflexivity]. Qed.

Lemma insert_copy_out {A} (v : list A) i x : length v < i -> panics v (mv_insert_copy i x).
Proof.
  intros H. exists v. intros st Hv. unfold mv_insert_copy. rewrite Hv.
  destruct (Nat.eqb_spec i (length v)); [lia|]. rewrite vinsert_out, <- Hv, set_same by exact H. reflexivity.
Qed.

Lemma insert_clone_out {A} (v : list A) i x : length v < i -> panics v (mv_insert_clone i x).
Proof.
  intros H. exists v. intros st Hv. unfold mv_insert_clone. rewrite Hv.
  destruct (Nat.eqb_spec i (length v)); [lia|].
  rewrite notify_with_eq, Hv, vinsert_out by exact H || (intros s0 r E0; destruct (vinsert _ _ _); [injection E0 as <- _; reflexivity|discriminate]).
  cbn [bind]. rewrite <- Hv, set_same. reflexivity.
Qed.

Lemma set_copy_out {A} (v : list A) i x : length v <= i -> panics v (mv_set_copy i x).
Proof.
  intros H. exists v. intros st Hv. unfold mv_set_copy. rewrite Hv, vset_out, <- Hv, set_same by exact H. reflexivity.
Qed.

Lemma set_clone_out {A} (v : list A) i x : length v <= i -> panics v (mv_set_clone i x).
Proof.
  intros H. exists v. intros st Hv. unfold mv_set_clone.
  rewrite notify_with_eq, Hv, vset_out by exact H || (intros s0 r E0; destruct (vset _ _ _); [injection E0 as <- _; reflexivity|discriminate]).
  cbn [bind]. rewrite <- Hv, set_same. reflexivity.
Qed.

Lemma extend_acts {A} (vs : list A) : forall v, acts v (mv_extend vs) (v ++ vs) (map Push vs) tt.
Proof.
  induction vs as [|x vs IH]; intros v; cbn [mv_extend map].
  - rewrite app_nil_r. apply acts_nothing.
  - replace (v ++ x :: vs) with ((v ++ [x]) ++ vs) by (rewrite <- app_assoc; reflexivity).
    apply (acts_bind v (v ++ [x]) _ (mv_push_clone x) (fun st1 _ => mv_extend vs st1) [Push x] (map Push vs) tt tt).
    + apply push_clone_acts.
    + apply IH.
Qed.

Lemma extend_apply {A} (vs : list A) : forall v, apply_all apply_to_vec v (map Push vs) = Some (v ++ vs).
Proof.
  induction vs as [|x vs IH]; intros v; simpl; [rewrite app_nil_r; reflexivity|].
  rewrite IH, <- app_assoc. reflexivity.
Qed.

Lemma apply_move_app {A} (p s q t : list A) x o n : length p = o -> length q = n -> p ++ s = q ++ t ->
  apply_to_vec (Move o n) (p ++ x :: s) = Some (q ++ x :: t).
Proof. intros Ho Hn E. cbn [apply_to_vec]. rewrite vremove_app by exact Ho. rewrite E. apply vinsert_app. exact Hn. Qed.

Lemma reverse_loop_acts {A} (n : nat) : forall (w t : list A) stop,
  length w = n + 1 -> length (rev t ++ w) = stop + 1 ->
  exists ds, acts (rev t ++ w) (reverse_loop n stop (length t)) (rev (w ++ t)) ds tt
    /\ apply_all apply_to_vec (rev t ++ w) ds = Some (rev (w ++ t)).
Proof.
  induction n as [|n IH]; intros w t stop Hw Hl; cbn [reverse_loop].
  - destruct w as [|x [|? ?]]; try (simpl in Hw; lia). exists [].
    replace (rev ([x] ++ t)) with (rev t ++ [x]) by reflexivity.
    split; [apply acts_nothing|reflexivity].
  - destruct (@exists_last _ w) as (w' & x & ->); [intros ->; simpl in Hw; lia|].
    rewrite app_length in Hw. simpl in Hw.
    destruct (IH w' (x :: t) stop) as (ds & H1 & H2).
    + lia.
    + simpl rev. rewrite !app_length in *. simpl in *. lia.
    + exists ([Move stop (length t)] ++ ds).
      assert (Hm : apply_to_vec (Move stop (length t)) (rev t ++ w' ++ [x]) = Some (rev (x :: t) ++ w')).
      { simpl rev. rewrite <- (app_assoc (rev t)). simpl.
        rewrite (app_assoc (rev t) w' [x]). apply apply_move_app.
        - rewrite !app_length in *. simpl in *. lia.
        - apply rev_length.
        - apply app_nil_r. }
      replace (rev ((w' ++ [x]) ++ t)) with (rev (w' ++ x :: t)) by (rewrite <- app_assoc; reflexivity).
      split.
      * apply (acts_bind _ (rev (x :: t) ++ w') _ (mv_move_from_to stop (length t))
                 (fun st1 _ => reverse_loop n stop (length t + 1) st1) _ ds tt tt).
        -- apply move_ok; [|exact Hm]. rewrite !app_length, rev_length in Hl. simpl in Hl. lia.
        -- replace (length t + 1) with (length (x :: t)) by (simpl; lia). exact H1.
      * simpl app. cbn [apply_all]. rewrite Hm. exact H2.
Qed.

Lemma reverse_acts {A} (v : list A) :
  exists ds, acts v mv_reverse (rev v) ds tt /\ apply_all apply_to_vec v ds = Some (rev v)
    /\ (length v <= 1 -> ds = []).
Proof.
  destruct (Nat.le_gt_cases (length v) 1) as [Hle|Hgt].
  - exists []. assert (Er : rev v = v) by (destruct v as [|x [|y v]]; simpl in Hle; try reflexivity; lia).
    rewrite Er. split; [|split; reflexivity].
    intros st Hv. unfold mv_reverse. rewrite Hv. destruct (Nat.ltb_spec 1 (length v)); [lia|].
    simpl. rewrite <- Hv, set_same. reflexivity.
  - destruct (reverse_loop_acts (length v - 1) v [] (length v - 1)) as (ds & H1 & H2); [lia|simpl; lia|].
    simpl app in H1, H2. rewrite app_nil_r in H1, H2.
    exists ds. split; [|split; [exact H2|lia]].
    intros st Hv. unfold mv_reverse. rewrite Hv. destruct (Nat.ltb_spec 1 (length v)); [|lia].
    exact (H1 st Hv).
Qed.

(** swap of positions |p| < |p ++ x :: m| *)
Lemma swap_lt_acts {A} (p m s : list A) x y a b : a = length p -> b = length p + 1 + length m ->
  exists ds, acts (p ++ x :: m ++ y :: s) (mv_swap a b) (p ++ y :: m ++ x :: s) ds tt
    /\ apply_all apply_to_vec (p ++ x :: m ++ y :: s) ds = Some (p ++ y :: m ++ x :: s).
Proof.
  intros Ea Eb.
  assert (M1 : apply_to_vec (Move a b) (p ++ x :: m ++ y :: s) = Some (p ++ m ++ y :: x :: s)).
  { replace (p ++ m ++ y :: x :: s) with ((p ++ m ++ [y]) ++ x :: s) by (rewrite <- !app_assoc; reflexivity).
    apply apply_move_app; [lia|rewrite !app_length; simpl; lia|].
    rewrite <- !app_assoc. reflexivity. }
  destruct m as [|z m].
  - exists ([Move a b] ++ []). simpl app in M1. split.
    + unfold mv_swap. intros st Hv. destruct (Nat.ltb_spec a b); [|lia].
      simpl app in *.
      refine (acts_bind _ (p ++ y :: x :: s) _ (mv_move_from_to a b) (fun st1 _ => mv_move_from_to (b - 1) a st1) [Move a b] [] tt tt _ _ st Hv).
      * apply move_ok; [lia|exact M1].
      * replace (b - 1) with a by (simpl in *; lia). apply move_same.
    + cbn [apply_all app]. simpl app. rewrite M1. reflexivity.
  - set (w := z :: m) in *.
    assert (M2 : apply_to_vec (Move (b - 1) a) (p ++ w ++ y :: x :: s) = Some (p ++ y :: w ++ x :: s)).
    { rewrite app_assoc. apply apply_move_app; [rewrite app_length; lia|lia|].
      rewrite <- app_assoc. reflexivity. }
    exists ([Move a b] ++ [Move (b - 1) a]). split.
    + unfold mv_swap. intros st Hv. destruct (Nat.ltb_spec a b); [|lia].
      refine (acts_bind _ (p ++ w ++ y :: x :: s) _ (mv_move_from_to a b) (fun st1 _ => mv_move_from_to (b - 1) a st1) _ _ tt tt _ _ st Hv).
      * apply move_ok; [lia|exact M1].
      * apply move_ok; [unfold w in *; simpl in *; lia|exact M2].
    + cbn [apply_all app]. rewrite M1, M2. reflexivity.
Qed.

Lemma swap_gt_acts {A} (p m s : list A) x y a b : b = length p -> a = length p + 1 + length m ->
  exists ds, acts (p ++ x :: m ++ y :: s) (mv_swap a b) (p ++ y :: m ++ x :: s) ds tt
    /\ apply_all apply_to_vec (p ++ x :: m ++ y :: s) ds = Some (p ++ y :: m ++ x :: s).
Proof.
  intros Eb Ea.
  assert (M1 : apply_to_vec (Move a b) (p ++ x :: m ++ y :: s) = Some (p ++ y :: x :: m ++ s)).
  { replace (p ++ x :: m ++ y :: s) with ((p ++ x :: m) ++ y :: s) by (rewrite <- !app_assoc; reflexivity).
    apply apply_move_app; [rewrite !app_length; simpl; lia|lia|].
    rewrite <- !app_assoc. reflexivity. }
  destruct m as [|z m].
  - exists ([Move a b] ++ []). simpl app in M1. split.
    + unfold mv_swap. intros st Hv. destruct (Nat.ltb_spec a b); [lia|].
      destruct (Nat.ltb_spec b a); [|lia].
      simpl app in *.
      refine (acts_bind _ (p ++ y :: x :: s) _ (mv_move_from_to a b) (fun st1 _ => mv_move_from_to (b + 1) a st1) [Move a b] [] tt tt _ _ st Hv).
      * apply move_ok; [lia|exact M1].
      * replace (b + 1) with a by (simpl in *; lia). apply move_same.
    + cbn [apply_all app]. simpl app. rewrite M1. reflexivity.
  - set (w := z :: m) in *.
    assert (M2 : apply_to_vec (Move (b + 1) a) (p ++ y :: x :: w ++ s) = Some (p ++ y :: w ++ x :: s)).
    { replace (p ++ y :: x :: w ++ s) with ((p ++ [y]) ++ x :: w ++ s) by (rewrite <- !app_assoc; reflexivity).
      replace (p ++ y :: w ++ x :: s) with ((p ++ y :: w) ++ x :: s) by (rewrite <- !app_assoc; reflexivity).
      apply apply_move_app; [rewrite app_length; simpl; lia|rewrite app_length; unfold w in *; simpl in *; lia|].
      rewrite <- !app_assoc. reflexivity. }
    exists ([Move a b] ++ [Move (b + 1) a]). split.
    + unfold mv_swap. intros st Hv. destruct (Nat.ltb_spec a b); [lia|].
      destruct (Nat.ltb_spec b a); [|lia].
      refine (acts_bind _ (p ++ y :: x :: w ++ s) _ (mv_move_from_to a b) (fun st1 _ => mv_move_from_to (b + 1) a st1) _ _ tt tt _ _ st Hv).
      * apply move_ok; [lia|exact M1].
      * apply move_ok; [unfold w in *; simpl in *; lia|exact M2].
    + cbn [apply_all app]. rewrite M1, M2. reflexivity.
Qed.

Lemma swap_out {A} (v : list A) a b : a <> b -> length v <= a \/ length v <= b -> panics v (mv_swap a b).
Proof.
  intros Hne H. assert (Hm : apply_to_vec (Move a b) v = None) by (apply apply_panics; simpl; exact H).
  assert (Hp : panics v (mv_move_from_to a b)) by (apply move_out; assumption).
  unfold mv_swap. destruct (Nat.ltb_spec a b); [apply (panics_bind v (mv_move_from_to a b)); exact Hp|].
  destruct (Nat.ltb_spec b a); [apply (panics_bind v (mv_move_from_to a b)); exact Hp|lia].
Qed.

Lemma split_two {A} (v : list A) a b : a < b -> b < length v ->
  exists p m s x y, v = p ++ x :: m ++ y :: s /\ length p = a /\ b = length p + 1 + length m.
Proof.
  intros Hab Hb.
  destruct (nth_error v a) as [x|] eqn:Ea; [|apply nth_error_None in Ea; lia].
  apply nth_error_split in Ea. destruct Ea as (p & r & -> & Hp).
  rewrite app_length in Hb. simpl in Hb.
  destruct (nth_error r (b - a - 1)) as [y|] eqn:Eb; [|apply nth_error_None in Eb; lia].
  apply nth_error_split in Eb. destruct Eb as (m & s & -> & Hm).
  exists p, m, s, x, y. repeat split; try assumption. lia.
Qed.

Lemma swap_spec {A} (p m s : list A) x y :
  let v := p ++ x :: m ++ y :: s in let v' := p ++ y :: m ++ x :: s in
  let a := length p in let b := length p + 1 + length m in
  length v' = length v /\ nth_error v' a = nth_error v b /\ nth_error v' b = nth_error v a
  /\ forall k, k <> a -> k <> b -> nth_error v' k = nth_error v k.
Proof.
  cbn zeta. split; [rewrite !app_length; simpl; rewrite !app_length; simpl; lia|].
  assert (Hn : forall (u w : A) k, nth_error (p ++ u :: m ++ w :: s) k =
     if k <? length p then nth_error p k else if k =? length p then Some u
     else if k - length p - 1 <? length m then nth_error m (k - length p - 1)
     else if k - length p - 1 =? length m then Some w else nth_error s (k - length p - 1 - length m - 1)).
  { intros u w k. rewrite nth_mid. destruct (k <? length p); [reflexivity|]. destruct (k =? length p); [reflexivity|].
    apply nth_mid. }
  rewrite !Hn, !Nat.ltb_irrefl, !Nat.eqb_refl.
  destruct (Nat.ltb_spec (length p + 1 + length m) (length p)); [lia|].
  destruct (Nat.eqb_spec (length p + 1 + length m) (length p)); [lia|].
  replace (length p + 1 + length m - length p - 1) with (length m) by lia.
  rewrite Nat.ltb_irrefl, Nat.eqb_refl. repeat split.
  intros k Ha Hb. rewrite !Hn. destruct (k <? length p) eqn:E1; [reflexivity|].
  destruct (Nat.eqb_spec k (length p)); [contradiction|].
  destruct (k - length p - 1 <? length m) eqn:E2; [reflexivity|].
  apply Nat.ltb_ge in E1. apply Nat.ltb_ge in E2.
  destruct (Nat.eqb_spec (k - length p - 1) (length m)); [lia|reflexivity].
Qed.

Lemma skipn_skipn' {A} : forall m n (l : list A), skipn m (skipn n l) = skipn (n + m) l.
Proof.
  intros m n. induction n as [|n IH]; intros l; [reflexivity|].
  destruct l as [|x l]; simpl; [destruct m; reflexivity|apply IH].
Qed.

(** ** All operations at once *)
Definition op_works {A} (o : op A) (v : list A) : Prop :=
  ~ op_panics o v /\ exists v' ds r, acts v (mv_op o) v' ds r
    /\ apply_all apply_to_vec v ds = Some v' /\ op_means o v v' r /\ (op_noop o v -> ds = []).

Lemma op_cases {A} (o : op A) (v : list A) : (op_panics o v /\ panics v (mv_op o)) \/ op_works o v.
Proof.
  destruct o as [|i|o n|  |f|b1 b2|n|a b| |x|i x|i x|vs|x|i x|i x|vs|vs|d]; unfold op_works; cbn [op_panics mv_op].
  - right. split; [tauto|]. destruct v as [|x v _] using rev_ind.
    + exists [], [], (ROpt None). split; [apply (acts_ret (R:=option A) _ _ mv_pop _ None); [exact pop_empty|reflexivity]|].
      split; [first [reflexivity|assumption]|]. simpl. tauto.
    + exists v, [Pop], (ROpt (Some x)).
      split; [apply (acts_ret (R:=option A) _ _ mv_pop _ (Some x)); [apply pop_snoc|reflexivity]|].
      split; [apply apply_all_single, apply_pop_app|]. split; [right; exists x; auto|].
      simpl. intros E. destruct v; discriminate.
  - destruct (Nat.le_gt_cases (length v) i) as [Hle|Hgt].
    + left. split; [exact Hle|]. apply (panics_ret v (mv_remove i)). apply remove_out. exact Hle.
    + right. split; [lia|].
      destruct (nth_error v i) as [x|] eqn:E; [|apply nth_error_None in E; lia].
      pose proof E as E0. apply nth_error_split in E. destruct E as (p & s & -> & <-).
      do 3 eexists. split; [apply (acts_ret (R:=A) _ _ (mv_remove (length p)) _ x); [apply remove_mid|reflexivity]|].
      split; [|split; [|simpl; tauto]].
      * apply apply_all_single. destruct s; [rewrite app_nil_r; apply apply_pop_app|apply apply_remove_app; reflexivity].
      * simpl. split; [|exists x; auto].
        apply (apply_means (RemoveAt (length p))). apply apply_remove_app. reflexivity.
  - destruct (Nat.eq_dec o n) as [->|Hne].
    + right. split; [tauto|]. exists v, [], RUnit.
      split; [apply (acts_ret (R:=unit) _ _ (mv_move_from_to n n) _ tt); [apply move_same|reflexivity]|].
      split; [first [reflexivity|assumption]|]. simpl. tauto.
    + destruct (apply_to_vec (Move o n) v) as [v'|] eqn:E.
      * right. split; [intros [_ H]; assert (apply_to_vec (Move o n) v = None) by (apply apply_panics; exact H); congruence|].
        exists v', [Move o n], RUnit.
        split; [apply (acts_ret (R:=unit) _ _ (mv_move_from_to o n) _ tt); [apply move_ok; assumption|reflexivity]|].
        split; [apply apply_all_single; exact E|]. split; [|simpl; congruence].
        split; [|reflexivity]. right. apply apply_means. exact E.
      * left. split; [split; [exact Hne|apply apply_panics in E; exact E]|].
        apply (panics_ret v (mv_move_from_to o n)). apply move_out; assumption.
  - right. split; [tauto|]. exists [], (match v with [] => [] | _ => [Clear] end), RUnit.
    split; [apply (acts_ret (R:=unit) _ _ mv_clear _ tt); [apply clear_acts|reflexivity]|].
    destruct v; simpl; auto. split; [reflexivity|]. split; [auto|discriminate].
  - right. split; [tauto|]. destruct (retain_acts f v) as (ds & H1 & H2 & H3).
    exists (filter f v), ds, (RCalls v).
    split; [apply (acts_ret (R:=list A) _ _ (mv_retain f) _ v); [exact H1|reflexivity]|].
    split; [first [reflexivity|assumption]|]. simpl. tauto.
  - destruct (bounds b1 b2 (length v)) as [start stop] eqn:Eb. cbn [fst snd].
    destruct (Nat.lt_ge_cases stop start) as [H1|H1]; [|destruct (Nat.lt_ge_cases (length v) stop) as [H2|H2]].
    + left. split; [auto|]. apply (panics_ret v (mv_drain b1 b2)). apply drain_out. rewrite Eb. auto.
    + left. split; [auto|]. apply (panics_ret v (mv_drain b1 b2)). apply drain_out. rewrite Eb. auto.
    + right. split; [lia|].
      assert (Hv : v = firstn start v ++ firstn (stop - start) (skipn start v) ++ skipn stop v).
      { rewrite <- (firstn_skipn start v) at 1. f_equal.
        rewrite <- (firstn_skipn (stop - start) (skipn start v)) at 1. f_equal.
        rewrite skipn_skipn'. f_equal. lia. }
      set (p := firstn start v) in *. set (m := firstn (stop - start) (skipn start v)) in *.
      set (s := skipn stop v) in *.
      assert (Lp : length p = start) by (unfold p; rewrite firstn_length; lia).
      assert (Lm : length m = stop - start) by (unfold m; rewrite firstn_length, skipn_length; lia).
      clearbody p m s. subst v.
      assert (Eb' : bounds b1 b2 (length (p ++ m ++ s)) = (length p, length p + length m)).
      { rewrite Eb. f_equal; lia. }
      destruct (drain_acts p m s b1 b2 Eb') as (ds & A1 & A2 & A3).
      exists (p ++ s), ds, (RVals m).
      split; [apply (acts_ret (R:=list A) _ _ (mv_drain b1 b2) _ m); [exact A1|reflexivity]|].
      split; [exact A2|]. split; [exists p, m, s; auto|].
      unfold op_noop. rewrite Eb. cbn [fst snd]. intros E. apply A3. apply length_zero_iff_nil. lia.
  - right. split; [tauto|]. destruct (truncate_acts v n) as (ds & H1 & H2 & H3).
    exists (firstn n v), ds, RUnit.
    split; [apply (acts_ret (R:=unit) _ _ (mv_truncate n) _ tt); [exact H1|reflexivity]|].
    split; [exact H2|]. split; [|exact H3].
    simpl. split; [|reflexivity]. exists (skipn n v). split; [symmetry; apply firstn_skipn|].
    split; intros E.
    + rewrite firstn_length. destruct (Nat.le_gt_cases (length v) n); [|lia].
      rewrite skipn_all2 in E by assumption. congruence.
    + apply (f_equal (@length A)) in E. rewrite skipn_length in E. simpl in E. lia.
  - destruct (Nat.eq_dec a b) as [->|Hne].
    + right. split; [tauto|]. exists v, [], RUnit. split.
      * apply (acts_ret (R:=unit) _ _ (mv_swap b b) _ tt); [|reflexivity].
        intros st Hv. unfold mv_swap. rewrite Nat.ltb_irrefl. apply acts_nothing. exact Hv.
      * split; [first [reflexivity|assumption]|]. simpl. tauto.
    + destruct (Nat.le_gt_cases (length v) a) as [Ha|Ha]; [|destruct (Nat.le_gt_cases (length v) b) as [Hb|Hb]].
      * left. split; [auto|]. apply (panics_ret v (mv_swap a b)). apply swap_out; auto.
      * left. split; [auto|]. apply (panics_ret v (mv_swap a b)). apply swap_out; auto.
      * right. split; [lia|]. destruct (Nat.lt_ge_cases a b) as [Hab|Hab].
        -- destruct (split_two v a b Hab Hb) as (p & m & s & x & y & -> & <- & ->).
           destruct (swap_lt_acts p m s x y _ _ eq_refl eq_refl) as (ds & A1 & A2).
           exists (p ++ y :: m ++ x :: s), ds, RUnit.
           split; [apply (acts_ret (R:=unit) _ _ (mv_swap _ _) _ tt); [exact A1|reflexivity]|].
           split; [exact A2|]. split; [|simpl; lia]. simpl. split; [reflexivity|]. right.
           split; [exact Ha|]. split; [exact Hb|]. apply swap_spec.
        -- destruct (split_two v b a) as (p & m & s & x & y & -> & <- & ->); [lia|exact Ha|].
           destruct (swap_gt_acts p m s x y _ _ eq_refl eq_refl) as (ds & A1 & A2).
           exists (p ++ y :: m ++ x :: s), ds, RUnit.
           split; [apply (acts_ret (R:=unit) _ _ (mv_swap _ _) _ tt); [exact A1|reflexivity]|].
           split; [exact A2|]. split; [|simpl; lia]. simpl. split; [reflexivity|]. right.
           split; [exact Ha|]. split; [exact Hb|].
           destruct (swap_spec p m s x y) as (S1 & S2 & S3 & S4). cbn zeta in *.
           split; [exact S1|]. split; [exact S3|]. split; [exact S2|]. auto.
  - right. split; [tauto|]. destruct (reverse_acts v) as (ds & H1 & H2 & H3).
    exists (rev v), ds, RUnit.
    split; [apply (acts_ret (R:=unit) _ _ mv_reverse _ tt); [exact H1|reflexivity]|].
    split; [first [reflexivity|assumption]|]. simpl. tauto.
  - right. split; [tauto|]. exists (v ++ [x]), [Push x], RUnit.
    split; [apply (acts_ret (R:=unit) _ _ (mv_push_copy x) _ tt); [apply push_copy_acts|reflexivity]|].
    split; [first [reflexivity|assumption]|]. simpl. tauto.
  - destruct (Nat.lt_ge_cases (length v) i) as [Hlt|Hge].
    + left. split; [exact Hlt|]. apply (panics_ret v (mv_insert_copy i x)). apply insert_copy_out. exact Hlt.
    + right. split; [lia|]. rewrite <- (firstn_skipn i v). set (s := skipn i v).
      assert (Li : length (firstn i v) = i) by (rewrite firstn_length; lia).
      set (p := firstn i v) in *. clearbody p s. subst i.
      do 3 eexists. split; [apply (acts_ret (R:=unit) _ _ (mv_insert_copy (length p) x) _ tt); [apply insert_copy_acts|reflexivity]|].
      split; [|split; [|simpl; tauto]].
      * apply apply_all_single. destruct s; [rewrite app_nil_r; reflexivity|apply apply_insert_app; reflexivity].
      * simpl op_means. split; [|reflexivity]. apply (apply_means (InsertAt (length p) x)). apply apply_insert_app. reflexivity.
  - destruct (Nat.le_gt_cases (length v) i) as [Hle|Hgt].
    + left. split; [exact Hle|]. apply (panics_ret v (mv_set_copy i x)). apply set_copy_out. exact Hle.
    + right. split; [lia|].
      destruct (nth_error v i) as [y|] eqn:E; [|apply nth_error_None in E; lia].
      apply nth_error_split in E. destruct E as (p & s & -> & <-).
      do 3 eexists. split; [apply (acts_ret (R:=unit) _ _ (mv_set_copy (length p) x) _ tt); [apply set_copy_acts|reflexivity]|].
      split; [apply apply_all_single, apply_update_app; reflexivity|]. split; [|simpl; tauto].
      simpl op_means. split; [|reflexivity]. apply (apply_means (UpdateAt (length p) x)). apply apply_update_app. reflexivity.
  - right. split; [tauto|]. exists vs, [Replace vs], RUnit.
    split; [apply (acts_ret (R:=unit) _ _ (mv_replace_copy vs) _ tt); [apply replace_clone_acts|reflexivity]|].
    split; [first [reflexivity|assumption]|]. simpl. tauto.
  - right. split; [tauto|]. exists (v ++ [x]), [Push x], RUnit.
    split; [apply (acts_ret (R:=unit) _ _ (mv_push_clone x) _ tt); [apply push_clone_acts|reflexivity]|].
    split; [first [reflexivity|assumption]|]. simpl. tauto.
  - destruct (Nat.lt_ge_cases (length v) i) as [Hlt|Hge].
    + left. split; [exact Hlt|]. apply (panics_ret v (mv_insert_clone i x)). apply insert_clone_out. exact Hlt.
    + right. split; [lia|]. rewrite <- (firstn_skipn i v). set (s := skipn i v).
      assert (Li : length (firstn i v) = i) by (rewrite firstn_length; lia).
      set (p := firstn i v) in *. clearbody p s. subst i.
      do 3 eexists. split; [apply (acts_ret (R:=unit) _ _ (mv_insert_clone (length p) x) _ tt); [apply insert_clone_acts|reflexivity]|].
      split; [|split; [|simpl; tauto]].
      * apply apply_all_single. destruct s; [rewrite app_nil_r; reflexivity|apply apply_insert_app; reflexivity].
      * simpl op_means. split; [|reflexivity]. apply (apply_means (InsertAt (length p) x)). apply apply_insert_app. reflexivity.
  - destruct (Nat.le_gt_cases (length v) i) as [Hle|Hgt].
    + left. split; [exact Hle|]. apply (panics_ret v (mv_set_clone i x)). apply set_clone_out. exact Hle.
    + right. split; [lia|].
      destruct (nth_error v i) as [y|] eqn:E; [|apply nth_error_None in E; lia].
      apply nth_error_split in E. destruct E as (p & s & -> & <-).
      do 3 eexists. split; [apply (acts_ret (R:=unit) _ _ (mv_set_clone (length p) x) _ tt); [apply set_clone_acts|reflexivity]|].
      split; [apply apply_all_single, apply_update_app; reflexivity|]. split; [|simpl; tauto].
      simpl op_means. split; [|reflexivity]. apply (apply_means (UpdateAt (length p) x)). apply apply_update_app. reflexivity.
  - right. split; [tauto|]. exists vs, [Replace vs], RUnit.
    split; [apply (acts_ret (R:=unit) _ _ (mv_replace_clone vs) _ tt); [apply replace_clone_acts|reflexivity]|].
    split; [first [reflexivity|assumption]|]. simpl. tauto.
  - right. split; [tauto|]. exists (v ++ vs), (map Push vs), RUnit.
    split; [apply (acts_ret (R:=unit) _ _ (mv_extend vs) _ tt); [apply extend_acts|reflexivity]|].
    split; [apply extend_apply|]. simpl. split; [auto|]. intros ->. reflexivity.
  - (* apply_vec_diff *)
    destruct d as [vs|i x|i x|i|o n|x| |]; cbn [mv_apply_vec_diff op_panics diff_panics].
    + right. split; [tauto|]. exists vs, [Replace vs], RUnit.
      split; [apply (acts_ret (R:=unit) _ _ (mv_replace_clone vs) _ tt); [apply replace_clone_acts|reflexivity]|].
      split; [first [reflexivity|assumption]|]. simpl. tauto.
    + destruct (Nat.lt_ge_cases (length v) i) as [Hlt|Hge].
      * left. split; [exact Hlt|]. apply (panics_ret v (mv_insert_clone i x)). apply insert_clone_out. exact Hlt.
      * right. split; [lia|]. rewrite <- (firstn_skipn i v). set (s := skipn i v).
        assert (Li : length (firstn i v) = i) by (rewrite firstn_length; lia).
        set (p := firstn i v) in *. clearbody p s. subst i.
        do 3 eexists. split; [apply (acts_ret (R:=unit) _ _ (mv_insert_clone (length p) x) _ tt); [apply insert_clone_acts|reflexivity]|].
        split; [|split; [|simpl; tauto]].
        -- apply apply_all_single. destruct s; [rewrite app_nil_r; reflexivity|apply apply_insert_app; reflexivity].
        -- simpl op_means. split; [|reflexivity]. left. apply (apply_means (InsertAt (length p) x)). apply apply_insert_app. reflexivity.
    + destruct (Nat.le_gt_cases (length v) i) as [Hle|Hgt].
      * left. split; [exact Hle|]. apply (panics_ret v (mv_set_clone i x)). apply set_clone_out. exact Hle.
      * right. split; [lia|].
        destruct (nth_error v i) as [y|] eqn:E; [|apply nth_error_None in E; lia].
        apply nth_error_split in E. destruct E as (p & s & -> & <-).
        do 3 eexists. split; [apply (acts_ret (R:=unit) _ _ (mv_set_clone (length p) x) _ tt); [apply set_clone_acts|reflexivity]|].
        split; [apply apply_all_single, apply_update_app; reflexivity|]. split; [|simpl; tauto].
        simpl op_means. split; [|reflexivity]. left. apply (apply_means (UpdateAt (length p) x)). apply apply_update_app. reflexivity.
    + destruct (Nat.le_gt_cases (length v) i) as [Hle|Hgt].
      * left. split; [exact Hle|]. apply (panics_ret v (mv_remove i)). apply remove_out. exact Hle.
      * right. split; [lia|].
        destruct (nth_error v i) as [x|] eqn:E; [|apply nth_error_None in E; lia].
        apply nth_error_split in E. destruct E as (p & s & -> & <-).
        do 3 eexists. split; [apply (acts_ret (R:=A) _ _ (mv_remove (length p)) _ x); [apply remove_mid|reflexivity]|].
        split; [|split; [|simpl; tauto]].
        -- apply apply_all_single. destruct s; [rewrite app_nil_r; apply apply_pop_app|apply apply_remove_app; reflexivity].
        -- simpl op_means. split; [|reflexivity]. left. apply (apply_means (RemoveAt (length p))). apply apply_remove_app. reflexivity.
    + destruct (Nat.eq_dec o n) as [->|Hne].
      * right. split; [tauto|]. exists v, [], RUnit.
        split; [apply (acts_ret (R:=unit) _ _ (mv_move_from_to n n) _ tt); [apply move_same|reflexivity]|].
        split; [reflexivity|]. split; [|reflexivity]. simpl. split; [|reflexivity]. right. exists n. auto.
      * destruct (apply_to_vec (Move o n) v) as [v'|] eqn:E.
        -- right. split; [intros [_ H]; assert (apply_to_vec (Move o n) v = None) by (apply apply_panics; exact H); congruence|].
           exists v', [Move o n], RUnit.
           split; [apply (acts_ret (R:=unit) _ _ (mv_move_from_to o n) _ tt); [apply move_ok; assumption|reflexivity]|].
           split; [apply apply_all_single; exact E|]. split; [|simpl; tauto].
           split; [|reflexivity]. left. apply apply_means. exact E.
        -- left. split; [split; [exact Hne|apply apply_panics in E; exact E]|].
           apply (panics_ret v (mv_move_from_to o n)). apply move_out; assumption.
    + right. split; [tauto|]. exists (v ++ [x]), [Push x], RUnit.
      split; [apply (acts_ret (R:=unit) _ _ (mv_push_clone x) _ tt); [apply push_clone_acts|reflexivity]|].
      split; [reflexivity|]. split; [|simpl; tauto]. simpl op_means. split; [|reflexivity]. left.
      apply (apply_means (Push x)). reflexivity.
    + destruct v as [|x v _] using rev_ind.
      * left. split; [reflexivity|]. exists []. intros st Hv. unfold mv_op, mv_apply_vec_diff, mv_pop. rewrite Hv. cbn [vpop rev bind].
        rewrite <- Hv. rewrite set_same. reflexivity.
      * right. split; [destruct v; discriminate|]. exists v, [Pop], RUnit. split.
        -- intros st Hv. unfold mv_op, mv_apply_vec_diff. rewrite (pop_snoc v x st Hv). reflexivity.
        -- split; [apply apply_all_single, apply_pop_app|]. split; [|simpl; tauto].
           simpl op_means. split; [|reflexivity]. left. apply (apply_means Pop). apply apply_pop_app.
    + right. split; [tauto|]. exists [], (match v with [] => [] | _ => [Clear] end), RUnit.
      split; [apply (acts_ret (R:=unit) _ _ mv_clear _ tt); [apply clear_acts|reflexivity]|].
      split; [destruct v; reflexivity|]. split; [|intros Hn; simpl in Hn; rewrite Hn; reflexivity].
      simpl op_means. split; [|reflexivity]. left. reflexivity.
Qed.
