(** Broadcaster: the locks and the list of wakers. *)
From Verif Require Import Base Spec BaseFacts Conc Broadcaster.

Ltac bc_simp :=
  unfold set_kid, set_kids, set_changed, set_wakers, set_rw, set_n, set_notes, set_inner, set_dirty, log_in in *;
  cbn [b_changed b_wakers b_wlock b_live b_value b_epoch b_writer b_readers b_n b_kids b_notes b_log b_dirty] in *.

Ltac k_simp :=
  unfold k_goto, k_setwk, k_setepoch, k_drop, k_start, k_log, k_wake, k_race in *;
  cbn [k_fn k_epoch k_wk k_pc k_alive k_task k_hist k_woken k_raced] in *.

(** Splits a step into its cases. *)
Ltac bc_split s E :=
  destruct s as [ch wks wl live v ep wr rd n kids notes log dirty]; bc_simp;
  match type of E with bc_step _ ?m = _ => destruct m as [f|i|i t|i|i r| |j] end;
  unfold bc_step, kid_step, in_step, note_step, free_w, free_r in E; bc_simp;
  repeat match type of E with
  | context [match ?x with _ => _ end] => let e := fresh "C" in destruct x eqn:e
  end; try discriminate E; injection E as <-; bc_simp; k_simp;
  repeat match goal with
  | H : _ && _ = true |- _ => apply andb_true_iff in H; destruct H
  | H : (_ <? _) = true |- _ => apply Nat.ltb_lt in H
  | H : (_ =? _) = true |- _ => apply Nat.eqb_eq in H
  | H : (_ =? _) = false |- _ => apply Nat.eqb_neq in H
  | H : match ?x with _ => _ end = true |- _ => is_var x; destruct x; try discriminate H
  end.

(** Splits the flag that says which lock is held. *)
Ltac w_split :=
  repeat match goal with
  | H : _ = KLook ?b |- _ => is_var b; destruct b
  | H : _ = KSet ?b |- _ => is_var b; destruct b
  | H : _ = KRet ?b _ |- _ => is_var b; destruct b
  | H : _ = KIn ?b |- _ => is_var b; destruct b
  end.

(** Looks at child [x] after a step that overwrote some child. *)
Ltac at_kid x :=
  unfold fupd; match goal with |- context [x =? ?i] => destruct (Nat.eqb_spec x i); [subst x|] | _ => idtac end; k_simp.

Section Facts.
Context {A B : Type}.
Implicit Types (s : bc_st A B) (m : bc_move A B) (k : kid A B).

Definition holds_w k : bool := match k_pc k with KIn _ | KLook true | KSet true | KRet true _ => true | _ => false end.
Definition holds_r k : bool := match k_pc k with KLook false | KSet false | KRet false _ => true | _ => false end.

(** What the RwLock says of child [i], whose program counter is [p]. *)
Definition lk (wr : option nat) (rd : list nat) (i : nat) k : Prop :=
  (wr = Some i <-> holds_w k = true) /\ (In i rd <-> holds_r k = true).

Definition bc_inv1 s : Prop :=
  (forall i, b_n s <= i -> k_pc (b_kids s i) = KIdle /\ k_alive (b_kids s i) = false /\ k_hist (b_kids s i) = [])
  /\ (forall i, lk (b_writer s) (b_readers s) i (b_kids s i))
  /\ (b_writer s <> None -> b_readers s = [])
  /\ (forall i, k_epoch (b_kids s i) <= b_epoch s)
  /\ (b_value s = None -> b_epoch s = 0 /\ forall i, k_pc (b_kids s i) <> KIn true).

Lemma in_remove_iff (x y : nat) l : In x (remove Nat.eq_dec y l) <-> In x l /\ x <> y.
Proof. split; [apply in_remove|intros []; apply in_in_remove; auto]. Qed.

Lemma lk_w (x i : nat) k : x <> i -> lk None [] x k -> lk (Some i) [] x k.
Proof. unfold lk. intros n [H1 H2]. split; [|exact H2]. rewrite <- H1. split; congruence. Qed.
Lemma lk_r (x i : nat) rd k : x <> i -> lk None rd x k -> lk None (i :: rd) x k.
Proof. unfold lk. intros n [H1 H2]. split; [exact H1|]. rewrite <- H2. cbn [In]. intuition congruence. Qed.
Lemma lk_relw (x i : nat) rd k : x <> i -> lk (Some i) rd x k -> lk None rd x k.
Proof. unfold lk. intros n [H1 H2]. split; [|exact H2]. rewrite <- H1. split; congruence. Qed.
Lemma lk_relr (x i : nat) wr rd k : x <> i -> lk wr rd x k -> lk wr (remove Nat.eq_dec i rd) x k.
Proof. unfold lk. intros n [H1 H2]. split; [exact H1|]. rewrite in_remove_iff, <- H2. intuition. Qed.
Lemma lk_same wr rd i k k' : holds_w k' = holds_w k -> holds_r k' = holds_r k -> lk wr rd i k -> lk wr rd i k'.
Proof. unfold lk. intros -> ->. auto. Qed.
Lemma lk_getw (i : nat) k : holds_w k = true -> holds_r k = false -> lk (Some i) [] i k.
Proof. unfold lk. intros -> ->. cbn. split; split; congruence || tauto. Qed.
Lemma lk_getr (i : nat) rd k : holds_w k = false -> holds_r k = true -> lk None (i :: rd) i k.
Proof. unfold lk. intros -> ->. cbn. split; split; congruence || tauto. Qed.
Lemma lk_dropw (i : nat) k : holds_w k = false -> holds_r k = false -> lk None [] i k.
Proof. unfold lk. intros -> ->. cbn. split; split; congruence || tauto. Qed.
Lemma lk_dropr (i : nat) wr rd k : wr = None -> holds_w k = false -> holds_r k = false -> lk wr (remove Nat.eq_dec i rd) i k.
Proof. unfold lk. intros -> -> ->. rewrite in_remove_iff. split; split; congruence || tauto. Qed.
Lemma lk_hasw wr rd i k : lk wr rd i k -> holds_w k = true -> wr = Some i.
Proof. unfold lk. tauto. Qed.
Lemma lk_hasr wr rd i k : lk wr rd i k -> holds_r k = true -> In i rd.
Proof. unfold lk. tauto. Qed.

Ltac hw C := unfold holds_w, holds_r; rewrite ?C; reflexivity.

Lemma bc_inv1_step s m s' : bc_inv1 s -> bc_step s m = Some s' -> bc_inv1 s'.
Proof.
  unfold bc_inv1. intros (I1 & I2 & I3 & I4 & I5) E. bc_split s E; w_split.
  (* the panic *)
  all: try (exfalso; destruct (I5 eq_refl) as [-> ?]; specialize (I4 i); lia).
  all: refine (conj _ (conj _ (conj _ (conj _ _)))).
  all: try assumption.
  (* children not yet made *)
  all: try (intros x Hx; destruct (I1 x) as (J1 & J2 & J3); [lia|]; at_kid x; try lia; try congruence; auto; fail).
  (* epochs *)
  all: try (intros x; specialize (I4 x); at_kid x; lia).
  all: try (intros Hv; try discriminate Hv; destruct (I5 Hv) as [J1 J2]; split; [exact J1|]; intros x; specialize (J2 x); at_kid x; congruence).
  all: try (intros Hv; try discriminate Hv; destruct (I5 Hv) as [J1 J2]; specialize (J2 i); congruence).
  (* the lock is not touched *)
  all: try (intros x; specialize (I2 x); at_kid x; [|assumption];
            refine (lk_same _ _ _ _ _ _ _ I2); unfold holds_w, holds_r; cbn [k_pc];
            try match goal with C : k_pc _ = _ |- _ => rewrite ?C end; reflexivity).
  all: try (intros x; specialize (I2 x); exact I2).
  (* the lock is taken or released *)
  all: try (intros; congruence).
  all: try (intros x; specialize (I2 x); at_kid x;
            first [now apply lk_getw | now apply lk_getr | now apply lk_w | now apply lk_r | now eapply lk_relw | now apply lk_relr]).
  - (* new child *) intros x. specialize (I2 x). at_kid x; [|assumption].
    destruct (I1 n (le_n _)) as (J & _). refine (lk_same _ _ _ _ _ _ _ I2); unfold holds_w, holds_r; rewrite J; reflexivity.
  - pose proof (lk_hasw _ _ _ _ (I2 i) ltac:(hw C0)) as ->. rewrite (I3 ltac:(discriminate)) in *.
    intros x. specialize (I2 x). at_kid x; [now apply lk_dropw|eapply lk_relw; eassumption].
  - pose proof (lk_hasr _ _ _ _ (I2 i) ltac:(hw C0)) as J.
    assert (wr = None) as -> by (destruct wr; [rewrite (I3 ltac:(discriminate)) in J; destruct J|reflexivity]).
    intros x. specialize (I2 x). at_kid x; [now apply lk_dropr|now apply lk_relr].
  - intros J. rewrite (I3 J). reflexivity.
Qed.

(** ** Values *)

(** The input, now being polled, has already yielded a value in this poll. *)
Definition mid (wr : option nat) (kids : nat -> kid A B) : bool :=
  match wr with
  | Some w => match k_pc (kids w) with KIn true => true | _ => false end
  | None => false
  end.

Definition kid_ok (log : list (poll (option A))) (ep : nat) (hot : bool) k : Prop :=
  exists (n y : nat), follows (k_fn k) log n y (k_hist k) /\ n <= length log
    /\ (hot = false -> k_epoch k = ep -> y = length (yielded log))
    /\ (k_epoch k < ep -> y < length (yielded log))
    /\ (hot = true -> y < length (yielded log)).

Definition bc_inv2 s : Prop :=
  b_value s = latest_of (b_log s) /\ b_live s = negb (has_end (b_log s)) /\ obeys_end (b_log s)
  /\ (b_epoch s = 0 -> mid (b_writer s) (b_kids s) = false -> yielded (b_log s) = [])
  /\ (0 < b_epoch s \/ mid (b_writer s) (b_kids s) = true -> yielded (b_log s) <> [])
  /\ (forall i, kid_ok (b_log s) (b_epoch s) (mid (b_writer s) (b_kids s)) (b_kids s i))
  /\ (forall i w, k_pc (b_kids s i) = KSet w -> k_epoch (b_kids s i) = b_epoch s /\ b_live s = true)
  /\ (forall i c, k_pc (b_kids s i) = KIn c -> b_live s = true).

Lemma follows_le f (log : list (poll (option A))) (p y : nat) (h : list (nat * poll (option B))) : follows f log p y h -> h = [] \/ p <= length log.
Proof. destruct 1; auto; right; lia. Qed.

Lemma follows_more f (log : list (poll (option A))) r (p y : nat) (h : list (nat * poll (option B))) :
  follows f log p y h -> follows f (log ++ [r]) p y h.
Proof.
  assert (F : forall n, n <= length log -> firstn n (log ++ [r]) = firstn n log).
  { intros n L. rewrite firstn_app. replace (n - length log) with 0 by lia. cbn [firstn]. apply app_nil_r. }
  induction 1 as [p|p y h n v H IH L E1 E2|p y h n H IH L E1 E2|p y h n H IH L E1 E2].
  - constructor.
  - rewrite <- F by lia. eapply fo_out; [exact IH|rewrite app_length; lia|rewrite F by lia; exact E1|rewrite F by lia; exact E2].
  - eapply fo_pending; [exact IH|rewrite app_length; lia|rewrite F by lia; exact E1|rewrite F by lia; exact E2].
  - eapply fo_end; [exact IH|rewrite app_length; lia|rewrite F by lia; exact E1|rewrite F by lia; exact E2].
Qed.

Lemma has_end_snoc (l : list (poll (option A))) r :
  has_end (l ++ [r]) = has_end l || match r with Ready None => true | _ => false end.
Proof. unfold has_end. rewrite existsb_app. cbn. now rewrite orb_false_r. Qed.

Lemma has_end_in (l : list (poll (option A))) : has_end l = true <-> In (Ready None) l.
Proof.
  unfold has_end. rewrite existsb_exists. split.
  - intros (r & H & E). destruct r as [|[|]]; try discriminate. exact H.
  - intros H. exists (Ready None). auto.
Qed.

Lemma obeys_end_snoc (l : list (poll (option A))) r : has_end l = false -> obeys_end (l ++ [r]).
Proof.
  intros H p q E. destruct q as [|z q] using rev_ind; [reflexivity|]. exfalso.
  rewrite app_comm_cons, app_assoc in E. apply app_inj_tail in E as [E _].
  assert (has_end l = true) by (apply has_end_in; rewrite E; apply in_or_app; right; left; reflexivity). congruence.
Qed.

(** Only the poll of the input changes [mid]. *)
Lemma mid_same wr kids i k : (k_pc k = KIn true <-> k_pc (kids i) = KIn true) -> mid wr (fupd i k kids) = mid wr kids.
Proof.
  intros H. unfold mid. destruct wr as [w|]; [|reflexivity]. unfold fupd. destruct (Nat.eqb_spec w i); [subst w|reflexivity].
  destruct (k_pc k) as [| | |[|]| | | | |] eqn:E1, (k_pc (kids i)) as [| | |[|]| | | | |] eqn:E2; try reflexivity; exfalso; intuition congruence.
Qed.

Lemma kid_ok_eq log ep hot k k' : k_fn k' = k_fn k -> k_epoch k' = k_epoch k -> k_hist k' = k_hist k ->
  kid_ok log ep hot k -> kid_ok log ep hot k'.
Proof. unfold kid_ok. intros -> -> ->. auto. Qed.

Lemma yielded_snoc (l : list (poll (option A))) r :
  yielded (l ++ [r]) = yielded l ++ match r with Ready (Some a) => [a] | _ => [] end.
Proof. rewrite yielded_app. destruct r as [|[a|]]; reflexivity. Qed.

(** A step that makes no answer and does not touch the input. *)
Lemma bc_inv2_frame ch wks wl live v ep wr rd n kids notes log dirty ch' wks' wl' wr' rd' n' kids' notes' dirty' :
  bc_inv2 (mkBc ch wks wl live v ep wr rd n kids notes log dirty) ->
  mid wr' kids' = mid wr kids ->
  (forall x, k_fn (kids' x) = k_fn (kids x) /\ k_epoch (kids' x) = k_epoch (kids x) /\ k_hist (kids' x) = k_hist (kids x)) ->
  (forall x w, k_pc (kids' x) = KSet w -> (k_pc (kids x) = KSet w) \/ (k_epoch (kids x) = ep /\ live = true)) ->
  (forall x c, k_pc (kids' x) = KIn c -> (k_pc (kids x) = KIn c) \/ live = true) ->
  bc_inv2 (mkBc ch' wks' wl' live v ep wr' rd' n' kids' notes' log dirty').
Proof.
  unfold bc_inv2. bc_simp. intros (V1 & V2 & V3 & V4 & V5 & V6 & V7 & V8) -> H1 H2 H3.
  refine (conj V1 (conj V2 (conj V3 (conj V4 (conj V5 (conj _ (conj _ _))))))).
  - intros x. destruct (H1 x) as (E1 & E2 & E3). exact (kid_ok_eq _ _ _ _ _ E1 E2 E3 (V6 x)).
  - intros x w E. destruct (H1 x) as (E1 & E2 & E3). rewrite E2. destruct (H2 x w E) as [F|F]; [eapply V7; eauto|exact F].
  - intros x c E. destruct (H3 x c E) as [F|F]; [eapply V8; eauto|exact F].
Qed.

(** A step in which child [i] answers. *)
Lemma bc_inv2_answer ch wks wl live v ep wr rd n kids notes log dirty i k :
  bc_inv2 (mkBc ch wks wl live v ep wr rd n kids notes log dirty) -> mid wr kids = false ->
  kid_ok log ep false k -> (forall c, k_pc (kids i) <> KIn c) -> (exists w r, k_pc k = KRet w r) ->
  bc_inv2 (mkBc ch wks wl live v ep wr rd n (fupd i k kids) notes log dirty).
Proof.
  unfold bc_inv2. bc_simp. intros (V1 & V2 & V3 & V4 & V5 & V6 & V7 & V8) M K P (w & r & Q).
  rewrite mid_same by (rewrite Q; specialize (P true); split; congruence). rewrite M in *.
  refine (conj V1 (conj V2 (conj V3 (conj V4 (conj V5 (conj _ (conj _ _))))))).
  - intros x. at_kid x; auto.
  - intros x u. at_kid x; [congruence|eauto].
  - intros x u. at_kid x; [congruence|eauto].
Qed.

(** Who holds the lock and is not in the poll of the input, is sure that nobody is. *)
Lemma mid_held wr rd kids i : (forall j, lk wr rd j (kids j)) -> (wr <> None -> rd = []) ->
  holds_w (kids i) = true \/ holds_r (kids i) = true -> k_pc (kids i) <> KIn true -> mid wr kids = false.
Proof.
  intros H1 H2 H3 H4. unfold mid. destruct wr as [w|]; [|reflexivity]. destruct (H1 i) as [[_ K1] [_ K2]].
  destruct H3 as [H3|H3]; [|rewrite (H2 ltac:(discriminate)) in K2; destruct (K2 H3)].
  injection (K1 H3) as ->. destruct (k_pc (kids i)) as [| | |[|]| | | | |]; try reflexivity. congruence.
Qed.

(** The poll of the input by child [i] is over. *)
Lemma bc_inv2_over ch wks wl live v ep wr rd n kids notes log dirty i c k live' r :
  bc_inv2 (mkBc ch wks wl live v ep wr rd n kids notes log dirty) ->
  (forall j, lk wr rd j (kids j)) -> (wr <> None -> rd = []) -> (forall j, k_epoch (kids j) <= ep) ->
  k_pc (kids i) = KIn c -> k_fn k = k_fn (kids i) -> k_epoch k = k_epoch (kids i) -> k_hist k = k_hist (kids i) ->
  k_pc k = KLook true ->
  (r = Pending /\ live' = live \/ r = Ready None /\ live' = false) ->
  bc_inv2 (mkBc ch wks wl live' v (if c then S ep else ep) wr rd n (fupd i k kids) notes (log ++ [r]) dirty).
Proof.
  unfold bc_inv2. bc_simp. intros (V1 & V2 & V3 & V4 & V5 & V6 & V7 & V8) L1 L2 Ep C K1 K2 K3 K4 R.
  assert (W : wr = Some i) by (apply (lk_hasw _ _ _ _ (L1 i)); unfold holds_w; rewrite C; reflexivity).
  assert (M : mid wr kids = c) by (rewrite W; unfold mid; rewrite C; destruct c; reflexivity).
  assert (M' : mid wr (fupd i k kids) = false) by (rewrite W; unfold mid; rewrite fupd_same, K4; reflexivity).
  rewrite M' in *. rewrite M in *.
  assert (Y : yielded (log ++ [r]) = yielded log) by (rewrite yielded_snoc; destruct R as [[-> _]|[-> _]]; apply app_nil_r).
  assert (HE : has_end log = false) by (pose proof (V8 i c C) as J; destruct (has_end log); cbn in *; congruence).
  rewrite Y in *. refine (conj _ (conj _ (conj _ (conj _ (conj _ (conj _ (conj _ _))))))).
  - destruct R as [[-> _]|[-> _]]; [rewrite latest_of_pending|rewrite latest_of_end]; exact V1.
  - rewrite has_end_snoc, HE. destruct R as [[-> ->]|[-> ->]]; [rewrite V2, HE|]; reflexivity.
  - apply obeys_end_snoc, HE.
  - destruct c; [discriminate|auto].
  - intros [J|J]; [|discriminate]. destruct c; auto.
  - intros x. assert (O : kid_ok log ep c (fupd i k kids x)).
    { at_kid x; [exact (kid_ok_eq _ _ _ _ _ K1 K2 K3 (V6 i))|apply V6]. }
    assert (Ex : k_epoch (fupd i k kids x) <= ep) by (at_kid x; [rewrite K2|]; apply Ep).
    destruct O as (q & y & F & Lq & O1 & O2 & O3). exists q, y. rewrite Y, app_length.
    split; [apply follows_more, F|]. split; [lia|]. split; [|split; [|discriminate]].
    + intros _ E. destruct c; [lia|auto].
    + intros E. destruct c; [auto|auto].
  - intros x w. at_kid x; [congruence|]. intros E. exfalso.
    destruct (L1 x) as [[_ J1] [_ J2]]. rewrite (L2 ltac:(congruence)) in J2. unfold holds_w, holds_r in *. rewrite E in *.
    destruct w; [specialize (J1 eq_refl); congruence|destruct (J2 eq_refl)].
  - intros x c'. at_kid x; [congruence|]. intros E. exfalso.
    destruct (L1 x) as [[_ J1] _]. unfold holds_w in *. rewrite E in *. specialize (J1 eq_refl). congruence.
Qed.

(** The input yields a value. *)
Lemma bc_inv2_value ch wks wl live v ep wr rd n kids notes log dirty i c k a d :
  bc_inv2 (mkBc ch wks wl live v ep wr rd n kids notes log dirty) ->
  (forall j, lk wr rd j (kids j)) -> (wr <> None -> rd = []) -> (forall j, k_epoch (kids j) <= ep) ->
  k_pc (kids i) = KIn c -> k_fn k = k_fn (kids i) -> k_epoch k = k_epoch (kids i) -> k_hist k = k_hist (kids i) ->
  k_pc k = KIn true ->
  bc_inv2 (mkBc ch wks wl live (Some a) ep wr rd n (fupd i k kids) notes (log ++ [Ready (Some a)]) d).
Proof.
  unfold bc_inv2. bc_simp. intros (V1 & V2 & V3 & V4 & V5 & V6 & V7 & V8) L1 L2 Ep C K1 K2 K3 K4.
  assert (W : wr = Some i) by (apply (lk_hasw _ _ _ _ (L1 i)); unfold holds_w; rewrite C; reflexivity).
  assert (M : mid wr kids = c) by (rewrite W; unfold mid; rewrite C; destruct c; reflexivity).
  assert (M' : mid wr (fupd i k kids) = true) by (rewrite W; unfold mid; rewrite fupd_same, K4; reflexivity).
  rewrite M' in *. rewrite M in *.
  assert (Y : yielded (log ++ [Ready (Some a)]) = yielded log ++ [a]) by apply yielded_snoc.
  assert (HE : has_end log = false) by (pose proof (V8 i c C) as J; destruct (has_end log); cbn in *; congruence).
  rewrite Y in *. refine (conj _ (conj _ (conj _ (conj _ (conj _ (conj _ (conj _ _))))))).
  - symmetry. apply latest_of_app.
  - rewrite has_end_snoc, HE, V2, HE. reflexivity.
  - apply obeys_end_snoc, HE.
  - discriminate.
  - intros _ J. apply app_eq_nil in J as [_ J]. discriminate.
  - intros x. assert (O : kid_ok log ep c (fupd i k kids x)).
    { at_kid x; [exact (kid_ok_eq _ _ _ _ _ K1 K2 K3 (V6 i))|apply V6]. }
    assert (Ex : k_epoch (fupd i k kids x) <= ep) by (at_kid x; [rewrite K2|]; apply Ep).
    destruct O as (q & y & F & Lq & O1 & O2 & O3). exists q, y. rewrite Y, !app_length. cbn [length].
    assert (y < length (yielded log) + 1).
    { destruct c; [specialize (O3 eq_refl); lia|]. apply Nat.lt_eq_cases in Ex as [J|J]; [specialize (O2 J); lia|rewrite (O1 eq_refl J); lia]. }
    split; [apply follows_more, F|]. split; [lia|]. split; [discriminate|split; auto].
  - intros x w. at_kid x; [congruence|]. intros E. exfalso.
    destruct (L1 x) as [[_ J1] [_ J2]]. rewrite (L2 ltac:(congruence)) in J2. unfold holds_w, holds_r in *. rewrite E in *.
    destruct w; [specialize (J1 eq_refl); congruence|destruct (J2 eq_refl)].
  - intros x c'. at_kid x; [intros _; eapply V8, C|]. apply V8.
Qed.

Lemma kid_ok_end log ep k k' : kid_ok log ep false k -> k_epoch k = ep -> has_end log = true ->
  k_fn k' = k_fn k -> k_epoch k' = k_epoch k -> k_hist k' = k_hist k ++ [(length log, Ready None)] -> kid_ok log ep false k'.
Proof.
  intros (q & y & F & Lq & O1 & O2 & O3) E H Ef Ee Eh. exists (length log), y. rewrite Ef, Ee, Eh. repeat split; auto.
  eapply fo_end; [exact F|lia|rewrite firstn_all; auto|rewrite firstn_all; exact H].
Qed.

Lemma kid_ok_pending log ep k k' : kid_ok log ep false k -> k_epoch k = ep -> has_end log = false ->
  k_fn k' = k_fn k -> k_epoch k' = k_epoch k -> k_hist k' = k_hist k ++ [(length log, Pending)] -> kid_ok log ep false k'.
Proof.
  intros (q & y & F & Lq & O1 & O2 & O3) E H Ef Ee Eh. exists (length log), y. rewrite Ef, Ee, Eh. repeat split; auto.
  eapply fo_pending; [exact F|lia|rewrite firstn_all; auto|rewrite firstn_all; exact H].
Qed.

Lemma kid_ok_out log ep k k' a : kid_ok log ep false k -> k_epoch k < ep -> latest_of log = Some a ->
  k_fn k' = k_fn k -> k_epoch k' = ep -> k_hist k' = k_hist k ++ [(length log, Ready (Some (k_fn k a)))] -> kid_ok log ep false k'.
Proof.
  intros (q & y & F & Lq & O1 & O2 & O3) E H Ef Ee Eh. exists (length log), (length (yielded log)). rewrite Ef, Ee, Eh.
  repeat split; auto; [|lia|discriminate].
  pose proof (fo_out (k_fn k) log q y (k_hist k) (length log) a F) as G. rewrite firstn_all in G. apply G; auto.
Qed.

Lemma bc_inv2_step s m s' : bc_inv1 s -> bc_inv2 s -> bc_step s m = Some s' -> bc_inv2 s'.
Proof.
  intros (I1 & I2 & I3 & I4 & I5) V E. bc_split s E; w_split.
  all: try (exfalso; destruct (I5 eq_refl) as [-> ?]; specialize (I4 i); lia).
  (* no answer *)
  all: try (refine (bc_inv2_frame _ _ _ _ _ _ _ _ _ _ _ _ _ _ _ _ _ _ _ _ _ _ V _ _ _ _);
    [ try reflexivity; apply mid_same; cbn [k_pc]; split; congruence
    | intros x; at_kid x; auto; fail
    | intros x w'; at_kid x; intuition congruence
    | intros x w'; at_kid x; intuition congruence ]).
  (* the input answers *)
  all: try (refine (bc_inv2_over _ _ _ _ _ _ _ _ _ _ _ _ _ _ _ _ _ _ V I2 I3 I4 C0 _ _ _ _ _); auto; fail).
  all: try (refine (bc_inv2_value _ _ _ _ _ _ _ _ _ _ _ _ _ _ _ _ _ _ V I2 I3 I4 C0 _ _ _ _); auto; fail).
  (* child i answers *)
  all: try (assert (M : mid wr kids = false) by
         (eapply (mid_held _ _ _ i); [exact I2|exact I3|unfold holds_w, holds_r; rewrite C0; auto|congruence])).
  all: try (refine (bc_inv2_answer _ _ _ _ _ _ _ _ _ _ _ _ _ _ _ V M _ _ _);
            [destruct V as (V1 & V2 & V3 & V4 & V5 & V6 & V7 & V8); bc_simp; specialize (V6 i); rewrite M in V6|congruence|eexists; eexists; reflexivity]).
  all: try (eapply kid_ok_end; [exact V6|auto|destruct (has_end log); [reflexivity|discriminate V2]|reflexivity|reflexivity|reflexivity]).
  all: try (eapply kid_ok_out; [exact V6|specialize (I4 i); lia|symmetry; exact V1|reflexivity|reflexivity|reflexivity]).
  all: try (destruct (V7 i _ C0) as [J1 J2]; eapply kid_ok_pending;
            [exact V6|exact J1|rewrite V2 in J2; destruct (has_end log); [discriminate J2|reflexivity]|reflexivity|reflexivity|reflexivity]).
  - (* new child *)
    destruct (I1 n (le_n _)) as (J1 & _ & J2). destruct V as (V1 & V2 & V3 & V4 & V5 & V6 & V7 & V8); bc_simp. unfold bc_inv2. bc_simp.
    rewrite mid_same by (cbn [k_pc]; split; congruence).
    refine (conj V1 (conj V2 (conj V3 (conj V4 (conj V5 (conj _ (conj _ _))))))).
    + intros x. at_kid x; [|auto]. exists 0, 0. split; [constructor|]. split; [lia|].
      assert (P : 0 < ep \/ mid wr kids = true -> 0 < length (yielded log)).
      { intros J. specialize (V5 J). destruct (yielded log); [congruence|cbn; lia]. }
      split; [|split; auto]. cbn [k_epoch]. intros J <-. rewrite V4; auto.
    + intros x w. at_kid x; [congruence|eauto].
    + intros x c. at_kid x; [congruence|eauto].
  - refine (bc_inv2_frame _ _ _ _ _ _ _ _ _ _ _ _ _ _ _ _ _ _ _ _ _ _ V _ _ _ _).
    + unfold mid. rewrite fupd_same. reflexivity.
    + intros x; at_kid x; auto.
    + intros x w'; at_kid x; intuition congruence.
    + intros x w'; at_kid x; intuition congruence.
  - refine (bc_inv2_frame _ _ _ _ _ _ _ _ _ _ _ _ _ _ _ _ _ _ _ _ _ _ V _ _ _ _).
    + unfold mid. rewrite fupd_same. reflexivity.
    + intros x; at_kid x; auto.
    + intros x w'; at_kid x; intuition congruence.
    + intros x w'; at_kid x; intuition congruence.
  - refine (bc_inv2_frame _ _ _ _ _ _ _ _ _ _ _ _ _ _ _ _ _ _ _ _ _ _ V _ _ _ _).
    + rewrite M. reflexivity.
    + intros x; at_kid x; auto.
    + intros x w'; at_kid x; intuition congruence.
    + intros x w'; at_kid x; intuition congruence.
Qed.

(** ** The list of wakers *)

(** A call of the waker that holds the mutex. *)
Definition crit (p : note_pc) : bool := match p with NLock | NDone => false | _ => true end.
(** The children whose wakers are, or will be, in the list, for a call that has stored. *)
Definition listed (p : note_pc) : option (list nat) :=
  match p with
  | NVisit kept todo => Some (kept ++ todo)
  | NTake kept c todo | NWake _ kept c todo => Some (kept ++ c :: todo)
  | _ => None
  end.

Definition bc_inv3 s : Prop :=
  count crit (b_notes s) = b2n (b_wlock s)
  /\ (forall i, k_alive (b_kids s i) = true -> In i (b_wakers s))
  /\ (forall j p l i, nth_error (b_notes s) j = Some p -> listed p = Some l -> k_alive (b_kids s i) = true -> In i l)
  /\ (forall i, k_pc (b_kids s i) <> KPanic).

Lemma crit_lock notes wl j p : count crit notes = b2n wl -> nth_error notes j = Some p -> crit p = true -> wl = true.
Proof. intros H1 H2 H3. pose proof (count_pos crit notes j p H2 H3). destruct wl; [reflexivity|cbn in *; lia]. Qed.

Lemma crit_one notes wl i j p q : count crit notes = b2n wl -> nth_error notes i = Some p -> nth_error notes j = Some q ->
  crit p = true -> crit q = true -> i = j.
Proof.
  intros H1 H2 H3 H4 H5. destruct (Nat.eq_dec i j) as [|N]; [assumption|].
  pose proof (count_two crit notes i j p q N H2 H3 H4 H5). destruct wl; cbn in *; lia.
Qed.

Lemma listed_crit p l : listed p = Some l -> crit p = true.
Proof. destruct p; cbn; congruence. Qed.

Lemma bc_inv3_step s m s' : bc_inv1 s -> bc_inv3 s -> bc_step s m = Some s' -> bc_inv3 s'.
Proof.
  intros (I1 & I2 & I3 & I4 & I5) (N1 & N2 & N3 & N4) E. bc_split s E; w_split; unfold bc_inv3; bc_simp.
  all: try (exfalso; destruct (I5 eq_refl) as [-> ?]; specialize (I4 i); lia).
  all: refine (conj _ (conj _ (conj _ _))); try assumption.
  all: try (intros x; at_kid x; solve [congruence | auto]).
  all: try (intros x; at_kid x; rewrite ?in_app_iff; cbn [In]; solve [auto]).
  all: try (intros x J; at_kid x; rewrite ?in_app_iff; cbn [In]; solve [auto]).
  all: try (intros j' p' l' x; specialize (N3 j' p' l' x); at_kid x; solve [auto | congruence]).
  all: try (rewrite count_snoc; cbn; lia).
  all: try (match goal with H : nth_error ?l ?j = Some ?p |- context [lupd ?j ?q ?l] =>
              pose proof (count_lupd crit l j p q H) as J; cbn [crit b2n] in J end; rewrite ?C, ?C0 in *; cbn [b2n] in *; try lia;
            match goal with H : nth_error ?l ?j = Some ?p |- _ => pose proof (crit_lock _ _ _ _ N1 H eq_refl) end; subst; cbn [b2n] in *; lia).
  - intros j p l x E1 E2. pose proof (crit_lock _ _ _ _ N1 E1 (listed_crit _ _ E2)). discriminate.
  - intros j p l x E1. apply snoc_inv in E1 as [[_ ->]|[_ E1]]; [discriminate|eauto].
  - intros j' p l x E1. apply lupd_inv in E1 as [[_ ->]|[_ E1]]; [discriminate|eauto].
  - intros j' p l x E1 E2 J. k_simp. apply lupd_inv in E1 as [[_ ->]|[_ E1]]; [|eauto]. injection E2 as <-. auto.
  - intros x J. pose proof (N3 j _ _ x C eq_refl J) as G. rewrite app_nil_r in G. exact G.
  - intros j' p l x E1. apply lupd_inv in E1 as [[_ ->]|[_ E1]]; [discriminate|eauto].
  - intros j' p l' x E1 E2 J. apply lupd_inv in E1 as [[_ ->]|[_ E1]]; [|eauto]. injection E2 as <-. exact (N3 j _ _ x C eq_refl J).
  - intros j' p l' x E1 E2 J. apply lupd_inv in E1 as [[_ ->]|[_ E1]]; [|eauto]. injection E2 as <-.
    pose proof (N3 j _ _ x C eq_refl J) as G. rewrite in_app_iff in *. cbn [In] in G. intuition congruence.
  - intros j' p l' x E1 E2 J. assert (k_alive (kids x) = true) by (revert J; at_kid x; auto).
    apply lupd_inv in E1 as [[_ ->]|[_ E1]]; [|eauto]. injection E2 as <-. eapply (N3 j); eauto; reflexivity.
  - intros j' p l' x E1 E2 J. apply lupd_inv in E1 as [[_ ->]|[_ E1]]; [|eauto]. injection E2 as <-.
    rewrite <- app_assoc. exact (N3 j _ _ x C eq_refl J).
  - intros j' p l' x E1 E2 J. k_simp. apply lupd_inv in E1 as [[_ ->]|[_ E1]]; [|eauto]. injection E2 as <-.
    rewrite <- app_assoc. exact (N3 j _ _ x C eq_refl J).
Qed.

(** ** Wake-ups *)

(** The child has looked, and is going to return or has returned Pending. *)
Definition k_armed k : Prop :=
  (exists l, k_ans k = l ++ [Pending]) /\ (k_pc k = KIdle \/ exists w, k_pc k = KRet w Pending).

(** A call of the waker is about to wake the task [t]. *)
Definition wakes (notes : list note_pc) (t : nat) : Prop :=
  exists j kept c todo, nth_error notes j = Some (NWake t kept c todo).
(** A call of the waker has yet to take the waker of child [i]. *)
Definition todo_of (p : note_pc) : list nat :=
  match p with NVisit _ todo => todo | NTake _ c todo => c :: todo | NWake _ _ _ todo => todo | _ => [] end.
Definition will_take (notes : list note_pc) (i : nat) : Prop :=
  exists j p, nth_error notes j = Some p /\ In i (todo_of p).

(** The waker is there until it is taken. *)
Definition bc_inv4 s : Prop := forall i,
  k_alive (b_kids s i) = true -> k_armed (b_kids s i) -> k_woken (b_kids s i) = false ->
  k_wk (b_kids s i) = Some (k_task (b_kids s i)) \/ wakes (b_notes s) (k_task (b_kids s i)).

Lemma wakes_snoc notes t p : wakes notes t -> wakes (notes ++ [p]) t.
Proof. intros (j & a & c & b & H). exists j, a, c, b. apply snoc_old, H. Qed.

Lemma wakes_lupd notes t j p q : nth_error notes j = Some p -> (forall a c b, p <> NWake t a c b) ->
  wakes notes t -> wakes (lupd j q notes) t.
Proof.
  intros H1 H2 (j' & a & c & b & H). exists j', a, c, b. rewrite lupd_other; [exact H|].
  intros <-. rewrite H in H1. injection H1 as <-. eapply H2; reflexivity.
Qed.

Lemma wakes_here notes j p t a c b : nth_error notes j = Some p -> wakes (lupd j (NWake t a c b) notes) t.
Proof. intros H. exists j, a, c, b. eapply lupd_same; eauto. Qed.

Lemma ans_snoc (h : list (nat * poll (option B))) n r l q : map snd (h ++ [(n, r)]) = l ++ [q] -> q = r.
Proof. rewrite map_app. cbn. intros H. apply app_inj_tail in H as [_ H]. auto. Qed.

(** What is about to be returned was logged. *)
Definition bc_invr s : Prop := forall i w r, k_pc (b_kids s i) = KRet w r -> exists l, k_ans (b_kids s i) = l ++ [r].

Lemma bc_invr_step s m s' : bc_invr s -> bc_step s m = Some s' -> bc_invr s'.
Proof.
  intros R E. bc_split s E; unfold bc_invr, k_ans in *; bc_simp.
  all: intros x w' r'; specialize (R x w' r'); at_kid x; try exact R.
  all: intros J; try discriminate J.
  all: try (injection J as <- <-; rewrite map_app; cbn; eexists; reflexivity).
  all: try (apply R; congruence).
Qed.

Lemma bc_inv4_step s m s' : bc_inv1 s -> bc_invr s -> bc_inv4 s -> bc_step s m = Some s' -> bc_inv4 s'.
Proof.
  intros (I1 & I2 & I3 & I4 & I5) R W E. bc_split s E; w_split; unfold bc_inv4 in *; bc_simp.
  all: try (exfalso; destruct (I5 eq_refl) as [-> ?]; specialize (I4 i); lia).
  all: intros x; specialize (W x); at_kid x; try exact W.
  all: intros J1 [(l0 & J2) J3] J4; unfold k_ans in *; k_simp.
  all: try discriminate.
  all: try (destruct J3 as [J3|[w' J3]]; discriminate J3).
  all: try (destruct l0; discriminate J2).
  all: try (left; reflexivity).
  all: try (apply W; [assumption|split; [exists l0; assumption|intuition congruence]|assumption]; fail).
  all: try (apply W; [assumption|split; [exists l0; assumption|]|assumption]; destruct (R i _ _ C0) as [l1 Q]; unfold k_ans in Q; bc_simp;
            rewrite Q in J2; apply app_inj_tail in J2 as [_ ->]; right; eexists; exact C0).
  all: try (destruct W as [W|W]; [assumption|split; [exists l0; assumption|assumption]|assumption|left; assumption|right]).
  all: try (apply wakes_snoc, W).
  all: try (eapply wakes_lupd; [exact C|congruence|exact W]).
  - destruct W as [W|W]; [assumption|split; [exists l0; assumption|assumption]|assumption| |].
    + right. assert (n1 = k_task (kids c)) as -> by congruence. eapply wakes_here, C.
    + right. eapply wakes_lupd; [exact C|congruence|exact W].
  - apply orb_false_iff in J4 as [J4 J5]. apply Nat.eqb_neq in J5.
    destruct W as [W|W]; [assumption|split; [exists l0; assumption|assumption]|assumption|left; assumption|].
    right. eapply wakes_lupd; [exact C|congruence|exact W].
Qed.

(** ** Nothing is missed, unless there was a race *)

(** The child has swapped, and has yet to set its waker. *)
Definition k_pre k : bool := match k_pc k with KWLock | KIn _ | KRLock | KLook _ | KSet _ => true | _ => false end.
(** The same, with the lock taken. *)
Definition k_pre_locked k : bool := match k_pc k with KIn _ | KLook _ | KSet _ => true | _ => false end.

Definition bc_inv5 s : Prop := forall i, k_raced (b_kids s i) = false ->
  (k_pre (b_kids s i) = true -> b_changed s = false)
  /\ (k_pre_locked (b_kids s i) = true -> forall j, j <> i -> k_pc (b_kids s j) <> KWLock).

Lemma other_waits_no s i : (forall j, b_n s <= j -> k_pc (b_kids s j) = KIdle) -> other_waits s i = false ->
  forall j, j <> i -> k_pc (b_kids s j) <> KWLock.
Proof.
  intros H1 H2 j N P. destruct (Nat.lt_ge_cases j (b_n s)) as [L|L]; [|rewrite (H1 j L) in P; discriminate].
  assert (other_waits s i = true); [|congruence].
  apply existsb_exists. exists j. split; [apply in_seq; lia|]. unfold k_waits. rewrite P.
  destruct (Nat.eqb_spec j i); [contradiction|reflexivity].
Qed.

Lemma bc_inv5_step s m s' : bc_inv1 s -> bc_inv5 s -> bc_step s m = Some s' -> bc_inv5 s'.
Proof.
  intros (I1 & I2 & I3 & I4 & I5) W E. bc_split s E; w_split; unfold bc_inv5, k_pre, k_pre_locked in *; bc_simp.
  all: try (exfalso; destruct (I5 eq_refl) as [-> ?]; specialize (I4 i); lia).
  all: intros x; pose proof (W x) as Wx; at_kid x; try exact Wx.
  all: intros J; try discriminate J; try specialize (Wx J); try (apply orb_false_iff in J as [J J']; specialize (Wx J)).
  all: try match goal with C0 : k_pc _ = _ |- _ => rewrite ?C0 in * end.
  all: split; try discriminate; try (intros; reflexivity).
  all: try exact (proj1 Wx).
  all: try (intros G y Hy; pose proof (proj2 Wx G y Hy) as K; at_kid y; congruence).
  all: try (intros G y Hy; pose proof (proj1 Wx G); congruence).
  all: try (intros G y Hy; refine ((fun K => _) (other_waits_no _ i _ J' y Hy)); [|intros z Lz; apply I1, Lz];
            bc_simp; at_kid y; congruence).
  all: try (apply (proj1 Wx eq_refl)).
  all: try (intros _; apply (proj1 Wx eq_refl)).
  - intros G. exfalso. destruct (k_pc (kids x)) as [| | |[|]| |[|]|[|]|[|]|]; try discriminate G; discriminate (proj1 Wx eq_refl).
  - intros G. unfold k_busy in J'. destruct (k_pc (kids x)); congruence.
Qed.

(** Nothing has happened that the child does not know of, nor is somebody about to ask the input. *)
Definition quiet (ch : bool) (ep : nat) (live : bool) (kids : nat -> kid A B) (i : nat) : Prop :=
  ch = false /\ k_epoch (kids i) = ep /\ live = true
  /\ forall j, k_pc (kids j) <> KWLock /\ forall c, k_pc (kids j) <> KIn c.

Definition bc_inv6 s : Prop := forall i, k_raced (b_kids s i) = false ->
  k_alive (b_kids s i) = true -> k_armed (b_kids s i) -> k_woken (b_kids s i) = false ->
  quiet (b_changed s) (b_epoch s) (b_live s) (b_kids s) i \/ will_take (b_notes s) i \/ wakes (b_notes s) (k_task (b_kids s i)).

Lemma quiet_frame ch ep live kids kids' i : quiet ch ep live kids i -> k_epoch (kids' i) = k_epoch (kids i) ->
  (forall j, (k_pc (kids' j) = KWLock -> k_pc (kids j) = KWLock) /\ (forall c, k_pc (kids' j) = KIn c -> k_pc (kids j) = KIn c)) ->
  quiet ch ep live kids' i.
Proof.
  unfold quiet. intros (Q1 & Q2 & Q3 & Q4) H1 H2. rewrite H1.
  refine (conj Q1 (conj Q2 (conj Q3 _))). intros j. destruct (Q4 j) as [A1 A2], (H2 j) as [B1 B2].
  split; [intros G; exact (A1 (B1 G))|intros c G; exact (A2 c (B2 c G))].
Qed.

Lemma will_snoc notes i p : will_take notes i -> will_take (notes ++ [p]) i.
Proof. intros (j & q & H & G). exists j, q. split; [apply snoc_old, H|exact G]. Qed.

Lemma will_lupd notes j p q i : nth_error notes j = Some p -> (In i (todo_of p) -> In i (todo_of q)) ->
  will_take notes i -> will_take (lupd j q notes) i.
Proof.
  intros H1 H2 (j' & p' & H3 & H4). destruct (Nat.eq_dec j j') as [<-|N].
  - exists j, q. split; [eapply lupd_same; eauto|]. apply H2. congruence.
  - exists j', p'. split; [rewrite lupd_other; auto|exact H4].
Qed.

Lemma bc_inv6_step s m s' : bc_inv1 s -> bc_inv2 s -> bc_inv3 s -> bc_invr s -> bc_inv4 s -> bc_inv5 s -> bc_inv6 s ->
  bc_step s m = Some s' -> bc_inv6 s'.
Proof.
  intros (I1 & I2 & I3 & I4 & I5) (V1 & V2 & V3 & V4 & V5 & V6 & V7 & V8) (N1 & N2 & N3 & N4) R H4 H5 W E. bc_split s E; w_split; unfold bc_inv6 in *; bc_simp.
  all: try (exfalso; destruct (I5 eq_refl) as [-> ?]; specialize (I4 i); lia).
  all: intros x Jr Ja [(l0 & Jl) Jp] Jw; pose proof (W x) as Wx; revert Jr Ja Jl Jp Jw; at_kid x.
  all: unfold k_ans in *; k_simp; intros Jr Ja Jl Jp Jw; try discriminate.
  all: try (destruct Jp as [Jp|[w' Jp]]; discriminate Jp).
  all: try (destruct l0; discriminate Jl).
  all: try (apply orb_false_iff in Jr as [Jr Jr']).
  (* child i sets its waker *)
  all: try (left; destruct (V7 i _ C0) as [U1 U2]; destruct (H5 i Jr) as [U3 U4]; unfold k_pre, k_pre_locked in *; bc_simp; rewrite C0 in *;
            specialize (U3 eq_refl); specialize (U4 eq_refl); refine (conj U3 (conj _ (conj U2 _))); [cbn; now rewrite Nat.eqb_refl|];
            intros y; unfold fupd; destruct (Nat.eqb_spec y i) as [->|Ny]; [split; discriminate|];
            split; [exact (U4 y Ny)|]; intros c Cy; destruct (I2 y) as [[_ Y1] _]; destruct (I2 i) as [[_ Z1] [_ Z2]]; unfold holds_w, holds_r in *;
            rewrite C0, Cy in *; specialize (Y1 eq_refl); try (specialize (Z1 eq_refl); congruence);
            rewrite (I3 ltac:(congruence)) in Z2; exact (Z2 eq_refl)).
  all: try (apply orb_false_iff in Jw as [Jw Jw']; apply Nat.eqb_neq in Jw').
  (* child i returns *)
  all: try (match goal with C0 : k_pc (?ks ?i) = KRet _ _ |- _ => destruct (R i _ _ C0) as [l1 G]; unfold k_ans in G; bc_simp;
              rewrite G in Jl; apply app_inj_tail in Jl as [-> ->];
              assert (Jp' : k_pc (ks i) = KIdle \/ exists w, k_pc (ks i) = KRet w Pending) by (right; eexists; exact C0);
              clear Jp; rename Jp' into Jp; rename G into Jl end).
  all: match type of Wx with _ -> _ -> _ -> _ -> ?Q => assert (U : Q) end;
       [apply Wx; [assumption|assumption|split; [exists l0; assumption|first [assumption|intuition congruence]]|assumption]|].
  all: destruct U as [Q|[Q|Q]].
  (* no note moved *)
  all: try (right; left; exact Q). all: try (right; right; exact Q).
  all: try (left; refine (quiet_frame _ _ _ _ _ _ Q _ _); [at_kid i; auto; at_kid x; congruence|intros y; at_kid y; split; congruence]).
  all: try (exfalso; destruct Q as (Q1 & Q2 & Q3 & Q4); first [congruence | destruct (Q4 i) as [G1 G2]; first [exact (G1 C0) | exact (G2 _ C0)]]).
  all: try (left; exact Q).
  (* a note moved *)
  all: try (right; left; apply will_snoc, Q).
  all: try (right; right; apply wakes_snoc, Q).
  all: try (right; right; eapply wakes_lupd; [exact C|congruence|exact Q]).
  all: try (right; left; eapply will_lupd; [exact C| |exact Q]; cbn [todo_of In app]; solve [intuition congruence]).
  - left. refine (quiet_frame _ _ _ _ _ _ Q _ _); [at_kid i; now rewrite Nat.eqb_refl|intros y; at_kid y; split; congruence].
  - left. refine (quiet_frame _ _ _ _ _ _ Q _ _); [at_kid i; now rewrite Nat.eqb_refl|intros y; at_kid y; split; congruence].
  - right; left. exists j, (NVisit [] wks). split; [eapply lupd_same, C|]. cbn [todo_of]. auto.
  - right; right. destruct (H4 c) as [G|G]; bc_simp; [assumption|split; [exists l0; assumption|assumption]|assumption| |].
    + assert (n1 = k_task (kids c)) as -> by congruence. eapply wakes_here, C.
    + eapply wakes_lupd; [exact C|congruence|exact G].
  - right; right. destruct (H4 c) as [G|G]; bc_simp; [assumption|split; [exists l0; assumption|assumption]|assumption| |].
    + assert (n1 = k_task (kids c)) as -> by congruence. eapply wakes_here, C.
    + eapply wakes_lupd; [exact C|congruence|exact G].
  - destruct (Nat.eq_dec x c) as [->|Nx].
    + right; right. destruct (H4 c) as [G|G]; bc_simp; [assumption|split; [exists l0; assumption|assumption]|assumption|congruence|].
      eapply wakes_lupd; [exact C|congruence|exact G].
    + right; left. eapply will_lupd; [exact C| |exact Q]. cbn [todo_of In]. intuition congruence.
Qed.

(** ** Everything together *)

Definition bc_inv s : Prop :=
  bc_inv1 s /\ bc_inv2 s /\ bc_inv3 s /\ bc_invr s /\ bc_inv4 s /\ bc_inv5 s /\ bc_inv6 s.

Lemma bc_inv_step s m s' : bc_inv s -> bc_step s m = Some s' -> bc_inv s'.
Proof.
  intros (H1 & H2 & H3 & H4 & H5 & H6 & H7) E.
  refine (conj _ (conj _ (conj _ (conj _ (conj _ (conj _ _)))))).
  - eapply bc_inv1_step; eauto.
  - eapply bc_inv2_step; eauto.
  - eapply bc_inv3_step; eauto.
  - eapply bc_invr_step; eauto.
  - eapply bc_inv4_step; eauto.
  - eapply bc_inv5_step; eauto.
  - eapply bc_inv6_step; eauto.
Qed.

Lemma bc_inv_init f0 : bc_inv (bc_init f0).
Proof.
  refine (conj _ (conj _ (conj _ (conj _ (conj _ (conj _ _)))))).
  - unfold bc_inv1. cbn. repeat split; auto; try discriminate; try tauto.
  - unfold bc_inv2. cbn. repeat split; auto; try discriminate.
    + intros p q E. destruct p; discriminate.
    + intros [H|H]; [lia|discriminate].
    + exists 0, 0. cbn. repeat split; auto; try lia. constructor.
  - unfold bc_inv3. cbn. repeat split; auto; try discriminate; intros [|j]; discriminate.
  - unfold bc_invr. cbn. discriminate.
  - unfold bc_inv4. cbn. discriminate.
  - unfold bc_inv5. cbn. intros i _. split; discriminate.
  - unfold bc_inv6. cbn. discriminate.
Qed.

Lemma bc_reach f0 l s : exec bc_step (bc_init f0) l = Some s -> bc_inv s.
Proof. intros E. eapply exec_inv; [|apply bc_inv_init|exact E]. intros. eapply bc_inv_step; eauto. Qed.
End Facts.
