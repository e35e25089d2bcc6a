(** Proofs for Weak.v. *)
From Coq Require Import Permutation.
From Verif Require Import Base Conc Weak.

(** ** Specification *)

(** Each swap takes out what the swap before it has put in; the first one takes out [v0]. *)
Fixpoint handed {A} (v0 : option A) (l : list (option A * option A)) : Prop :=
  match l with [] => True | (i, o) :: l => o = v0 /\ handed i l end.

(** The values that were given to the calls. *)
Definition put_in {A} (mvs : list (move A)) : list A := flat_map (fun m => match m with WCall _ v => olist v | _ => [] end) mvs.

(** ** Proof *)
Lemma last_cons {X} (l : list X) x d : last (x :: l) d = last l x.
Proof. revert x d. induction l as [|y l IH]; intros x d; [reflexivity|]. change (last (y :: l) d = last (y :: l) x). rewrite !IH. reflexivity. Qed.

Lemma handed_snoc {A} (v0 : option A) l i o : handed v0 l -> o = last (map fst l) v0 -> handed v0 (l ++ [(i, o)]).
Proof.
  revert v0. induction l as [|[i' o'] l IH]; intros v0; [simpl; auto|]. cbn [handed app map fst]. rewrite last_cons. intros [-> h] e. auto.
Qed.

Lemma last_snoc {X} (l : list X) x d : last (l ++ [x]) d = x.
Proof. induction l as [|y l IH]; simpl; auto. rewrite IH. destruct (l ++ [x]) eqn:E; auto. destruct l; discriminate. Qed.

Lemma is_in_true t l : is_in t l = true <-> In t l.
Proof. unfold is_in. rewrite existsb_exists. split; [intros (x & h & e); apply Nat.eqb_eq in e; subst; auto|]. intros h. exists t. rewrite Nat.eqb_refl. auto. Qed.
Lemma knows_true v b : knows v b = true <-> In b (v_boxes v).
Proof. apply is_in_true. Qed.
Lemma in_drop_one t u l : t <> u -> In t l -> In t (drop_one u l).
Proof. intros n. induction l as [|x l IH]; simpl; auto. intros h. destruct (Nat.eqb_spec x u) as [e|e], h as [h|h]; simpl; auto. congruence. Qed.
Lemma drop_one_in t u l : In t (drop_one u l) -> In t l.
Proof. induction l as [|x l IH]; simpl; auto. destruct (x =? u); simpl; auto. intros [h|h]; auto. Qed.

Section Facts.
Context {A : Type} (dacq : bool) (v0 : option A).
Implicit Types (st : mem A).
Notation step := (w_step true true dacq).

Definition last_ptr st : option nat := fst (last (msgs st) (None, no_view)).
Definition first_ptr st : option nat := match msgs st with m :: _ => fst m | [] => None end.
Definition holds (c : pc) : option nat := match c with KSwap q => q | KFrom p | KFree p => p | _ => None end.
Definition in_call (c : pc) : Prop := match c with KSwap _ | KFrom _ => True | _ => False end.
Definition in_drop (c : pc) : Prop := match c with KLoad | KFree _ => True | _ => False end.
Definition member st (t : nat) : Prop := In t (arcs st) \/ In t (weaks st).
(** A view that has the last message and what it points at. *)
Definition sees st (v : view) : Prop := length (msgs st) <= S (v_at v) /\ forall b, last_ptr st = Some b -> In b (v_boxes v).

Inductive owner := OThread (t : nat) | OCell | OGone.

Record owned st (own : nat -> owner) (opened : bool) : Prop := {
  o_box : forall b x d, nth_error (boxes st) b = Some (x, d) -> (d = true <-> own b = OGone);
  o_pc : forall t b, holds (pcs st t) = Some b -> own b = OThread t /\ b < length (boxes st);
  o_pc2 : forall t b, b < length (boxes st) -> own b = OThread t -> holds (pcs st t) = Some b;
  o_cell : forall b, opened = true -> last_ptr st = Some b -> own b = OCell;
  o_cell2 : forall b, b < length (boxes st) -> own b = OCell -> opened = true /\ last_ptr st = Some b;
  o_open : opened = true <-> (arcs st <> [] \/ exists t, pcs st t = KLoad) }.

Record inv st : Prop := {
  i_ne : msgs st <> [];
  i_call : forall t, in_call (pcs st t) -> In t (arcs st);
  i_drop : forall t, in_drop (pcs st t) -> arcs st = [] /\ forall u, u <> t -> pcs st u = KIdle;
  i_init : forall t b, member st t -> first_ptr st = Some b -> In b (v_boxes (views st t));
  i_msg : forall i b mv, nth_error (msgs st) (S i) = Some (Some b, mv) -> In b (v_boxes mv);
  i_know : forall t b, holds (pcs st t) = Some b -> In b (v_boxes (views st t));
  i_sees : sees st (arc st) \/ exists t, In t (arcs st) /\ sees st (views st t);
  i_load : forall t, pcs st t = KLoad -> sees st (views st t);
  i_raced : raced st = false;
  i_misused : misused st = false;
  i_last : forall b, last_ptr st = Some b -> b < length (boxes st);
  i_log : handed v0 (log st) /\ at_ptr (last_ptr st) st = last (map fst (log st)) v0;
  i_gone : Permutation (gone st) (map fst (filter snd (boxes st)));
  i_own : exists own opened, owned st own opened }.

Lemma sees_join st v w : sees st v -> sees st (join v w).
Proof. intros [h1 h2]. split; simpl; [lia|]. intros b e. apply in_or_app. auto. Qed.
Lemma sees_join2 st v w : sees st w -> sees st (join v w).
Proof. intros [h1 h2]. split; simpl; [lia|]. intros b e. apply in_or_app. auto. Qed.
Lemma fupd_eq {X} t (x : X) f : fupd t x f t = x.
Proof. unfold fupd. rewrite Nat.eqb_refl. reflexivity. Qed.
Lemma fupd_ne {X} t u (x : X) f : u <> t -> fupd t x f u = f u.
Proof. intros n. unfold fupd. apply Nat.eqb_neq in n. rewrite n. reflexivity. Qed.

(** A thread learns something. *)
Lemma learn st u v : inv st -> inv (set_thread u (join (views st u) v) (pcs st u) st).
Proof.
  intros [h1 h2 h3 h4 h5 h6 h7 h8 h9 h10 h11 h12 h13 (own & op & [o1 o2 o3 o4 o5 o6])].
  assert (E : forall t, fupd u (pcs st u) (pcs st) t = pcs st t) by (intros t; unfold fupd; destruct (Nat.eqb_spec t u); subst; auto).
  assert (V : forall t b, In b (v_boxes (views st t)) -> In b (v_boxes (fupd u (join (views st u) v) (views st) t))) by (intros t b h; unfold fupd; destruct (Nat.eqb_spec t u); subst; simpl; auto using in_or_app).
  assert (S : forall t, sees st (views st t) -> sees st (fupd u (join (views st u) v) (views st) t)) by (intros t h; unfold fupd; destruct (Nat.eqb_spec t u); subst; auto using sees_join).
  constructor; auto; simpl.
  - intros t. rewrite E. auto.
  - intros t. rewrite E. intros h. destruct (h3 _ h) as [k1 k2]. split; auto. intros x n. rewrite E. auto.
  - intros t b k e. apply V. apply h4; auto.
  - intros t b. rewrite E. intros h. apply V. auto.
  - destruct h7 as [h7|(t & k1 & k2)]; [left; auto|]. right. exists t. split; auto. apply S. auto.
  - intros t. rewrite E. intros h. apply S. auto.
  - exists own, op. constructor; auto; simpl.
    + intros t b. rewrite E. auto.
    + intros t b. rewrite E. auto.
    + rewrite o6. split; (intros [k|(t & k)]; [auto|]); right; exists t; [rewrite E|rewrite E in k]; auto.
Qed.

Lemma free_none t st : free t None st = st. Proof. reflexivity. Qed.

Lemma filter_lupd (l : list (A * bool)) b x : nth_error l b = Some (x, false) -> Permutation (map fst (filter snd (lupd b (x, true) l))) (x :: map fst (filter snd l)).
Proof.
  intros h. destruct (lupd_split b (x, false) (x, false) l h) as (l1 & l2 & -> & _ & e). rewrite e, !filter_app, !map_app. simpl.
  apply Permutation_sym. apply Permutation_middle.
Qed.

Lemma map_fst_lupd (l : list (A * bool)) b x d : nth_error l b = Some (x, d) -> map fst (lupd b (x, true) l) = map fst l.
Proof. intros h. destruct (lupd_split b (x, d) (x, d) l h) as (l1 & l2 & -> & _ & e). rewrite e, !map_app. reflexivity. Qed.

Lemma at_ptr_map p st : at_ptr p st = match p with Some b => nth_error (map fst (boxes st)) b | None => None end.
Proof. destruct p as [b|]; auto. simpl. rewrite nth_error_map. destruct (nth_error (boxes st) b); auto. Qed.

(** A thread frees the box that it owns and is done. *)
Lemma free_inv t st p : inv st -> pcs st t = KFrom p \/ pcs st t = KFree p -> inv (let st := free t p st in set_thread t (views st t) KIdle st).
Proof.
  intros iv hp. assert (hh : holds (pcs st t) = p) by (destruct hp as [-> | ->]; reflexivity). assert (nl : pcs st t <> KLoad) by (destruct hp; congruence).
  destruct iv as [h1 h2 h3 h4 h5 h6 h7 h8 h9 h10 h11 h12 h13 (own & op & [o1 o2 o3 o4 o5 o6])].
  assert (E : forall u, u <> t -> fupd t KIdle (pcs st) u = pcs st u) by (intros; apply fupd_ne; auto).
  assert (V : forall u, fupd t (views st t) (views st) u = views st u) by (intros u; unfold fupd; destruct (Nat.eqb_spec u t); subst; auto).
  assert (c2 : forall u, in_call (fupd t KIdle (pcs st) u) -> In u (arcs st)) by (intros u; destruct (Nat.eq_dec u t) as [->|n]; [rewrite fupd_eq; intros []|rewrite E; auto]).
  assert (c3 : forall u, in_drop (fupd t KIdle (pcs st) u) -> arcs st = [] /\ forall x, x <> u -> fupd t KIdle (pcs st) x = KIdle).
  { intros u. destruct (Nat.eq_dec u t) as [->|n]; [rewrite fupd_eq; intros []|rewrite E by auto]. intros h. destruct (h3 _ h) as [k1 k2]. split; auto. intros x nx. unfold fupd. destruct (x =? t); auto. }
  assert (c6 : forall u b, holds (fupd t KIdle (pcs st) u) = Some b -> u <> t /\ holds (pcs st u) = Some b) by (intros u b; destruct (Nat.eq_dec u t) as [->|n]; [rewrite fupd_eq; discriminate|rewrite E; auto]).
  assert (c8 : forall u, fupd t KIdle (pcs st) u = KLoad <-> pcs st u = KLoad) by (intros u; destruct (Nat.eq_dec u t) as [->|n]; [rewrite fupd_eq; split; [discriminate|tauto]|rewrite E; tauto]).
  assert (c9 : (arcs st <> [] \/ exists u, pcs st u = KLoad) <-> (arcs st <> [] \/ exists u, fupd t KIdle (pcs st) u = KLoad)) by (split; (intros [k|(u & k)]; [auto|]); right; exists u; apply c8; auto).
  destruct p as [b|].
  - destruct (o2 _ _ hh) as [k1 k2]. destruct (nth_error (boxes st) b) as [[x d]|] eqn:Eb; [|apply nth_error_None in Eb; lia].
    assert (d = false) as -> by (destruct d; auto; exfalso; assert (own b = OGone) by (apply (o1 _ _ _ Eb); auto); congruence).
    unfold free. rewrite Eb. rewrite (proj2 (knows_true _ _) (h6 _ _ hh)). rewrite h9, h10. simpl.
    constructor; simpl; auto.
    + intros u b' k e. rewrite V. auto.
    + intros u b' k. rewrite V. apply c6 in k as [_ k]. auto.
    + destruct h7 as [h7|(u & u1 & u2)]; [left; auto|]. right. exists u. split; auto. simpl. rewrite V. auto.
    + intros u k. rewrite V. apply h8. apply c8. auto.
    + intros b' e. rewrite lupd_length. auto.
    + rewrite at_ptr_map in *. simpl. rewrite (map_fst_lupd _ _ _ _ Eb). auto.
    + rewrite (filter_lupd _ _ _ Eb). rewrite Permutation_app_comm. simpl. apply perm_skip. auto.
    + exists (fun i => if i =? b then OGone else own i), op. constructor; simpl.
      * intros i y d' e. apply lupd_inv in e as [[<- e]|[n e]].
        -- rewrite Nat.eqb_refl. injection e as <- <-. tauto.
        -- apply not_eq_sym, Nat.eqb_neq in n. rewrite n. eauto.
      * intros u i k. apply c6 in k as [n k]. rewrite lupd_length. destruct (o2 _ _ k) as [k3 k4]. destruct (Nat.eqb_spec i b) as [->|]; [congruence|auto].
      * intros u i li. rewrite lupd_length in li. destruct (Nat.eqb_spec i b) as [->|ni]; [discriminate|]. intros k. destruct (Nat.eq_dec u t) as [->|n]; [|rewrite E by auto; auto].
        apply o3 in k; auto. congruence.
      * intros i e1 e2. destruct (Nat.eqb_spec i b) as [->|]; auto. rewrite (o4 _ e1 e2) in k1. discriminate.
      * intros i li. rewrite lupd_length in li. destruct (i =? b); [discriminate|]. auto.
      * rewrite <- c9. auto.
  - simpl. constructor; simpl; auto.
    + intros u b' k e. rewrite V. auto.
    + intros u b' k. rewrite V. apply c6 in k as [_ k]. auto.
    + destruct h7 as [h7|(u & u1 & u2)]; [left; auto|]. right. exists u. split; auto. simpl. rewrite V. auto.
    + intros u k. rewrite V. apply h8. apply c8. auto.
    + exists own, op. constructor; simpl; auto.
      * intros u i k. apply c6 in k as [n k]. auto.
      * intros u i li k. destruct (Nat.eq_dec u t) as [->|n]; [|rewrite E by auto; auto]. apply o3 in k; auto. congruence.
      * rewrite <- c9. auto.
Qed.

(** A thread begins a call. *)
Lemma call_inv t value st : inv st -> pcs st t = KIdle -> In t (arcs st) ->
  inv (let '(st, q) := alloc t value st in set_thread t (views st t) (KSwap q) st).
Proof.
  intros [h1 h2 h3 h4 h5 h6 h7 h8 h9 h10 h11 h12 h13 (own & op & [o1 o2 o3 o4 o5 o6])] hp ha.
  assert (ne : arcs st <> []) by (intros e; rewrite e in ha; destruct ha).
  assert (nd : forall u, ~ in_drop (pcs st u)) by (intros u h; destruct (h3 _ h); contradiction).
  destruct value as [x|]; simpl.
  - set (n := length (boxes st)). set (v := join (views st t) (mkView [n] 0)). rewrite fupd_eq.
    assert (V : forall u b, In b (v_boxes (views st u)) -> In b (v_boxes (fupd t v (fupd t v (views st)) u))) by (intros u b h; unfold fupd; destruct (Nat.eqb_spec u t); subst; simpl; auto using in_or_app).
    assert (V2 : forall u, sees st (views st u) -> sees st (fupd t v (fupd t v (views st)) u)) by (intros u h; unfold fupd; destruct (Nat.eqb_spec u t); subst; auto; apply sees_join; auto).
    constructor; simpl; auto.
    + intros u. unfold fupd. destruct (Nat.eqb_spec u t); subst; auto.
    + intros u. unfold fupd. destruct (Nat.eqb_spec u t); [intros []|]. intros h. destruct (nd _ h).
    + intros u b. unfold fupd at 1. destruct (Nat.eqb_spec u t) as [->|]; [|intros; apply V; auto]. simpl. intros e. injection e as <-. rewrite fupd_eq. simpl. apply in_or_app. simpl. auto.
    + destruct h7 as [h7|(u & u1 & u2)]; [left; auto|]. right. exists u. split; auto. apply V2. auto.
    + intros u. unfold fupd at 1. destruct (Nat.eqb_spec u t); [discriminate|]. intros k. destruct (nd u). rewrite k. exact I.
    + intros b e. rewrite app_length. simpl. specialize (h11 b e). lia.
    + rewrite !at_ptr_map in *. simpl. rewrite map_app. unfold last_ptr in *. simpl in *. destruct (fst (last (msgs st) (None, no_view))) as [b|] eqn:e; auto.
      rewrite nth_error_app1; auto. rewrite map_length. auto.
    + rewrite filter_app. simpl. rewrite app_nil_r. auto.
    + exists (fun i => if i =? n then OThread t else own i), op. constructor; simpl.
      * intros b y d e. destruct (Nat.lt_ge_cases b n) as [l|l].
        -- rewrite nth_error_app1 in e by auto. assert (b <> n) as q by lia. apply Nat.eqb_neq in q. rewrite q. eauto.
        -- rewrite nth_error_app2 in e by auto. destruct (b - length (boxes st)) as [|k] eqn:q; [|destruct k; discriminate]. simpl in e. injection e as <- <-. assert (b = n) as -> by (unfold n in *; lia). rewrite Nat.eqb_refl. split; discriminate.
      * intros u b. rewrite app_length. simpl. unfold fupd. destruct (Nat.eqb_spec u t) as [->|].
        -- simpl. intros e. injection e as <-. rewrite Nat.eqb_refl. split; auto. unfold n. lia.
        -- intros k. destruct (o2 _ _ k) as [k1 k2]. assert (b <> n) as q by (unfold n; lia). apply Nat.eqb_neq in q. rewrite q. split; auto. lia.
      * intros u b. rewrite app_length. simpl. intros l. destruct (Nat.eqb_spec b n) as [->|q].
        -- intros e. injection e as <-. rewrite fupd_eq. reflexivity.
        -- intros e. assert (b < length (boxes st)) as l' by (unfold n in *; lia). apply o3 in e; auto. unfold fupd. destruct (Nat.eqb_spec u t) as [->|]; auto. rewrite hp in e. discriminate.
      * intros b e1 e2. assert (b <> n) as q by (specialize (h11 b e2); unfold n; lia). apply Nat.eqb_neq in q. rewrite q. auto.
      * intros b. rewrite app_length. simpl. intros l. destruct (Nat.eqb_spec b n) as [->|q]; [discriminate|]. intros e. apply o5; auto. unfold n in *. lia.
      * split; [auto|]. intros _. apply o6. auto.
  - assert (V : forall u, fupd t (views st t) (views st) u = views st u) by (intros u; unfold fupd; destruct (Nat.eqb_spec u t); subst; auto).
    constructor; simpl; auto.
    + intros u. unfold fupd. destruct (Nat.eqb_spec u t); subst; auto.
    + intros u. unfold fupd. destruct (Nat.eqb_spec u t); [intros []|]. intros h. destruct (nd _ h).
    + intros u b k e. rewrite V. apply h4; auto.
    + intros u b. rewrite V. unfold fupd. destruct (Nat.eqb_spec u t); [discriminate|auto].
    + destruct h7 as [h7|(u & u1 & u2)]; [left; auto|]. right. exists u. split; auto. simpl. rewrite V. auto.
    + intros u. rewrite V. unfold fupd. destruct (Nat.eqb_spec u t); [discriminate|apply h8].
    + exists own, op. constructor; simpl; auto.
      * intros u b. unfold fupd. destruct (Nat.eqb_spec u t); [discriminate|auto].
      * intros u b l e. unfold fupd. destruct (Nat.eqb_spec u t) as [->|]; auto. apply o3 in e; auto. rewrite hp in e. discriminate.
      * split; [auto|]. intros _. apply o6. auto.
Qed.

(** The swap. *)
Lemma swap_inv t q p mv r st : inv st -> pcs st t = KSwap q -> rev (msgs st) = (p, mv) :: r ->
  forall st', step st (WStep t) = Some st' -> inv st'.
Proof.
  intros [h1 h2 h3 h4 h5 h6 h7 h8 h9 h10 h11 h12 h13 (own & op & [o1 o2 o3 o4 o5 o6])] hp hr st' H.
  simpl in H. rewrite hp, hr in H. injection H as <-. assert (ha : In t (arcs st)) by (apply h2; rewrite hp; exact I).
  assert (ne : arcs st <> []) by (intros e; rewrite e in ha; destruct ha).
  assert (nd : forall u, ~ in_drop (pcs st u)) by (intros u h; destruct (h3 _ h); contradiction).
  assert (em : msgs st = rev r ++ [(p, mv)]) by (rewrite <- (rev_involutive (msgs st)), hr; reflexivity).
  assert (lp : last_ptr st = p) by (unfold last_ptr; rewrite em, last_snoc; reflexivity).
  set (n := length (msgs st)). set (v := join (views st t) (mkView (v_boxes mv) n)). set (mv' := join mv v).
  assert (kp : forall b, p = Some b -> In b (v_boxes v)).
  { intros b e. simpl. apply in_or_app. destruct (rev r) as [|m0 r0] eqn:er.
    - left. apply h4; [left; auto|]. unfold first_ptr. rewrite em. simpl. auto.
    - right. apply (h5 (length r0) b). rewrite em. simpl. rewrite nth_error_app2, Nat.sub_diag by auto. simpl. rewrite e. reflexivity. }
  assert (kq : forall b, q = Some b -> In b (v_boxes (views st t))) by (intros b e; apply h6; rewrite hp; auto).
  assert (lp' : forall bx vi pc ar we ac ra mi lo go, last_ptr (mkMem bx (msgs st ++ [(q, mv')]) vi pc ar we ac ra mi lo go) = q) by (intros; unfold last_ptr; simpl; rewrite last_snoc; reflexivity).
  assert (sv : forall bx vi pc ar we ac ra mi lo go, sees (mkMem bx (msgs st ++ [(q, mv')]) vi pc ar we ac ra mi lo go) v).
  { intros. split; simpl; [rewrite app_length; simpl; fold n; lia|]. rewrite lp'. intros b e. apply in_or_app. auto. }
  assert (fp : forall bx vi pc ar we ac ra mi lo go, first_ptr (mkMem bx (msgs st ++ [(q, mv')]) vi pc ar we ac ra mi lo go) = first_ptr st) by (intros; unfold first_ptr; simpl; destruct (msgs st); [congruence|reflexivity]).
  unfold set_thread. simpl. constructor; simpl; auto.
  - destruct (msgs st); discriminate.
  - intros u. unfold fupd. destruct (Nat.eqb_spec u t); subst; auto.
  - intros u. unfold fupd. destruct (Nat.eqb_spec u t); [intros []|]. intros h. destruct (nd _ h).
  - intros u b k. rewrite fp. intros e. specialize (h4 u b k e). unfold fupd. destruct (Nat.eqb_spec u t); subst; auto. simpl. apply in_or_app. auto.
  - intros i b w e. change (nth_error (msgs st ++ [(q, mv')]) (S i) = Some (Some b, w)) in e. destruct (Nat.lt_ge_cases (S i) n) as [l|l]; [rewrite nth_error_app1 in e by auto; eauto|].
    rewrite nth_error_app2 in e by auto. destruct (S i - length (msgs st)) as [|k]; [|destruct k; discriminate]. simpl in e. injection e as e <-. simpl. apply in_or_app. right. apply in_or_app. left. auto.
  - intros u b. unfold fupd. destruct (Nat.eqb_spec u t); subst; simpl; auto.
  - right. exists t. rewrite fupd_eq. auto.
  - intros u. unfold fupd. destruct (Nat.eqb_spec u t); [discriminate|]. intros k. destruct (nd u). rewrite k. exact I.
  - rewrite lp'. intros b e. destruct (o2 t b) as [_ k]; auto. rewrite hp. auto.
  - rewrite lp'. destruct h12 as [k1 k2]. rewrite lp in k2. split; [apply handed_snoc; auto|]. rewrite map_app. simpl. rewrite last_snoc. reflexivity.
  - exists (fun b => if (match q with Some b' => b =? b' | None => false end) then OCell else if (match p with Some b' => b =? b' | None => false end) then OThread t else own b), op.
    assert (oo : op = true) by (apply o6; auto).
    assert (pc : forall b, p = Some b -> own b = OCell) by (intros b e; apply o4; auto; congruence).
    assert (qc : forall b, q = Some b -> own b = OThread t /\ b < length (boxes st)) by (intros b e; apply o2; rewrite hp; auto).
    constructor; simpl; auto.
    + intros b y d e. specialize (o1 b y d e). rewrite o1. destruct q as [b'|]; [destruct (Nat.eqb_spec b b') as [->|]|].
      * destruct (qc b' eq_refl) as [k _]. rewrite k. split; discriminate.
      * destruct p as [b2|]; [|tauto]. destruct (Nat.eqb_spec b b2) as [->|]; [|tauto]. rewrite (pc _ eq_refl). split; discriminate.
      * destruct p as [b2|]; [|tauto]. destruct (Nat.eqb_spec b b2) as [->|]; [|tauto]. rewrite (pc _ eq_refl). split; discriminate.
    + intros u b. unfold fupd. destruct (Nat.eqb_spec u t) as [->|nu]; simpl.
      * intros ->. rewrite Nat.eqb_refl. specialize (pc b eq_refl). assert (b < length (boxes st)) by auto. destruct q as [b'|]; [|auto]. destruct (Nat.eqb_spec b b') as [->|]; auto. destruct (qc b' eq_refl). congruence.
      * intros k. destruct (o2 _ _ k) as [k1 k2]. split; auto. destruct q as [b'|]; [destruct (Nat.eqb_spec b b') as [->|]|].
        -- destruct (qc b' eq_refl). congruence.
        -- destruct p as [b2|]; auto. destruct (Nat.eqb_spec b b2) as [->|]; auto. rewrite (pc _ eq_refl) in k1. discriminate.
        -- destruct p as [b2|]; auto. destruct (Nat.eqb_spec b b2) as [->|]; auto. rewrite (pc _ eq_refl) in k1. discriminate.
    + intros u b l. assert (K : (if match p with Some b' => b =? b' | None => false end then OThread t else own b) = OThread u -> match q with Some b' => b <> b' | None => True end -> holds (fupd t (KFrom p) (pcs st) u) = Some b).
      { destruct p as [b2|]; [destruct (Nat.eqb_spec b b2) as [->|]|].
        - intros e _. injection e as <-. rewrite fupd_eq. reflexivity.
        - intros e nq. apply o3 in e; auto. unfold fupd. destruct (Nat.eqb_spec u t) as [->|]; auto. rewrite hp in e. simpl in e. rewrite e in nq. congruence.
        - intros e nq. apply o3 in e; auto. unfold fupd. destruct (Nat.eqb_spec u t) as [->|]; auto. rewrite hp in e. simpl in e. rewrite e in nq. congruence. }
      destruct q as [b'|]; [destruct (Nat.eqb_spec b b'); [discriminate|]|]; auto.
    + rewrite lp'. intros b _ ->. rewrite Nat.eqb_refl. reflexivity.
    + rewrite lp'. intros b l. destruct q as [b'|]; [destruct (Nat.eqb_spec b b') as [->|]; [auto|]|].
      * destruct p as [b2|]; [destruct (Nat.eqb_spec b b2) as [->|]; [discriminate|]|]; intros e; destruct (o5 _ l e) as [_ k]; congruence.
      * destruct p as [b2|]; [destruct (Nat.eqb_spec b b2) as [->|]; [discriminate|]|]; intros e; destruct (o5 _ l e) as [_ k]; congruence.
    + split; auto.
Qed.

Lemma more_arcs u st : inv st -> arcs st <> [] -> (forall b, first_ptr st = Some b -> In b (v_boxes (views st u))) -> inv (set_arcs (u :: arcs st) (weaks st) (arc st) st).
Proof.
  intros [h1 h2 h3 h4 h5 h6 h7 h8 h9 h10 h11 h12 h13 (own & op & [o1 o2 o3 o4 o5 o6])] ne hu.
  constructor; auto.
  - intros t h. simpl. auto.
  - intros t h. destruct (h3 _ h). contradiction.
  - intros t b [[<-|k]|k] e; [apply hu; auto|apply h4; auto; left; auto|apply h4; auto; right; auto].
  - destruct h7 as [h7|(t & k1 & k2)]; [left; auto|]. right. exists t. split; simpl; auto.
  - exists own, op. constructor; auto. simpl. split; [intros _; left; discriminate|]. intros _. apply o6. auto.
Qed.

Lemma more_weaks u st : inv st -> (forall b, first_ptr st = Some b -> In b (v_boxes (views st u))) -> inv (set_arcs (arcs st) (u :: weaks st) (arc st) st).
Proof.
  intros [h1 h2 h3 h4 h5 h6 h7 h8 h9 h10 h11 h12 h13 (own & op & [o1 o2 o3 o4 o5 o6])] hu.
  constructor; auto.
  - intros t b [k|[<-|k]] e; [apply h4; auto; left; auto|apply hu; auto|apply h4; auto; right; auto].
  - exists own, op. constructor; auto.
Qed.

Lemma drop_inv t st st' : inv st -> step st (WDrop t) = Some st' -> inv st'.
Proof.
  intros [h1 h2 h3 h4 h5 h6 h7 h8 h9 h10 h11 h12 h13 (own & op & [o1 o2 o3 o4 o5 o6])] H. simpl in H.
  destruct (pcs st t) eqn:hp; try discriminate. destruct (is_in t (arcs st)) eqn:ha; [|discriminate]. apply is_in_true in ha.
  assert (ne : arcs st <> []) by (intros e; rewrite e in ha; destruct ha).
  assert (nd : forall u, ~ in_drop (pcs st u)) by (intros u h; destruct (h3 _ h); contradiction).
  assert (oo : op = true) by (apply o6; auto).
  assert (sw : forall x, sees st x -> sees st (join (views st t) (join x (views st t)))) by (intros; apply sees_join2, sees_join; auto).
  destruct (drop_one t (arcs st)) as [|a l] eqn:E; injection H as <-.
  - assert (only : forall u, In u (arcs st) -> u = t) by (intros u h; destruct (Nat.eq_dec u t) as [e|n]; auto; exfalso; apply (in_drop_one u t) in h; auto; rewrite E in h; destruct h).
    assert (se : sees st (join (arc st) (views st t))) by (destruct h7 as [h7|(u & k1 & k2)]; [apply sees_join; auto|]; apply only in k1 as ->; apply sees_join2; auto).
    set (v := join (views st t) (join (arc st) (views st t))).
    constructor; simpl; auto.
    + intros u. unfold fupd. destruct (Nat.eqb_spec u t); [intros []|]. intros h. destruct n. apply only. auto.
    + intros u. unfold fupd. destruct (Nat.eqb_spec u t) as [->|]; [|intros h; destruct (nd _ h)]. intros _. split; auto. intros u n. apply Nat.eqb_neq in n as n'. rewrite n'.
      specialize (nd u). destruct (pcs st u) eqn:q; auto; try (destruct nd; exact I); destruct n; apply only, h2; rewrite q; exact I.
    + intros u b k e. assert (K : In b (v_boxes (views st u))) by (apply h4; auto; destruct k as [[]|k]; right; auto). unfold fupd. destruct (Nat.eqb_spec u t); subst; auto. simpl. apply in_or_app. auto.
    + intros u b. unfold fupd. destruct (Nat.eqb_spec u t); subst; [discriminate|]. auto.
    + intros u. unfold fupd. destruct (Nat.eqb_spec u t) as [->|]; [|intros k; destruct (nd u); rewrite k; exact I]. intros _. apply (sees_join2 st). auto.
    + exists own, op. constructor; simpl; auto.
      * intros u b. unfold fupd. destruct (Nat.eqb_spec u t); subst; [discriminate|]. auto.
      * intros u b lb e. apply o3 in e; auto. unfold fupd. destruct (Nat.eqb_spec u t) as [->|]; auto. rewrite hp in e. discriminate.
      * split; auto. intros _. right. exists t. apply fupd_eq.
  - assert (keep : forall u, In u (arcs st) -> u <> t -> In u (a :: l)) by (intros u h n; rewrite <- E; apply in_drop_one; auto).
    constructor; simpl; auto.
    + intros u h. apply keep; [auto|]. intros ->. rewrite hp in h. destruct h.
    + intros u h. destruct (nd _ h).
    + intros u b k e. apply h4; auto. destruct k as [k|k]; [left|right; auto]. apply (drop_one_in u t). rewrite E. auto.
    + destruct h7 as [h7|(u & k1 & k2)]; [left; apply (sees_join st); auto|]. destruct (Nat.eq_dec u t) as [->|n]; [left; apply (sees_join2 st); auto|]. right. exists u. split; auto. apply keep; auto.
    + exists own, op. constructor; auto. simpl. split; [intros _; left; discriminate|auto].
Qed.

Lemma load_inv t i st st' : inv st -> step st (WLoad t i) = Some st' -> inv st'.
Proof.
  intros [h1 h2 h3 h4 h5 h6 h7 h8 h9 h10 h11 h12 h13 (own & op & [o1 o2 o3 o4 o5 o6])] H. simpl in H.
  destruct (pcs st t) eqn:hp; try discriminate. destruct (nth_error (msgs st) i) as [[p mv]|] eqn:E; [|discriminate]. destruct (Nat.leb_spec (v_at (views st t)) i) as [l|]; [|discriminate]. injection H as <-.
  destruct (h8 _ hp) as [s1 s2]. assert (li : i < length (msgs st)) by (apply nth_error_Some; congruence). assert (ei : i = length (msgs st) - 1) by lia.
  assert (lp : last_ptr st = p).
  { unfold last_ptr. destruct (rev (msgs st)) as [|m r] eqn:er; [apply (f_equal (@rev _)) in er; rewrite rev_involutive in er; contradiction|].
    assert (em : msgs st = rev r ++ [m]) by (rewrite <- (rev_involutive (msgs st)), er; reflexivity). rewrite em, last_snoc. rewrite em in E. rewrite em, app_length in ei. simpl in ei.
    rewrite nth_error_app2 in E by lia. replace (i - length (rev r)) with 0 in E by lia. simpl in E. injection E as ->. reflexivity. }
  destruct (h3 t) as [ea only]; [rewrite hp; exact I|].
  set (v := join (views st t) (mkView (if dacq then v_boxes mv else []) i)).
  assert (oo : op = true) by (apply o6; eauto).
  constructor; simpl; auto.
  - intros u. unfold fupd. destruct (Nat.eqb_spec u t); [intros []|auto].
  - intros u. unfold fupd. destruct (Nat.eqb_spec u t) as [->|n]; [|rewrite (only u n); intros []]. intros _. split; auto. intros u n. apply Nat.eqb_neq in n as n'. rewrite n'. auto.
  - intros u b k e. specialize (h4 u b k e). unfold fupd. destruct (Nat.eqb_spec u t); subst; auto. simpl. apply in_or_app. auto.
  - intros u b. unfold fupd. destruct (Nat.eqb_spec u t); subst; auto. simpl. intros e. apply in_or_app. left. auto.
  - destruct h7 as [h7|(u & k1 & k2)]; [left; auto|]. rewrite ea in k1. destruct k1.
  - intros u. unfold fupd. destruct (Nat.eqb_spec u t) as [->|n]; [discriminate|rewrite (only u n); discriminate].
  - exists (fun b => if (match p with Some b' => b =? b' | None => false end) then OThread t else own b), false.
    assert (pc : forall b, p = Some b -> own b = OCell) by (intros b e; apply o4; auto; congruence).
    constructor; simpl.
    + intros b y d e. rewrite (o1 b y d e). destruct p as [b2|]; [|tauto]. destruct (Nat.eqb_spec b b2) as [->|]; [|tauto]. rewrite (pc _ eq_refl). split; discriminate.
    + intros u b. unfold fupd. destruct (Nat.eqb_spec u t) as [->|n]; [|rewrite (only u n); discriminate]. simpl. intros ->. rewrite Nat.eqb_refl. split; auto.
    + intros u b lb. destruct p as [b2|]; [destruct (Nat.eqb_spec b b2) as [->|]|].
      * intros e. injection e as <-. rewrite fupd_eq. reflexivity.
      * intros e. apply o3 in e; auto. destruct (Nat.eq_dec u t) as [->|n']; [rewrite hp in e; discriminate|rewrite (only u n') in e; discriminate].
      * intros e. apply o3 in e; auto. destruct (Nat.eq_dec u t) as [->|n']; [rewrite hp in e; discriminate|rewrite (only u n') in e; discriminate].
    + discriminate.
    + intros b lb. destruct p as [b2|]; [destruct (Nat.eqb_spec b b2) as [->|]; [discriminate|]|]; intros e; destruct (o5 _ lb e) as [_ k]; congruence.
    + split; [discriminate|]. intros [k|(u & k)]; [contradiction|]. destruct (Nat.eq_dec u t) as [e|n]; [subst u; rewrite fupd_eq in k; discriminate|rewrite fupd_ne, (only u n) in k by auto; discriminate].
Qed.

Lemma inv_step st m st' : inv st -> step st m = Some st' -> inv st'.
Proof.
  intros iv H. destruct m as [t value|t|t i|t u|t u|t u|t|t].
  - simpl in H. destruct (pcs st t) eqn:hp; try discriminate. destruct (is_in t (arcs st)) eqn:ha; [|discriminate]. apply is_in_true in ha.
    pose proof (call_inv t value st iv hp ha) as K. destruct (alloc t value st) as [s1 q]. injection H as <-. exact K.
  - destruct (pcs st t) eqn:hp; try (simpl in H; rewrite hp in H; discriminate).
    + destruct (rev (msgs st)) as [|[p mv] r] eqn:er; [simpl in H; rewrite hp, er in H; discriminate|]. eapply swap_inv; eauto.
    + simpl in H. rewrite hp in H. assert (E : Some (let st := free t p st in set_thread t (views st t) KIdle st) = Some st') by (destruct (rev (msgs st)) as [|[? ?] ?]; auto). injection E as <-. apply free_inv; auto.
    + simpl in H. rewrite hp in H. assert (E : Some (let st := free t p st in set_thread t (views st t) KIdle st) = Some st') by (destruct (rev (msgs st)) as [|[? ?] ?]; auto). injection E as <-. apply free_inv; auto.
  - eapply load_inv; eauto.
  - simpl in H. destruct (is_in t (arcs st)) eqn:ha; [|discriminate]. apply is_in_true in ha. injection H as <-. pose proof (learn st u (views st t) iv) as K. apply (more_arcs u) in K; auto.
    + simpl. intros e. rewrite e in ha. destruct ha.
    + simpl. intros b e. rewrite fupd_eq. simpl. apply in_or_app. right. apply (i_init _ iv); auto. left. auto.
  - simpl in H. destruct (is_in t (arcs st) || is_in t (weaks st)) eqn:ha; [|discriminate]. injection H as <-. pose proof (learn st u (views st t) iv) as K. apply (more_weaks u) in K; auto.
    simpl. intros b e. rewrite fupd_eq. simpl. apply in_or_app. right. apply (i_init _ iv); auto. apply orb_true_iff in ha as [ha|ha]; apply is_in_true in ha; [left|right]; auto.
  - simpl in H. injection H as <-. apply learn. auto.
  - simpl in H. destruct (arcs st) as [|a l] eqn:ea; [discriminate|]. destruct (is_in t (weaks st)) eqn:hw; [|discriminate]. apply is_in_true in hw. injection H as <-. rewrite <- ea. apply more_arcs; auto; [congruence|].
    intros b e. apply (i_init _ iv); auto. right. auto.
  - eapply drop_inv; eauto.
Qed.

Lemma inv_init : inv (w_init v0).
Proof.
  unfold w_init. destruct v0 as [x|] eqn:ev; simpl.
  - constructor; simpl; auto; try discriminate; try tauto.
    + intros t b [[<-|[]]|[]] e. unfold first_ptr in e. simpl in e. injection e as <-. simpl. auto.
    + intros [|i]; discriminate.
    + right. exists 0. split; auto. split; simpl; auto. unfold last_ptr. simpl. intros b e. injection e as <-. auto.
    + unfold last_ptr. simpl. intros b e. injection e as <-. auto.
    + exists (fun b => if b =? 0 then OCell else OGone), true. constructor; simpl; try discriminate.
      * intros [|[|b]] y d e; simpl in e; try discriminate. injection e as <- <-. split; discriminate.
      * intros t [|b] l; [discriminate|lia].
      * unfold last_ptr. simpl. intros b _ e. injection e as <-. reflexivity.
      * intros [|b] l; [auto|lia].
      * split; auto. intros _. left. discriminate.
  - constructor; simpl; auto; try discriminate; try tauto.
    + intros [|i]; discriminate.
    + left. split; simpl; auto. unfold last_ptr. discriminate.
    + exists (fun _ => OGone), true. constructor; simpl; try discriminate.
      * intros [|b] x d e; discriminate.
      * split; auto. intros _. left. discriminate.
Qed.

Lemma reach mvs st : exec step (w_init v0) mvs = Some st -> inv st.
Proof. apply (exec_inv step inv inv_step). apply inv_init. Qed.

(** ** The theorems *)
Lemma weak_no_race mvs st : exec step (w_init v0) mvs = Some st -> raced st = false /\ misused st = false.
Proof. intros H. pose proof (reach _ _ H) as iv. split; apply iv. Qed.

Lemma weak_order mvs st : exec step (w_init v0) mvs = Some st -> handed v0 (log st).
Proof. intros H. apply (reach _ _ H). Qed.

Lemma puts st m st' : step st m = Some st' -> map fst (boxes st') = map fst (boxes st) ++ put_in [m].
Proof.
  intros H. unfold put_in. simpl. rewrite app_nil_r. destruct m as [t value|t|t i|t u|t u|t u|t|t]; simpl in H; rewrite ?app_nil_r.
  - destruct (pcs st t); try discriminate. destruct (is_in t (arcs st)); [|discriminate]. destruct value as [x|]; simpl in H; injection H as <-; simpl; rewrite ?map_app, ?app_nil_r; reflexivity.
  - assert (F : forall p, map fst (boxes (set_thread t (views (free t p st) t) KIdle (free t p st))) = map fst (boxes st)).
    { intros [b|]; simpl; auto. destruct (nth_error (boxes st) b) as [[x d]|] eqn:E; simpl; auto. eapply map_fst_lupd; eauto. }
    destruct (pcs st t); destruct (rev (msgs st)) as [|[? ?] ?]; try discriminate; injection H as <-; try apply F; reflexivity.
  - destruct (pcs st t); try discriminate. destruct (nth_error (msgs st) i) as [[p mv]|]; [|discriminate]. destruct (_ <=? _); [|discriminate]. injection H as <-. reflexivity.
  - destruct (is_in t (arcs st)); [|discriminate]. injection H as <-. reflexivity.
  - destruct (_ || _); [|discriminate]. injection H as <-. reflexivity.
  - injection H as <-. reflexivity.
  - destruct (arcs st); [discriminate|]. destruct (is_in t (weaks st)); [|discriminate]. injection H as <-. reflexivity.
  - destruct (pcs st t); try discriminate. destruct (is_in t (arcs st)); [|discriminate]. destruct (drop_one t (arcs st)); injection H as <-; reflexivity.
Qed.

Lemma weak_puts mvs st : exec step (w_init v0) mvs = Some st -> map fst (boxes st) = olist v0 ++ put_in mvs.
Proof.
  assert (K : forall mvs st0 st, exec step st0 mvs = Some st -> map fst (boxes st) = map fst (boxes st0) ++ put_in mvs).
  { clear. induction mvs as [|m mvs IH]; intros st0 st; cbn [exec]; [intros e; injection e as <-; symmetry; apply app_nil_r|]. destruct (step st0 m) as [st1|] eqn:E; [|discriminate]. intros H.
    rewrite (IH _ _ H), (puts _ _ _ E). unfold put_in. simpl. rewrite app_nil_r, app_assoc. reflexivity. }
  intros H. rewrite (K _ _ _ H). f_equal. unfold w_init. destruct v0; reflexivity.
Qed.

Lemma weak_end mvs st : exec step (w_init v0) mvs = Some st -> arcs st = [] -> (forall t, pcs st t = KIdle) ->
  (forall b x d, nth_error (boxes st) b = Some (x, d) -> d = true) /\ Permutation (gone st) (olist v0 ++ put_in mvs).
Proof.
  intros H ha hp. pose proof (reach _ _ H) as iv. destruct (i_own _ iv) as (own & op & [o1 o2 o3 o4 o5 o6]).
  assert (K : forall b x d, nth_error (boxes st) b = Some (x, d) -> d = true).
  { intros b x d e. assert (l : b < length (boxes st)) by (apply nth_error_Some; congruence). apply (o1 _ _ _ e). destruct (own b) eqn:ob; auto.
    - apply o3 in ob; auto. rewrite hp in ob. discriminate.
    - destruct (o5 _ l ob) as [oo _]. apply o6 in oo as [k|(t & k)]; [contradiction|]. rewrite hp in k. discriminate. }
  split; auto. rewrite (i_gone _ iv), <- (weak_puts _ _ H). replace (filter snd (boxes st)) with (boxes st); auto.
  symmetry. clear - K. induction (boxes st) as [|[x d] l IH]; auto. simpl. rewrite (K 0 x d eq_refl). simpl. f_equal. apply IH. intros b y d' e. exact (K (S b) y d' e).
Qed.
End Facts.
