From Verif Require Import Base Spec Conc BroadPanic.
From Coq Require Import Lia.

Section Facts.
Context {A : Type}.
Implicit Types (s : bx_st A) (h : list (nat * bx_ans A)) (log : list A).

(** How much of the input's output the child has been given. *)
Definition bx_seen h : nat := list_max (map fst (filter (fun e => match snd e with XGave _ | XThrew _ => true | _ => false end) h)).

Lemma seen_snoc h n a : bx_seen (h ++ [(n, a)]) = match a with XGave _ | XThrew _ => Nat.max (bx_seen h) n | _ => bx_seen h end.
Proof.
  unfold bx_seen. rewrite filter_app, map_app, list_max_app. destruct a; cbn; rewrite ?Nat.max_0_r; reflexivity.
Qed.
Lemma given_snoc h n a : bx_given (h ++ [(n, a)]) = bx_given h ++ match a with XGave v | XThrew v => [v] | _ => [] end.
Proof. unfold bx_given. rewrite flat_map_app. cbn. now rewrite app_nil_r. Qed.

Lemma newest_snoc (l : list A) v : bx_newest (l ++ [v]) = Some v.
Proof. unfold bx_newest. now rewrite rev_app_distr. Qed.
Lemma newest_app (l l2 : list A) : bx_newest (l ++ l2) = match bx_newest l2 with Some v => Some v | None => bx_newest l end.
Proof.
  unfold bx_newest. rewrite rev_app_distr. destruct (rev l2); reflexivity.
Qed.
Lemma newest_split (l : list A) v : bx_newest l = Some v -> exists p, l = p ++ [v].
Proof.
  unfold bx_newest. intros E. destruct (rev l) as [|x r] eqn:R; [discriminate|]. injection E as ->.
  exists (rev r). rewrite <- (rev_involutive l), R. reflexivity.
Qed.
Lemma newest_some (l : list A) : l <> [] -> exists v, bx_newest l = Some v.
Proof.
  unfold bx_newest. intros H. destruct (rev l) as [|x r] eqn:R; [|now exists x].
  apply (f_equal (@rev A)) in R. rewrite rev_involutive in R. now elim H.
Qed.

Lemma subseq_app_r (l1 l2 l3 : list A) : subseq l1 l2 -> subseq l1 (l2 ++ l3).
Proof.
  revert l2. induction l3 as [|x l3 IH]; intros l2 H; [now rewrite app_nil_r|].
  change (l2 ++ x :: l3) with (l2 ++ [x] ++ l3). rewrite app_assoc. apply IH. now apply subseq_skip_snoc.
Qed.

Definition hist_ok log (done : bool) h : Prop := forall h1 n a h2, h = h1 ++ (n, a) :: h2 ->
  n <= length log /\
  match a with
  | XGave v | XThrew v => bx_newest (firstn n log) = Some v /\ bx_seen h1 < n
  | XPending => bx_newest (bx_given h1) = bx_newest (firstn n log)
  | XEnd => bx_newest (bx_given h1) = bx_newest (firstn n log) /\ done = true /\ n = length log
  | XPanic => True
  end.

Definition kid_ok log (done bad : bool) top epoch h : Prop :=
  hist_ok log done h /\ bx_seen h <= length log /\ subseq (bx_given h) (firstn (bx_seen h) log)
  /\ bx_newest (bx_given h) = bx_newest (firstn (bx_seen h) log)
  /\ (bad = false -> epoch <= top /\ (epoch = top -> bx_seen h = length log) /\ (epoch < top -> bx_seen h < length log)).

Lemma firstn_more n log (vs : list A) : n <= length log -> firstn n (log ++ vs) = firstn n log.
Proof. intros H. rewrite firstn_app. replace (n - length log) with 0 by lia. cbn. apply app_nil_r. Qed.

Lemma hist_ok_more log vs done' h : hist_ok log false h -> hist_ok (log ++ vs) done' h.
Proof.
  intros H h1 n a h2 E. destruct (H _ _ _ _ E) as [Hn Ha]. split; [rewrite app_length; lia|].
  rewrite (firstn_more n log vs Hn). destruct a; try exact Ha. destruct Ha as (_ & X & _). discriminate.
Qed.

(** A poll of the input. *)
Lemma kid_ok_more log vs e top epoch h : kid_ok log false false top epoch h -> (top = 0 <-> log = []) ->
  kid_ok (log ++ vs) (match e with InEnd => true | _ => false end) (match e with InPanic => true | _ => false end)
    (match e, vs with InPanic, _ | _, [] => top | _, _ :: _ => S top end) epoch h.
Proof.
  intros (H1 & H2 & H3 & H4 & H5) Ht. destruct (H5 eq_refl) as (H6 & H7 & H8). split; [now apply hist_ok_more|].
  split; [rewrite app_length; lia|]. rewrite (firstn_more _ log vs H2). split; [exact H3|]. split; [exact H4|].
  intros Hb. destruct e; try discriminate Hb; destruct vs as [|v vs]; rewrite ?app_nil_r; (split; [lia|]); split; intros E;
    try (apply H7; exact E); try (apply H8; exact E); try lia; rewrite ?app_length; cbn [length]; lia.
Qed.

Lemma snoc_inv {B} (l1 l2 l : list B) x y : l ++ [x] = l1 ++ y :: l2 -> (l2 = [] /\ l = l1 /\ x = y) \/ exists l3, l2 = l3 ++ [x] /\ l = l1 ++ y :: l3.
Proof.
  destruct l2 as [|z l2] using rev_ind; intros E.
  - apply app_inj_tail in E as [-> ->]. now left.
  - right. rewrite app_comm_cons, app_assoc in E. apply app_inj_tail in E as [-> ->]. now exists l2.
Qed.

Lemma hist_snoc log done h n a : hist_ok log done h -> n = length log ->
  match a with
  | XGave v | XThrew v => bx_newest log = Some v /\ bx_seen h < length log
  | XPending => bx_newest (bx_given h) = bx_newest log
  | XEnd => bx_newest (bx_given h) = bx_newest log /\ done = true
  | XPanic => True
  end -> hist_ok log done (h ++ [(n, a)]).
Proof.
  intros H -> Ha h1 m b h2 E. destruct (snoc_inv _ _ _ _ _ E) as [(-> & -> & [= <- <-])|(h3 & -> & ->)].
  - split; [lia|]. rewrite firstn_all. destruct a; try exact Ha. destruct Ha as [Ha1 Ha2]. now split.
  - exact (H _ _ _ _ eq_refl).
Qed.

(** An answer without a value. *)
Lemma kid_ok_none log done bad top epoch h a : kid_ok log done bad top epoch h ->
  match a with
  | XGave v | XThrew v => False
  | XPending => bad = false /\ epoch = top
  | XEnd => bad = false /\ epoch = top /\ done = true
  | XPanic => True
  end -> kid_ok log done bad top epoch (h ++ [(length log, a)]).
Proof.
  intros (H1 & H2 & H3 & H4 & H5) Ha.
  assert (Q : match a with XGave _ | XThrew _ => False | _ => True end) by (destruct a; easy).
  assert (S : bx_seen (h ++ [(length log, a)]) = bx_seen h) by (rewrite seen_snoc; destruct a; easy).
  assert (G : bx_given (h ++ [(length log, a)]) = bx_given h) by (rewrite given_snoc; destruct a; try easy; apply app_nil_r).
  split; [|rewrite S, G; auto].
  apply hist_snoc; [exact H1|reflexivity|]. destruct a; try easy.
  - destruct Ha as [Hb He]. destruct (H5 Hb) as (_ & H7 & _). rewrite H4, (H7 He), firstn_all. reflexivity.
  - destruct Ha as (Hb & He & Hd). destruct (H5 Hb) as (_ & H7 & _). rewrite H4, (H7 He), firstn_all. now split.
Qed.

(** An answer with a value. *)
Lemma kid_ok_some log done bad top epoch h v a : kid_ok log done false top epoch h -> epoch <> top -> bx_newest log = Some v ->
  a = XGave v \/ a = XThrew v -> kid_ok log done bad top top (h ++ [(length log, a)]).
Proof.
  intros (H1 & H2 & H3 & H4 & H5) He Hv Ha. destruct (H5 eq_refl) as (H6 & _ & H8). specialize (H8 ltac:(lia)).
  assert (S : bx_seen (h ++ [(length log, a)]) = length log) by (rewrite seen_snoc; destruct Ha as [-> | ->]; lia).
  assert (G : bx_given (h ++ [(length log, a)]) = bx_given h ++ [v]) by (rewrite given_snoc; now destruct Ha as [-> | ->]).
  split; [apply hist_snoc; [exact H1|reflexivity|]; destruct Ha as [-> | ->]; now split|].
  rewrite S, G, firstn_all. split; [lia|]. split; [|split; [now rewrite newest_snoc|intros _; lia]].
  destruct (newest_split _ _ Hv) as [p Hp]. rewrite Hp in H8, H3 |- *. rewrite app_length in H8. cbn in H8.
  apply subseq_take_snoc. rewrite firstn_more in H3 by lia. rewrite <- (firstn_skipn (bx_seen h) p). now apply subseq_app_r.
Qed.

Definition fresh_kid s : Prop := forall k, x_nkid s <= k -> x_alive (x_kids s k) = false /\ x_hist (x_kids s k) = [] /\ x_pc (x_kids s k) = XIdle.
Definition bx_inv s : Prop :=
  (forall k, kid_ok (x_log s) (x_done s) (x_bad s) (x_top s) (x_epoch (x_kids s k)) (x_hist (x_kids s k)))
  /\ (x_bad s = false -> x_value s = bx_newest (x_log s) /\ (x_top s = 0 <-> x_log s = []))
  /\ fresh_kid s
  /\ (x_wbad s = false -> forall k, x_alive (x_kids s k) = true -> In k (x_list s))
  /\ (forall k, x_pc (x_kids s k) <> XIdle -> x_alive (x_kids s k) = true).

(** [bx_wake] changes only wakers. *)
Lemma wake_same ks n f k : let '(l, f', p) := bx_wake ks n f in
  x_alive (f' k) = x_alive (f k : bx_kid A) /\ x_epoch (f' k) = x_epoch (f k) /\ x_pc (f' k) = x_pc (f k) /\ x_hist (f' k) = x_hist (f k).
Proof.
  revert n f. induction ks as [|j r IH]; intros n f; [cbn; auto|]. cbn [bx_wake].
  assert (Q : forall f1, f1 = fupd j (mkXk true (x_epoch (f j)) false (x_pc (f j)) (x_woken (f j) || x_waker (f j)) (x_hist (f j))) f -> x_alive (f j) = true ->
    x_alive (f1 k) = x_alive (f k) /\ x_epoch (f1 k) = x_epoch (f k) /\ x_pc (f1 k) = x_pc (f k) /\ x_hist (f1 k) = x_hist (f k)).
  { intros f1 -> Ha. unfold fupd. destruct (k =? j) eqn:E; [|auto]. apply Nat.eqb_eq in E as ->. cbn. auto. }
  destruct (x_alive (f j)) eqn:Ea; [|apply IH].
  set (f1 := fupd j _ f). specialize (Q f1 eq_refl eq_refl). destruct Q as (Q1 & Q2 & Q3 & Q4).
  assert (T : forall m, let '(l, f', p) := (let '(l, f', p) := bx_wake r m f1 in (j :: l, f', p)) in
    x_alive (f' k) = x_alive (f k) /\ x_epoch (f' k) = x_epoch (f k) /\ x_pc (f' k) = x_pc (f k) /\ x_hist (f' k) = x_hist (f k)).
  { intros m. specialize (IH m f1). destruct (bx_wake r m f1) as [[l f'] p]. rewrite <- Q1, <- Q2, <- Q3, <- Q4. exact IH. }
  destruct (x_waker (f j)); [|apply T]. destruct n as [[|n]|]; [|apply T|apply T]. auto.
Qed.

Lemma wake_list ks n f k : let '(l, f', p) := bx_wake ks n f in In k ks -> x_alive (f k : bx_kid A) = true -> In k l.
Proof.
  revert n f. induction ks as [|j r IH]; intros n f; [cbn; auto|]. cbn [bx_wake].
  destruct (x_alive (f j)) eqn:Ea.
  2: { specialize (IH n f). destruct (bx_wake r n f) as [[l f'] p]. intros [->|H] Hk; [congruence|auto]. }
  set (f1 := fupd j _ f).
  assert (Q : x_alive (f1 k) = x_alive (f k)).
  { unfold f1, fupd. destruct (k =? j) eqn:E; [|auto]. apply Nat.eqb_eq in E as ->. cbn. auto. }
  assert (T : forall m, let '(l, f', p) := (let '(l, f', p) := bx_wake r m f1 in (j :: l, f', p)) in In k (j :: r) -> x_alive (f k) = true -> In k l).
  { intros m. specialize (IH m f1). destruct (bx_wake r m f1) as [[l f'] p]. intros [->|H] Hk; [now left|]. right. apply IH; [exact H|now rewrite Q]. }
  destruct (x_waker (f j)); [|apply T]. destruct n as [[|n]|]; [|apply T|apply T]. auto.
Qed.

Lemma init_inv : bx_inv (@bx_init A).
Proof.
  split; [|split; [|split; [|split]]].
  - intros k. cbn. split; [intros h1 n a h2 E; destruct h1; discriminate|]. cbn. repeat split; try lia; try reflexivity. constructor.
  - cbn. now repeat split.
  - intros k _. now repeat split.
  - discriminate.
  - intros k H. now elim H.
Qed.

Lemma fupd_cases (P : bx_kid A -> Prop) k g f : P g -> (forall j, j <> k -> P (f j)) -> forall j, P (fupd k g f j).
Proof. intros Hg Hf j. unfold fupd. destruct (j =? k) eqn:E; [exact Hg|]. apply Hf. now apply Nat.eqb_neq. Qed.

(** Answers. *)
Lemma answer_inv s k ep w a bad : bx_inv s -> x_pc (x_kids s k) <> XIdle -> (x_bad s = true -> bad = true) ->
  kid_ok (x_log s) (x_done s) bad (x_top s) ep (x_hist (x_kids s k) ++ [(length (x_log s), a)]) ->
  bx_inv (bx_answer s k ep w a bad).
Proof.
  intros (I1 & I2 & I3 & I4 & I5) Hp Hb Hk. split; [|split; [|split; [|split]]]; cbn.
  - apply (fupd_cases (fun g => kid_ok _ _ bad _ (x_epoch g) (x_hist g))); [exact Hk|]. intros j _.
    destruct (I1 j) as (H1 & H2 & H3 & H4 & H5). split; [exact H1|]. split; [exact H2|]. split; [exact H3|]. split; [exact H4|].
    intros ->. apply H5. destruct (x_bad s); [now rewrite Hb|reflexivity].
  - intros ->. apply I2. destruct (x_bad s); [now rewrite Hb|reflexivity].
  - intros j Hj. cbn in *. unfold fupd. destruct (j =? k) eqn:E; [|now apply I3].
    apply Nat.eqb_eq in E as ->. destruct (I3 k Hj) as (_ & _ & X). now elim Hp.
  - intros Hw j. unfold fupd. destruct (j =? k) eqn:E; [|now apply I4]. apply Nat.eqb_eq in E as ->. intros _. apply I4; [exact Hw|]. now apply I5.
  - intros j. unfold fupd. destruct (j =? k) eqn:E; [reflexivity|apply I5].
Qed.

Lemma look_inv s k w ok s' : bx_inv s -> x_bad s = false -> x_pc (x_kids s k) <> XIdle -> bx_look s k w ok = Some s' -> bx_inv s'.
Proof.
  intros I Hb Hp E. pose proof I as (I1 & I2 & _). destruct (I2 Hb) as [Hv _]. specialize (I1 k). unfold bx_look in E.
  destruct (x_epoch (x_kids s k) =? x_top s) eqn:Ee.
  - apply Nat.eqb_eq in Ee. destruct (x_done s) eqn:Ed; injection E as <-; (apply answer_inv; [exact I|exact Hp|auto|]); apply kid_ok_none; rewrite ?Ed; auto.
  - apply Nat.eqb_neq in Ee. destruct (x_value s) as [v|] eqn:Ev; [|discriminate]. rewrite Hb in I1.
    destruct ok; injection E as <-; (apply answer_inv; [exact I|exact Hp|now intros X; rewrite X in Hb|]);
      eapply kid_ok_some; eauto.
Qed.

Lemma ask_inv s vs e : bx_inv s -> x_bad s = false -> bx_inv (bx_ask s vs e).
Proof.
  intros I Hb. unfold bx_ask. destruct (x_done s) eqn:Ed; [exact I|]. pose proof I as (I1 & I2 & I3 & I4 & I5). destruct (I2 Hb) as [Hv Ht].
  split; [|split; [|split; [exact I3|split; [exact I4|exact I5]]]]; cbn.
  - intros k. specialize (I1 k). rewrite Ed, Hb in I1. pose proof (kid_ok_more _ vs e _ _ _ I1 Ht) as Q. rewrite Hb. destruct e; exact Q.
  - intros Hb2. split; [rewrite newest_app, Hv; reflexivity|].
    destruct e; try discriminate Hb2; destruct vs; rewrite ?app_nil_r; try exact Ht; (split; [discriminate|]); intros X; now destruct (x_log s).
Qed.

Lemma ask_kids s vs e : x_kids (bx_ask s vs e) = x_kids s.
Proof. unfold bx_ask. now destruct (x_done s). Qed.

Lemma step_inv s m s' : bx_inv s -> bx_step s m = Some s' -> bx_inv s'.
Proof.
  intros I E. pose proof I as (I1 & I2 & I3 & I4 & I5). destruct m as [|k|k|k vs e ok|n]; cbn [bx_step] in E.
  - destruct (x_wbad s) eqn:Ew; injection E as <-.
    + split; [exact I1|split; [exact I2|split; [exact I3|split; [discriminate|exact I5]]]].
    + split; [|split; [exact I2|split; [|split]]]; cbn.
      * apply (fupd_cases (fun g => kid_ok _ _ _ _ (x_epoch g) (x_hist g))); [|intros j _; apply I1]. cbn.
        split; [intros h1 n a h2 X; destruct h1; discriminate|]. cbn. split; [lia|]. split; [constructor|]. split; [reflexivity|].
        intros Hb. destruct (I2 Hb) as [_ Ht]. split; [lia|]. split; intros X.
        -- symmetry in X. apply Ht in X. now rewrite X.
        -- destruct (x_log s); [destruct Ht as [_ Ht]; rewrite Ht in X; [lia|reflexivity]|cbn; lia].
      * intros j Hj. cbn in *. unfold fupd. destruct (j =? x_nkid s) eqn:Ej; [apply Nat.eqb_eq in Ej; lia|apply I3; lia].
      * intros _ j. unfold fupd. destruct (j =? x_nkid s) eqn:Ej; intros Hj; apply in_or_app; [right; left; symmetry; now apply Nat.eqb_eq|left; now apply I4].
      * intros j. unfold fupd. destruct (j =? x_nkid s); [reflexivity|apply I5].
  - destruct (x_alive (x_kids s k)) eqn:Ea; [|discriminate]. destruct (x_pc (x_kids s k)) eqn:Ep; try discriminate. injection E as <-.
    split; [|split; [exact I2|split; [|split]]]; cbn.
    + apply (fupd_cases (fun g => kid_ok _ _ _ _ (x_epoch g) (x_hist g))); [apply I1|intros j _; apply I1].
    + intros j Hj. cbn in *. unfold fupd. destruct (j =? k) eqn:Ej; [|now apply I3]. apply Nat.eqb_eq in Ej as ->. destruct (I3 k Hj) as (X & _). congruence.
    + intros Hw j. unfold fupd. destruct (j =? k); [discriminate|now apply I4].
    + intros j. unfold fupd. destruct (j =? k); [intros X; now elim X|apply I5].
  - destruct (x_alive (x_kids s k)) eqn:Ea; [|discriminate]. destruct (x_pc (x_kids s k)) eqn:Ep; try discriminate. injection E as <-.
    split; [|split; [exact I2|split; [|split]]]; cbn.
    + apply (fupd_cases (fun g => kid_ok _ _ _ _ (x_epoch g) (x_hist g))); [apply I1|intros j _; apply I1].
    + intros j Hj. cbn in *. unfold fupd. destruct (j =? k) eqn:Ej; [|now apply I3]. apply Nat.eqb_eq in Ej as ->. destruct (I3 k Hj) as (X & _). congruence.
    + intros Hw j. unfold fupd. destruct (j =? k) eqn:Ej; [|now apply I4]. apply Nat.eqb_eq in Ej as ->. intros _. now apply I4.
    + intros j. unfold fupd. destruct (j =? k); [reflexivity|apply I5].
  - destruct (x_pc (x_kids s k)) eqn:Ep; [discriminate| |]; assert (Hp : x_pc (x_kids s k) <> XIdle) by congruence; destruct (x_bad s) eqn:Eb.
    + injection E as <-. apply answer_inv; [exact I|exact Hp|reflexivity|]. specialize (I1 k). now apply kid_ok_none.
    + pose proof (ask_inv s vs e I Eb) as I'. destruct (x_bad (bx_ask s vs e)) eqn:Eb2.
      * injection E as <-. apply answer_inv; [exact I'|now rewrite ask_kids|reflexivity|]. pose proof I' as (K1 & _). specialize (K1 k). rewrite Eb2 in K1.
        rewrite ask_kids in K1 |- *. now apply kid_ok_none.
      * eapply look_inv; [exact I'|exact Eb2| |exact E]. now rewrite ask_kids.
    + injection E as <-. apply answer_inv; [exact I|exact Hp|reflexivity|]. specialize (I1 k). now apply kid_ok_none.
    + eapply look_inv; eauto.
  - destruct (x_wbad s) eqn:Ew.
    { injection E as <-. split; [exact I1|split; [exact I2|split; [exact I3|split; [discriminate|exact I5]]]]. }
    pose proof (wake_same (x_list s) n (x_kids s)) as W. pose proof (wake_list (x_list s) n (x_kids s)) as L.
    destruct (bx_wake (x_list s) n (x_kids s)) as [[l f] p]. injection E as <-.
    split; [|split; [exact I2|split; [|split]]]; cbn.
    + intros j. destruct (W j) as (_ & W2 & _ & W4). rewrite W2, W4. apply I1.
    + intros j Hj. cbn in *. destruct (W j) as (W1 & _ & W3 & W4). rewrite W1, W3, W4. now apply I3.
    + intros _ j Hj. destruct (W j) as (W1 & _). rewrite W1 in Hj. apply L; [now apply I4|exact Hj].
    + intros j. destruct (W j) as (W1 & _ & W3 & _). rewrite W1, W3. apply I5.
Qed.

Lemma reach_inv l s : exec bx_step bx_init l = Some s -> bx_inv s.
Proof. intros E. exact (exec_inv bx_step bx_inv step_inv l _ _ init_inv E). Qed.

(** ** The properties *)

Lemma seen_in h n a v : In (n, a) h -> a = XGave v \/ a = XThrew v -> n <= bx_seen h.
Proof.
  intros Hi Ha. apply in_split in Hi as (h1 & h2 & ->). unfold bx_seen. rewrite filter_app, map_app, list_max_app. cbn [filter snd].
  destruct Ha as [-> | ->]; cbn [map fst list_max]; change (list_max (?x :: ?y)) with (Nat.max x (list_max y)); lia.
Qed.

Lemma bx_latest l s k h1 n a h2 : exec bx_step bx_init l = Some s -> x_hist (x_kids s k) = h1 ++ (n, a) :: h2 ->
  n <= length (x_log s) /\
  match a with
  | XGave v | XThrew v => bx_newest (firstn n (x_log s)) = Some v /\ forall m b u, In (m, b) h1 -> b = XGave u \/ b = XThrew u -> m < n
  | XPending => bx_newest (bx_given h1) = bx_newest (firstn n (x_log s))
  | XEnd => bx_newest (bx_given h1) = bx_newest (firstn n (x_log s)) /\ x_done s = true /\ n = length (x_log s)
  | XPanic => True
  end.
Proof.
  intros E Eh. destruct (reach_inv _ _ E) as (I1 & _). destruct (I1 k) as (H1 & _). destruct (H1 _ _ _ _ Eh) as [Hn Ha]. split; [exact Hn|].
  destruct a; auto; destruct Ha as [Ha Hs]; (split; [exact Ha|]); intros m b u Hi Hb; pose proof (seen_in _ _ _ _ Hi Hb); lia.
Qed.

Lemma bx_once l s k : exec bx_step bx_init l = Some s -> subseq (bx_given (x_hist (x_kids s k))) (x_log s).
Proof.
  intros E. destruct (reach_inv _ _ E) as (I1 & _). destruct (I1 k) as (_ & _ & H & _).
  rewrite <- (firstn_skipn (bx_seen (x_hist (x_kids s k))) (x_log s)). now apply subseq_app_r.
Qed.

Lemma look_runs s k w ok : bx_inv s -> x_bad s = false -> exists s' a, bx_look s k w ok = Some s' /\
  x_hist (x_kids s' k) = x_hist (x_kids s k) ++ [(length (x_log s'), a)] /\ x_pc (x_kids s' k) = XIdle
  /\ a <> XPanic /\ x_log s' = x_log s /\ (x_bad s' = true <-> w = true /\ exists v, a = XThrew v)
  /\ (a = XPending -> x_done s' = false /\ x_waker (x_kids s' k) = true).
Proof.
  intros (I1 & I2 & _) Hb. destruct (I2 Hb) as [Hv _]. destruct (I1 k) as (_ & _ & _ & _ & H5). rewrite Hb in H5. destruct (H5 eq_refl) as (Q1 & Q2 & Q3).
  unfold bx_look. rewrite Hb. destruct (x_epoch (x_kids s k) =? x_top s) eqn:Ee.
  - destruct (x_done s) eqn:Ed; eexists; eexists; (split; [reflexivity|]); cbn; unfold fupd; rewrite Nat.eqb_refl; cbn;
      (split; [reflexivity|]); (split; [reflexivity|]); (split; [discriminate|]); (split; [reflexivity|]); (split; [split; [discriminate|intros (_ & v & X); discriminate]|]); [discriminate|intros _; now split].
  - apply Nat.eqb_neq in Ee. destruct (newest_some (x_log s)) as [v Ev]; [intros X; rewrite X in Q3; cbn in Q3; lia|].
    rewrite Hv, Ev. destruct ok; eexists; eexists; (split; [reflexivity|]); cbn; unfold fupd; rewrite Nat.eqb_refl; cbn;
      (split; [reflexivity|]); (split; [reflexivity|]); (split; [discriminate|]); (split; [reflexivity|]).
    + split; [|discriminate]. split; [discriminate|]. intros (_ & u & X); discriminate.
    + split; [|discriminate]. rewrite orb_false_r. split; [intros ->; split; [reflexivity|now exists v]|now intros [-> _]].
Qed.

(** Nothing of the library panics or hangs of itself. *)
Lemma bx_runs l s k vs e ok : exec bx_step bx_init l = Some s -> x_pc (x_kids s k) <> XIdle ->
  exists s' a, bx_step s (XRun k vs e ok) = Some s' /\ x_hist (x_kids s' k) = x_hist (x_kids s k) ++ [(length (x_log s'), a)]
    /\ x_pc (x_kids s' k) = XIdle
    /\ (a = XPanic <-> x_bad s = true \/ (x_pc (x_kids s k) = XWrite /\ x_done s = false /\ e = InPanic))
    /\ (x_bad s' = true <-> x_bad s = true \/ (x_pc (x_kids s k) = XWrite /\ (x_done s = false /\ e = InPanic \/ exists v, a = XThrew v)))
    /\ (a = XPending -> x_done s' = false /\ x_waker (x_kids s' k) = true)
    /\ x_log s' = (if negb (x_bad s) && negb (x_done s) then match x_pc (x_kids s k) with XWrite => x_log s ++ vs | _ => x_log s end else x_log s).
Proof.
  intros E Hp. pose proof (reach_inv _ _ E) as I. cbn [bx_step].
  destruct (x_pc (x_kids s k)) eqn:Ep; [now elim Hp| |]; destruct (x_bad s) eqn:Eb.
  - eexists; eexists. split; [reflexivity|]. cbn. unfold fupd. rewrite Nat.eqb_refl. cbn. repeat split; auto; discriminate.
  - pose proof (ask_inv s vs e I Eb) as I'. pose proof (ask_kids s vs e) as Hk.
    assert (Q : x_bad (bx_ask s vs e) = true <-> x_done s = false /\ e = InPanic).
    { unfold bx_ask. destruct (x_done s); [rewrite Eb; split; [discriminate|intros [X _]; discriminate]|]. cbn. destruct e; rewrite ?Eb; split; try discriminate; try now intros [_ X]. auto. }
    destruct (x_bad (bx_ask s vs e)) eqn:Eb2.
    + destruct Q as [Q _]. specialize (Q eq_refl). eexists; eexists. split; [reflexivity|]. cbn. unfold fupd. rewrite Nat.eqb_refl. cbn. rewrite Hk. destruct Q as [Qd Qe]. unfold bx_ask. rewrite Qd. cbn. repeat split; auto; try tauto; discriminate.
    + destruct (look_runs (bx_ask s vs e) k true ok I' Eb2) as (s' & a & E1 & E2 & E3 & E4 & E5 & E6 & E7). exists s', a. rewrite Hk in E2.
      split; [exact E1|]. split; [exact E2|]. split; [exact E3|]. split; [|split].
      * split; [now intros X|]. intros [X|(_ & X)]; [discriminate|]. apply Q in X. discriminate.
      * rewrite E6. split; [intros [_ X]; right; split; [reflexivity|now right]|]. intros [X|[_ [X|X]]]; [discriminate|apply Q in X; discriminate|]. auto.
      * split; [exact E7|]. rewrite E5. unfold bx_ask. destruct (x_done s); reflexivity.
  - eexists; eexists. split; [reflexivity|]. cbn. unfold fupd. rewrite Nat.eqb_refl. cbn. repeat split; auto; discriminate.
  - destruct (look_runs s k false ok I Eb) as (s' & a & E1 & E2 & E3 & E4 & E5 & E6 & E7). exists s', a.
    split; [exact E1|]. split; [exact E2|]. split; [exact E3|]. split; [|split].
    + split; [now intros X|]. intros [X|(X & _)]; discriminate.
    + rewrite E6. split; [intros [X _]; discriminate|]. intros [X|[X _]]; discriminate.
    + split; [exact E7|]. rewrite E5. now destruct (x_done s).
Qed.

(** Who polls the input: whoever comes first after a notification. *)
Lemma bx_asks s k s' : bx_step s (XPoll k) = Some s' ->
  x_changed s' = false /\ x_pc (x_kids s' k) = (if x_changed s then XWrite else XRead) /\ x_hist (x_kids s' k) = x_hist (x_kids s k) /\ x_log s' = x_log s /\ x_bad s' = x_bad s.
Proof.
  cbn [bx_step]. destruct (x_alive (x_kids s k)); [|discriminate]. destruct (x_pc (x_kids s k)); try discriminate. intros [= <-]. cbn. unfold fupd. rewrite Nat.eqb_refl. cbn. auto.
Qed.

(** Only polls of children poison [inner]. *)
Lemma bx_others s m s' : bx_step s m = Some s' -> (forall k vs e ok, m <> XRun k vs e ok) -> x_bad s' = x_bad s /\ x_log s' = x_log s /\ forall k, x_alive (x_kids s k) = true -> k < x_nkid s -> x_hist (x_kids s' k) = x_hist (x_kids s k).
Proof.
  intros E Hm. destruct m as [|k|k|k vs e ok|n]; cbn [bx_step] in E.
  - destruct (x_wbad s); injection E as <-; cbn; (split; [reflexivity|]); (split; [reflexivity|]); intros j _ Hj; [reflexivity|]. unfold fupd.
    destruct (j =? x_nkid s) eqn:Ej; [apply Nat.eqb_eq in Ej; lia|reflexivity].
  - destruct (x_alive (x_kids s k)); [|discriminate]. destruct (x_pc (x_kids s k)); try discriminate. injection E as <-. cbn. repeat split.
    intros j _ _. unfold fupd. destruct (j =? k) eqn:Ej; [apply Nat.eqb_eq in Ej as ->; reflexivity|reflexivity].
  - destruct (x_alive (x_kids s k)); [|discriminate]. destruct (x_pc (x_kids s k)); try discriminate. injection E as <-. cbn. repeat split.
    intros j _ _. unfold fupd. destruct (j =? k) eqn:Ej; [apply Nat.eqb_eq in Ej as ->; reflexivity|reflexivity].
  - now elim (Hm k vs e ok).
  - destruct (x_wbad s); [injection E as <-; cbn; auto|]. pose proof (wake_same (x_list s) n (x_kids s)) as W.
    destruct (bx_wake (x_list s) n (x_kids s)) as [[l f] p]. injection E as <-. cbn. repeat split. intros j _ _. now destruct (W j) as (_ & _ & _ & ->).
Qed.

(** Once [inner] is poisoned. *)
Lemma dead_step s m s' : bx_inv s -> x_bad s = true -> bx_step s m = Some s' ->
  x_bad s' = true /\ x_log s' = x_log s /\ forall k, exists h, x_hist (x_kids s' k) = x_hist (x_kids s k) ++ h /\ Forall (fun e => snd e = XPanic) h.
Proof.
  intros I Hb E. destruct m as [|k|k|k vs e ok|n].
  1,2,3,5: destruct (bx_others _ _ _ E ltac:(discriminate)) as (Q1 & Q2 & _); rewrite Q1, Q2, Hb; (split; [reflexivity|]); (split; [reflexivity|]); intros j;
    exists []; rewrite app_nil_r; (split; [|constructor]); cbn [bx_step] in E.
  - destruct (x_wbad s); injection E as <-; cbn; [reflexivity|]. unfold fupd. destruct (j =? x_nkid s) eqn:Ej; [|reflexivity].
    apply Nat.eqb_eq in Ej as ->. destruct I as (_ & _ & I3 & _). cbn. symmetry. now apply I3.
  - destruct (x_alive (x_kids s k)); [|discriminate]. destruct (x_pc (x_kids s k)); try discriminate. injection E as <-. cbn.
    unfold fupd. destruct (j =? k) eqn:Ej; [apply Nat.eqb_eq in Ej as ->; reflexivity|reflexivity].
  - destruct (x_alive (x_kids s k)); [|discriminate]. destruct (x_pc (x_kids s k)); try discriminate. injection E as <-. cbn.
    unfold fupd. destruct (j =? k) eqn:Ej; [apply Nat.eqb_eq in Ej as ->; reflexivity|reflexivity].
  - destruct (x_wbad s); [injection E as <-; cbn; auto|]. pose proof (wake_same (x_list s) n (x_kids s)) as W.
    destruct (bx_wake (x_list s) n (x_kids s)) as [[l f] p]. injection E as <-. cbn. now destruct (W j) as (_ & _ & _ & ->).
  - cbn [bx_step] in E. rewrite Hb in E. destruct (x_pc (x_kids s k)); [discriminate| |]; injection E as <-; cbn; (split; [reflexivity|]); (split; [reflexivity|]); intros j; unfold fupd;
      (destruct (j =? k) eqn:Ej; [apply Nat.eqb_eq in Ej as ->; eexists; split; [reflexivity|]; now repeat constructor|exists []; rewrite app_nil_r; split; [reflexivity|constructor]]).
Qed.

Lemma bx_dead l0 s l s' : exec bx_step bx_init l0 = Some s -> x_bad s = true -> exec bx_step s l = Some s' ->
  x_bad s' = true /\ x_log s' = x_log s /\ forall k, exists h, x_hist (x_kids s' k) = x_hist (x_kids s k) ++ h /\ Forall (fun e => snd e = XPanic) h.
Proof.
  intros E0 Hb E. pose proof (reach_inv _ _ E0) as I.
  refine (proj2 (exec_inv bx_step (fun x => bx_inv x /\ (x_bad x = true /\ x_log x = x_log s /\ forall k, exists h, x_hist (x_kids x k) = x_hist (x_kids s k) ++ h /\ Forall (fun e => snd e = XPanic) h)) _ l s s' _ E)).
  - intros x m x' (Ix & X1 & X2 & X3) Ex. split; [eapply step_inv; eauto|]. destruct (dead_step _ _ _ Ix X1 Ex) as (Y1 & Y2 & Y3).
    split; [exact Y1|]. split; [congruence|]. intros k. destruct (X3 k) as (h1 & Q1 & F1). destruct (Y3 k) as (h2 & Q2 & F2).
    exists (h1 ++ h2). rewrite app_assoc, <- Q1. split; [exact Q2|]. now apply Forall_app.
  - split; [exact I|]. split; [exact Hb|]. split; [reflexivity|]. intros k. exists []. rewrite app_nil_r. split; [reflexivity|constructor].
Qed.

(** A poll under the read lock. *)
Lemma bx_reader s k vs e ok s' : x_pc (x_kids s k) = XRead -> bx_step s (XRun k vs e ok) = Some s' ->
  x_log s' = x_log s /\ x_done s' = x_done s /\ x_value s' = x_value s /\ x_top s' = x_top s /\ x_bad s' = x_bad s /\ x_changed s' = x_changed s
  /\ x_wbad s' = x_wbad s /\ x_list s' = x_list s /\ forall j, j <> k -> x_kids s' j = x_kids s j.
Proof.
  intros Hp E. cbn [bx_step] in E. rewrite Hp in E.
  assert (Q : exists ep w a, s' = bx_answer s k ep w a (x_bad s)).
  { destruct (x_bad s) eqn:Eb; [injection E as <-; eauto|]. unfold bx_look in E. rewrite Eb in E. destruct (x_epoch (x_kids s k) =? x_top s); [destruct (x_done s); injection E as <-; eauto|].
    destruct (x_value s); [|discriminate]. destruct ok; injection E as <-; eauto. }
  destruct Q as (ep & w & a & ->). cbn. repeat split. intros j Hj. unfold fupd. apply Nat.eqb_neq in Hj. now rewrite Hj.
Qed.

(** The next value gets to every child, whatever panicked before, as long as [inner] is not poisoned. *)
Lemma bx_next l s k vs v e : exec bx_step bx_init l = Some s -> x_bad s = false -> x_done s = false -> x_pc (x_kids s k) = XWrite -> e <> InPanic ->
  exists s', bx_step s (XRun k (vs ++ [v]) e true) = Some s' /\ x_bad s' = false /\ x_log s' = x_log s ++ vs ++ [v]
    /\ x_hist (x_kids s' k) = x_hist (x_kids s k) ++ [(length (x_log s'), XGave v)].
Proof.
  intros E Hb Hd Hp He. pose proof (reach_inv _ _ E) as (I1 & _). destruct (I1 k) as (_ & _ & _ & _ & H5). destruct (H5 Hb) as (H6 & _).
  cbn [bx_step]. rewrite Hp, Hb. unfold bx_ask. rewrite Hd. cbn [x_bad].
  assert (Q : match e with InPanic => true | _ => x_bad s end = false) by (destruct e; [exact Hb|exact Hb|now elim He]). rewrite Q.
  unfold bx_look. cbn [x_kids x_top x_value x_done x_bad]. rewrite newest_snoc.
  assert (T : match e, vs ++ [v] with InPanic, _ | _, [] => x_top s | _, _ :: _ => S (x_top s) end = S (x_top s)) by (destruct vs; cbn; destruct e; try reflexivity; now elim He).
  rewrite T. assert (N : x_epoch (x_kids s k) =? S (x_top s) = false) by (apply Nat.eqb_neq; lia). rewrite N.
  eexists. split; [reflexivity|]. cbn. unfold fupd. rewrite Nat.eqb_refl. cbn. auto.
Qed.

(** Children that wait and can be woken. *)
Definition bx_sleepers s : list nat := filter (fun k => x_alive (x_kids s k) && x_waker (x_kids s k)) (x_list s).

(** [wakers] *)
Lemma bx_wbad_dead s m s' : x_wbad s = true -> bx_step s m = Some s' -> x_wbad s' = true /\
  match m with XNew | XNotify _ => s' = mkX (x_log s) (x_done s) (x_value s) (x_top s) (x_bad s) (x_changed s) true (x_kids s) (x_nkid s) (x_list s) (x_threw s ++ [true])
  | _ => x_threw s' = x_threw s end.
Proof.
  intros Hw E. destruct m as [|k|k|k vs e ok|n]; cbn [bx_step] in E.
  - rewrite Hw in E. injection E as <-. auto.
  - destruct (x_alive (x_kids s k)); [|discriminate]. destruct (x_pc (x_kids s k)); try discriminate. injection E as <-. auto.
  - destruct (x_alive (x_kids s k)); [|discriminate]. destruct (x_pc (x_kids s k)); try discriminate. injection E as <-. auto.
  - assert (Q : forall t w, x_wbad t = true -> x_threw t = x_threw s -> bx_look t k w ok = Some s' -> x_wbad s' = true /\ x_threw s' = x_threw s).
    { intros t w Ht Ht2 El. unfold bx_look in El. destruct (_ =? _); [destruct (x_done t); injection El as <-; auto|]. destruct (x_value t); [|discriminate]. destruct ok; injection El as <-; auto. }
    assert (R : x_wbad (bx_ask s vs e) = true /\ x_threw (bx_ask s vs e) = x_threw s) by (unfold bx_ask; destruct (x_done s); auto). destruct R as [R1 R2].
    destruct (x_pc (x_kids s k)); [discriminate| |]; destruct (x_bad s).
    + injection E as <-. auto.
    + destruct (x_bad (bx_ask s vs e)); [injection E as <-; auto|]. exact (Q _ true R1 R2 E).
    + injection E as <-. auto.
    + exact (Q s false Hw eq_refl E).
  - rewrite Hw in E. injection E as <-. auto.
Qed.

Lemma wake_panics ks n f : let '(l, f', p) := bx_wake ks n f in NoDup ks ->
  (p = true <-> exists i, n = Some i /\ i < length (filter (fun k => x_alive (f k : bx_kid A) && x_waker (f k)) ks))
  /\ forall k, In k ks -> x_alive (f k) = true -> x_waker (f k) = true -> p = false -> x_woken (f' k) = true.
Proof.
  revert n f. induction ks as [|j r IH]; intros n f.
  { cbn. intros _. split; [split; [discriminate|]; intros (i & _ & X); inversion X|intros k []]. }
  cbn [bx_wake filter].
  destruct (x_alive (f j)) eqn:Ea.
  2: { specialize (IH n f). destruct (bx_wake r n f) as [[l f'] p]. intros N. inversion N; subst. destruct (IH H2) as [A1 A2]. cbn [andb]. split; [exact A1|].
    intros k [->|Hi] Hk; [congruence|auto]. }
  set (f1 := fupd j _ f).
  assert (Sm : forall m, let '(l, f', p) := bx_wake r m f1 in ~ In j r -> x_woken (f' j) = x_woken (f1 j)).
  { clear IH. assert (G : forall ks m (g : nat -> bx_kid A), let '(l, f', p) := bx_wake ks m g in ~ In j ks -> x_woken (f' j) = x_woken (g j)).
    { clear. induction ks as [|i r IH]; intros m g; [cbn; auto|]. cbn [bx_wake]. destruct (x_alive (g i)).
      2: { specialize (IH m g). destruct (bx_wake r m g) as [[l f'] p]. intros N. apply IH. intros X. apply N. now right. }
      set (g1 := fupd i _ g).
      assert (E : i <> j -> g1 j = g j) by (intros N; unfold g1, fupd; destruct (j =? i) eqn:E; [apply Nat.eqb_eq in E; congruence|reflexivity]).
      assert (T : forall q, let '(l, f', p) := (let '(l, f', p) := bx_wake r q g1 in (i :: l, f', p)) in ~ In j (i :: r) -> x_woken (f' j) = x_woken (g j)).
      { intros q. specialize (IH q g1). destruct (bx_wake r q g1) as [[l f'] p]. intros N. rewrite IH; [rewrite E; [reflexivity|]|]; intros X; apply N; [now left|now right]. }
      destruct (x_waker (g i)); [|apply T]. destruct m as [[|m]|]; [|apply T|apply T]. intros N. rewrite E; [reflexivity|]. intros X. apply N. now left. }
    intros m. apply G. }
  assert (Fj : f1 j = mkXk true (x_epoch (f j)) false (x_pc (f j)) (x_woken (f j) || x_waker (f j)) (x_hist (f j))) by (unfold f1, fupd; now rewrite Nat.eqb_refl).
  assert (Fo : forall k, k <> j -> f1 k = f k) by (intros k N; unfold f1, fupd; apply Nat.eqb_neq in N; now rewrite N).
  assert (Fl : ~ In j r -> filter (fun k => x_alive (f1 k) && x_waker (f1 k)) r = filter (fun k => x_alive (f k) && x_waker (f k)) r).
  { intros N. apply filter_ext_in. intros k Hk. rewrite Fo; [reflexivity|]. intros ->. now apply N. }
  cbn [andb].
  assert (T : forall m, let '(l, f', p) := (let '(l, f', p) := bx_wake r m f1 in (j :: l, f', p)) in NoDup (j :: r) ->
    (p = true <-> exists i, m = Some i /\ i < length (filter (fun k => x_alive (f k) && x_waker (f k)) r))
    /\ forall k, In k (j :: r) -> x_alive (f k) = true -> x_waker (f k) = true -> p = false -> x_woken (f' k) = true).
  { intros m. specialize (IH m f1). specialize (Sm m). destruct (bx_wake r m f1) as [[l f'] p]. intros N. inversion N; subst. destruct (IH H2) as [A1 A2].
    rewrite Fl in A1 by assumption. split; [exact A1|]. intros k [<-|Hi] Hk Hw Hp.
    - rewrite Sm by assumption. rewrite Fj. cbn. rewrite Hw. apply orb_true_r.
    - assert (Hn : k <> j) by (intros ->; contradiction). apply A2; [exact Hi| | |exact Hp]; rewrite Fo; assumption. }
  destruct (x_waker (f j)) eqn:Ew; [|apply T]. destruct n as [[|n]|].
  - intros N. split; [split; [intros _; exists 0; split; [reflexivity|cbn; lia]|reflexivity]|]. intros k _ _ _ X. discriminate.
  - specialize (T (Some n)). cbn [option_map pred]. destruct (bx_wake r (Some n) f1) as [[l f'] p]. intros N. destruct (T N) as [A1 A2]. split; [|exact A2].
    rewrite A1. cbn [length]. split; intros (i & X & Y); injection X as <-.
    + exists (S n). split; [reflexivity|lia].
    + exists n. split; [reflexivity|lia].
  - specialize (T None). cbn [option_map]. destruct (bx_wake r None f1) as [[l f'] p]. intros N. destruct (T N) as [A1 A2]. split; [|exact A2].
    rewrite A1. split; intros (i & X & _); discriminate.
Qed.

(** Every child is listed once. *)
Definition bx_listed s : Prop := NoDup (x_list s) /\ Forall (fun k => k < x_nkid s) (x_list s).
Lemma wake_sub ks n (f : nat -> bx_kid A) : let '(l, f', p) := bx_wake ks n f in (NoDup ks -> NoDup l) /\ incl l ks.
Proof.
  revert n f. induction ks as [|j r IH]; intros n f; [cbn; split; [auto|now intros x]|]. cbn [bx_wake].
  destruct (x_alive (f j)).
  2: { specialize (IH n f). destruct (bx_wake r n f) as [[l f'] p]. destruct IH as [A1 A2]. split; [intros N; inversion N; auto|now apply incl_tl]. }
  set (f1 := fupd j _ f).
  assert (T : forall m, let '(l, f', p) := (let '(l, f', p) := bx_wake r m f1 in (j :: l, f', p)) in (NoDup (j :: r) -> NoDup l) /\ incl l (j :: r)).
  { intros m. specialize (IH m f1). destruct (bx_wake r m f1) as [[l f'] p]. destruct IH as [A1 A2]. split.
    - intros N. inversion N; subst. constructor; [intros X; apply A2 in X; contradiction|auto].
    - intros x [->|X]; [now left|right; auto]. }
  destruct (x_waker (f j)); [|apply T]. destruct n as [[|n]|]; [|apply T|apply T]. split; [auto|apply incl_refl].
Qed.

Lemma run_list s k vs e ok s' : bx_step s (XRun k vs e ok) = Some s' -> x_list s' = x_list s /\ x_nkid s' = x_nkid s /\ x_wbad s' = x_wbad s /\ x_changed s' = x_changed s.
Proof.
  intros E. cbn [bx_step] in E.
  assert (Q : forall t w, x_list t = x_list s -> x_nkid t = x_nkid s -> x_wbad t = x_wbad s -> x_changed t = x_changed s -> bx_look t k w ok = Some s' ->
    x_list s' = x_list s /\ x_nkid s' = x_nkid s /\ x_wbad s' = x_wbad s /\ x_changed s' = x_changed s).
  { intros t w T1 T2 T3 T4 El. unfold bx_look in El. destruct (_ =? _); [destruct (x_done t); injection El as <-; auto|]. destruct (x_value t); [|discriminate]. destruct ok; injection El as <-; auto. }
  assert (R : x_list (bx_ask s vs e) = x_list s /\ x_nkid (bx_ask s vs e) = x_nkid s /\ x_wbad (bx_ask s vs e) = x_wbad s /\ x_changed (bx_ask s vs e) = x_changed s)
    by (unfold bx_ask; destruct (x_done s); auto).
  destruct R as (R1 & R2 & R3 & R4). destruct (x_pc (x_kids s k)); [discriminate| |]; destruct (x_bad s).
  - injection E as <-. auto.
  - destruct (x_bad (bx_ask s vs e)); [injection E as <-; auto|]. exact (Q _ true R1 R2 R3 R4 E).
  - injection E as <-. auto.
  - exact (Q s false eq_refl eq_refl eq_refl eq_refl E).
Qed.

Lemma listed_step s m s' : bx_listed s -> bx_step s m = Some s' -> bx_listed s'.
Proof.
  intros [L1 L2] E. destruct m as [|k|k|k vs e ok|n].
  - cbn [bx_step] in E. destruct (x_wbad s); injection E as <-; [now split|]. split; cbn.
    + apply NoDup_Add with (a := x_nkid s) (l := x_list s); [rewrite <- (app_nil_r (x_list s)) at 1; apply Add_app|]. split; [exact L1|].
      intros Hx. rewrite Forall_forall in L2. apply L2 in Hx. lia.
    + apply Forall_app. split; [|repeat constructor; lia]. eapply Forall_impl; [|exact L2]. cbn. lia.
  - cbn [bx_step] in E. destruct (x_alive (x_kids s k)); [|discriminate]. destruct (x_pc (x_kids s k)); try discriminate. injection E as <-. now split.
  - cbn [bx_step] in E. destruct (x_alive (x_kids s k)); [|discriminate]. destruct (x_pc (x_kids s k)); try discriminate. injection E as <-. now split.
  - destruct (run_list _ _ _ _ _ _ E) as (R1 & R2 & _). split; rewrite R1, ?R2; assumption.
  - cbn [bx_step] in E. destruct (x_wbad s); [injection E as <-; now split|]. pose proof (wake_sub (x_list s) n (x_kids s)) as W.
    destruct (bx_wake (x_list s) n (x_kids s)) as [[l f] p]. injection E as <-. destruct W as [W1 W2]. split; cbn; [auto|].
    rewrite Forall_forall in L2 |- *. intros x Hx. apply L2. now apply W2.
Qed.
Lemma reach_listed l s : exec bx_step bx_init l = Some s -> bx_listed s.
Proof. intros E. refine (exec_inv bx_step bx_listed listed_step l _ _ _ E). split; [constructor|constructor]. Qed.

(** A call of the notifier: it panics exactly if a waker does or did. If it does not panic then every child that waits is woken; either way the next
    poll asks the input. *)
Lemma bx_notify l s n s' : exec bx_step bx_init l = Some s -> x_wbad s = false -> bx_step s (XNotify n) = Some s' ->
  x_changed s' = true
  /\ (x_wbad s' = true <-> exists i, n = Some i /\ i < length (bx_sleepers s))
  /\ x_threw s' = x_threw s ++ [x_wbad s']
  /\ (x_wbad s' = false -> forall k, x_alive (x_kids s k) = true -> x_waker (x_kids s k) = true -> x_woken (x_kids s' k) = true).
Proof.
  intros E0 Hw E. destruct (reach_inv _ _ E0) as (_ & _ & _ & I4 & _). destruct (reach_listed _ _ E0) as [N _].
  cbn [bx_step] in E. rewrite Hw in E. pose proof (wake_panics (x_list s) n (x_kids s)) as W.
  destruct (bx_wake (x_list s) n (x_kids s)) as [[l' f] p]. injection E as <-. destruct (W N) as [W1 W2]. cbn.
  split; [reflexivity|]. split; [exact W1|]. split; [reflexivity|]. intros Hp k Hk Hkw. apply W2; auto.
Qed.

(** Nothing else poisons [wakers]. *)
Lemma bx_wbad_only s m s' : bx_step s m = Some s' -> x_wbad s = false -> (forall n, m <> XNotify n) -> x_wbad s' = false.
Proof.
  intros E Hw Hm. destruct m as [|k|k|k vs e ok|n].
  - cbn [bx_step] in E. rewrite Hw in E. injection E as <-. reflexivity.
  - cbn [bx_step] in E. destruct (x_alive (x_kids s k)); [|discriminate]. destruct (x_pc (x_kids s k)); try discriminate. injection E as <-. exact Hw.
  - cbn [bx_step] in E. destruct (x_alive (x_kids s k)); [|discriminate]. destruct (x_pc (x_kids s k)); try discriminate. injection E as <-. exact Hw.
  - destruct (run_list _ _ _ _ _ _ E) as (_ & _ & R & _). congruence.
  - now elim (Hm n).
Qed.
End Facts.

Lemma ex_run_twice {S} (o : option S) (f : S -> option S) (P : S -> S -> Prop) :
  match o with Some s => match f s with Some s' => P s s' | None => False end | None => False end ->
  exists s s', o = Some s /\ f s = Some s' /\ P s s'.
Proof.
  destruct o as [s|]; [|easy]. destruct (f s) as [s'|] eqn:E; [|easy]. intros H. now exists s, s'.
Qed.
