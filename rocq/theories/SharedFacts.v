(** Proofs for Shared.v. *)
From Verif Require Import Base Conc Spec BaseFacts LoopFacts VecDiff VecSpec VecFacts VecDiffFacts MutVec MutVecSpec MutVecFacts MutVecRun MapDiff MapSpec MapFacts Mpsc MutMap MutMapSpec MutMapFacts MutVecSends Shared.

(** ** Specification *)

(** From the contents [c] the calls [l] lead to [c'] and send [ds]; none of them panics. [means o c ds c' r]: the operation [o] turns [c]
    into [c'], sends [ds] and returns [r]. *)
Inductive follows {C D O R} (means : O -> C -> list D -> C -> R -> Prop) : C -> list (nat * O * option R) -> list D -> C -> Prop :=
| follows_nil c : follows means c [] [] c
| follows_one c l ds1 c1 t o ds2 c2 r : follows means c l ds1 c1 -> means o c1 ds2 c2 r -> follows means c (l ++ [(t, o, Some r)]) (ds1 ++ ds2) c2.

(** By C02 and C62 for a MutableVec, by C26 for a MutableBTreeMap. *)
Definition vec_means {A} (o : op A) v ds v' r : Prop := ~ op_panics o v /\ op_means o v v' r /\ ds = op_sends o v.
Definition map_means {K V} (o : mop K V) m ds m' r : Prop := mop_means o m m' r /\ mop_sends o m m' ds.

Section Facts.
Context {C D O R : Type} (run : O -> C -> C * list D * option R) (first : C -> list D).
Context (app : D -> C -> option C) (empty : C) (ok : C -> Prop) (means : O -> C -> list D -> C -> R -> Prop) (panics : O -> C -> Prop).
Context (run_means : forall o c c' ds r, ok c -> run o c = (c', ds, Some r) -> ok c' /\ apply_all app c ds = Some c' /\ means o c ds c' r).
Context (run_panics : forall o c c' ds, ok c -> run o c = (c', ds, None) -> ds = [] /\ panics o c).
Context (first_ok : forall c, ok c -> apply_all app empty (first c) = Some c).

Lemma run_ok o c c' ds r : ok c -> run o c = (c', ds, Some r) -> ok c' /\ apply_all app c ds = Some c'.
Proof. intros h e. destruct (run_means _ _ _ _ _ h e) as (? & ? & _). auto. Qed.
Lemma run_panic o c c' ds : ok c -> run o c = (c', ds, None) -> ds = [].
Proof. intros h e. apply (run_panics _ _ _ _ h e). Qed.

Implicit Types (st : shared C D O R) (s : chan D).
Notation step := (sh_step run first).

(** What the operation in progress has not sent to subscriber [id] yet. *)
Definition unsent st (id : nat) : list D :=
  (match cur st with Some (d, l) => if existsb (Nat.eqb id) l then [d] else [] | None => [] end) ++ later st.

Record chan_fine st (id : nat) s (p : nat) (c0 : C) : Prop := {
  cf_pos : p <= length (log st);
  cf_good : apply_all app empty (first c0 ++ skipn p (log st)) = Some (good st);
  cf_all : exists miss, ctotal s ++ miss = first c0 ++ skipn p (log st) /\ (calive s = true -> miss = unsent st id);
  cf_sender : calive s = true -> 0 < owners st -> In id (senders st);
  cf_wait : calive s = true -> cwaiting s = true -> cqueue s = [] /\ 0 < owners st;
  cf_last : calive s = true -> last_out (cgot s) Pending -> cwaiting s = true \/ cwoken s = true;
  cf_none : calive s = true -> In (Ready None) (cgot s) -> owners st = 0 /\ cqueue s = [] }.

Record sh_inv st : Prop := {
  si_idle : writer st = None -> cur st = None /\ later st = [] /\ failing st = false;
  si_excl : forall t, writer st = Some t -> readers st = [] /\ 0 < owners st /\ poisoned st = false;
  si_read : readers st <> [] -> 0 < owners st /\ poisoned st = false;
  si_nodup : NoDup (senders st);
  si_range : forall id, In id (senders st) -> id < length (chans st);
  si_cur : forall d l, cur st = Some (d, l) -> NoDup l /\ incl l (senders st);
  si_start : length (starts st) = length (chans st);
  si_good : poisoned st = false -> failing st = false -> contents st = good st;
  si_ok : ok (good st);
  si_fail : failing st = true -> cur st = None /\ later st = [];
  si_chan : forall id s p c0, nth_error (chans st) id = Some s -> nth_error (starts st) id = Some (p, c0) -> chan_fine st id s p c0 }.

Lemma inv_init c : ok c -> sh_inv (sh_init c).
Proof.
  intros h. constructor; simpl; auto; try discriminate; try tauto; try (intros k; intros; destruct k; discriminate). constructor.
Qed.

Lemma apply_all_app c l1 l2 : apply_all app c (l1 ++ l2) = match apply_all app c l1 with Some c' => apply_all app c' l2 | None => None end.
Proof. revert c. induction l1 as [|d l1 IH]; intros c; simpl; [reflexivity|]. destruct (app d c); auto. Qed.

(** A step that leaves the channels, the log and the handles alone. *)
Lemma chan_same st st' id s p c0 : chan_fine st id s p c0 -> log st' = log st -> good st' = good st -> owners st' = owners st ->
  senders st' = senders st -> (calive s = true -> unsent st' id = unsent st id) -> chan_fine st' id s p c0.
Proof.
  intros [h1 h2 h3 h4 h5 h6 h7] e1 e2 e3 e4 e5. constructor; rewrite ?e1, ?e2, ?e3, ?e4; auto.
  destruct h3 as (miss & m1 & m2). exists miss. split; auto. intros a. rewrite e5; auto.
Qed.

Lemma poll_fine st id s p c0 : calive s = true -> (owners st = 0 -> unsent st id = []) -> chan_fine st id s p c0 -> chan_fine st id (fst (cpoll (owners st =? 0) s)) p c0.
Proof.
  intros a hu [h1 h2 (miss & m1 & m2) h4 h5 h6 h7]. specialize (m2 a). subst miss.
  constructor; auto.
  - exists (unsent st id). rewrite ctotal_poll. auto.
  - intros _. unfold cpoll. destruct (cqueue s) as [|d q] eqn:E; [destruct (Nat.eqb_spec (owners st) 0); simpl|simpl]; intros hw; auto.
    + split; auto. lia.
    + destruct (h5 a hw). congruence.
  - intros _. rewrite cgot_poll. intros (l & hl). apply app_inj_tail in hl as [_ hl]. unfold cpoll in *. destruct (cqueue s); [destruct (owners st =? 0)|]; simpl in *; try discriminate. auto.
  - intros _. rewrite cgot_poll, in_app_iff. simpl. unfold cpoll. destruct (cqueue s) as [|d q] eqn:E; [destruct (Nat.eqb_spec (owners st) 0); simpl|simpl]; intros [hn|[hn|[]]]; auto; try discriminate.
    + destruct (h7 a hn) as [_ hq]. discriminate.
Qed.

Lemma existsb_in id l : existsb (Nat.eqb id) l = true <-> In id l.
Proof.
  rewrite existsb_exists. split; [intros (x & h & e); apply Nat.eqb_eq in e; subst; auto|]. intros h. exists id. rewrite Nat.eqb_refl. auto.
Qed.

Lemma send_fine st st' id' d l id s p c0 cs : sh_inv st -> cur st = Some (d, id' :: l) -> csend id' d (chans st) = (cs, c_alive (chans st) id') ->
  chan_fine st id s p c0 -> nth_error (chans st) id = Some s ->
  log st' = log st -> good st' = good st -> owners st' = owners st -> (calive s = true -> In id (senders st) -> In id (senders st')) ->
  cur st' = Some (d, l) -> later st' = later st -> chan_fine st' id (if id =? id' then csend_alive d s else s) p c0.
Proof.
  intros iv ec es [h1 h2 (miss & m1 & m2) h4 h5 h6 h7] en e1 e2 e3 e4 e5 e6. destruct (si_cur _ iv _ _ ec) as [n1 n2]. inversion n1 as [|? ? n3 n4]; subst.
  unfold unsent in m2. rewrite ec in m2. simpl in m2.
  destruct (Nat.eqb_spec id id') as [->|ne].
  - unfold csend_alive. destruct (calive s) eqn:a; [|constructor; rewrite ?e1, ?e2, ?e3; auto; try congruence; exists miss; split; auto; congruence].
    specialize (m2 eq_refl). assert (x : existsb (Nat.eqb id') l = false) by (destruct (existsb _ l) eqn:X; auto; apply existsb_in in X; contradiction).
    constructor; rewrite ?e1, ?e2, ?e3; simpl; auto; try discriminate.
    + exists (later st). split; [|intros _; unfold unsent; rewrite e5, e6, x; auto]. rewrite <- m1. subst miss. unfold ctotal. simpl. rewrite <- !app_assoc. auto.
    + intros _ hl. right. destruct (h6 eq_refl hl) as [->| ->]; auto using orb_true_r.
    + intros _ hn. destruct (h7 eq_refl hn) as [hn1 _]. exfalso. destruct (writer st) as [t|] eqn:ew; [apply (si_excl _ iv) in ew; lia|]. apply (si_idle _ iv) in ew as [ew _]. congruence.
  - constructor; rewrite ?e1, ?e2, ?e3; auto. exists miss. split; auto. intros a. rewrite (m2 a). unfold unsent. rewrite e5, e6. auto.
Qed.

Lemma in_remove_other id id' (l : list nat) : id <> id' -> In id l -> In id (remove Nat.eq_dec id' l).
Proof. intros. apply in_in_remove; auto. Qed.

Lemma nodup_remove id' (l : list nat) : NoDup l -> NoDup (remove Nat.eq_dec id' l).
Proof.
  induction 1 as [|x l n h IH]; simpl; [constructor|]. destruct (Nat.eq_dec id' x); auto. constructor; auto. intros k. apply List.in_remove in k. tauto.
Qed.

Lemma NoDup_app_snoc (l : list nat) x : NoDup l -> ~ In x l -> NoDup (l ++ [x]).
Proof.
  intros h n. induction h as [|y l k h IH]; simpl; [repeat constructor; auto|]. simpl in n. constructor; [|apply IH; tauto].
  intros z. apply in_app_or in z as [z|[<-|[]]]; tauto.
Qed.

Lemma is_none_true {X} (o : option X) : is_none o = true -> o = None.
Proof. destruct o; [discriminate|auto]. Qed.
Lemma is_nil_true {X} (l : list X) : is_nil l = true -> l = [].
Proof. destruct l; [auto|discriminate]. Qed.
Lemma free_true st : free st = true -> writer st = None /\ readers st = [] /\ 0 < owners st /\ poisoned st = false.
Proof.
  unfold free. rewrite !andb_true_iff. intros [[[h1 h2] h3] h4]. apply is_none_true in h1. apply is_nil_true in h2. apply Nat.ltb_lt in h3. apply negb_true_iff in h4. auto.
Qed.
Lemma holds_true t st : holds t st = true -> writer st = Some t.
Proof. unfold holds. destruct (writer st) as [t'|]; [|discriminate]. intros h. apply Nat.eqb_eq in h. congruence. Qed.
Lemma ready_true st : ready st = true -> cur st = None /\ later st = [].
Proof. unfold ready. rewrite andb_true_iff. intros [h1 h2]. auto using is_none_true, is_nil_true. Qed.

Lemma inv_step st a st' : sh_inv st -> step st a = Some st' -> sh_inv st'.
Proof.
  intros iv H. pose proof iv as [i1 i2 i3 i4 i5 i6 i7 i8 i9 i10 i11]. destruct a as [t|t p|t o|t|t|t| |id|id| |]; simpl in H.
  - destruct (free st) eqn:F; [|discriminate]. injection H as <-. apply free_true in F as (f1 & f2 & f3 & f4). destruct (i1 f1) as (g1 & g2 & g3).
    constructor; simpl; auto; try discriminate; try congruence.
    + intros id s p c0 e1 e2. eapply chan_same; eauto.
  - destruct (holds t st && ready st) eqn:F; [|discriminate]. injection H as <-. apply andb_true_iff in F as [f1 f2]. apply holds_true in f1. apply ready_true in f2 as [f2 f3].
    destruct (i2 t f1) as (g1 & g2 & g3). constructor; simpl; auto; try discriminate; try congruence.
    + intros h _. apply orb_false_iff in h as [h _]. auto.
    + intros id s q c0 e1 e2. eapply chan_same; eauto. intros _. unfold unsent. simpl. rewrite f2, f3. auto.
  - destruct (holds t st && ready st && negb (failing st)) eqn:F; [|discriminate]. rewrite !andb_true_iff in F. destruct F as [[f1 f2] f3]. apply holds_true in f1. apply ready_true in f2 as [f2 f4]. apply negb_true_iff in f3.
    destruct (run o (contents st)) as [[c ds] r] eqn:E. injection H as <-. destruct (i2 t f1) as (g1 & g2 & g3). specialize (i8 g3 f3).
    assert (K : ok (if is_none r then good st else c) /\ apply_all app (good st) ds = Some (if is_none r then good st else c) /\ (is_none r = true -> ds = [])).
    { rewrite i8 in E. destruct r as [r|]; simpl; [destruct (run_ok _ _ _ _ _ i9 E); repeat split; auto; discriminate|]. rewrite (run_panic _ _ _ _ i9 E). auto. }
    destruct K as (k1 & k2 & k3). constructor; simpl; auto; try discriminate; try congruence.
    + intros _ hn. rewrite hn. auto.
    + intros id s p c0 e1 e2. destruct (i11 id s p c0 e1 e2) as [h1 h2 (miss & m1 & m2) h4 h5 h6 h7]. unfold unsent in m2. rewrite f2, f4 in m2. simpl in m2.
      assert (sk : skipn p (log st ++ ds) = skipn p (log st) ++ ds) by (rewrite skipn_app; replace (p - length (log st)) with 0 by lia; reflexivity).
      constructor; simpl; auto.
      * rewrite app_length. lia.
      * rewrite sk, app_assoc, apply_all_app, h2. auto.
      * exists (miss ++ ds). rewrite sk, !app_assoc, m1. split; auto. intros a. rewrite (m2 a). auto.
  - destruct (holds t st) eqn:F; [|discriminate]. apply holds_true in F. destruct (i2 t F) as (g1 & g2 & g3).
    destruct (cur st) as [[d [|id l]]|] eqn:ec.
    + injection H as <-. constructor; simpl; auto; try discriminate; try congruence.
      * intros h. apply i10 in h. destruct h; congruence.
      * intros id s p c0 e1 e2. eapply chan_same; eauto. intros _. unfold unsent. simpl. rewrite ec. auto.
    + destruct (csend_spec id d (chans st)) as (cs & es & el & en). rewrite es in H. injection H as <-. destruct (i6 _ _ eq_refl) as [n1 n2].
      inversion n1 as [|? ? n3 n4]; subst. assert (i10' : failing st = false) by (destruct (failing st); auto; destruct (i10 eq_refl) as [x y]; try discriminate; rewrite y in *; discriminate).
      constructor; simpl; auto; try discriminate; try congruence.
      * destruct (c_alive (chans st) id); auto using nodup_remove.
      * intros id0 h. rewrite el. apply i5. destruct (c_alive (chans st) id); auto. apply List.in_remove in h. tauto.
      * intros d0 l0 e. injection e as <- <-. split; auto. intros x h. assert (x <> id) by congruence. destruct (c_alive (chans st) id); [apply n2; simpl; auto|apply in_remove_other; auto; apply n2; simpl; auto].
      * intros id0 s p c0 e1 e2. rewrite en in e1. destruct (nth_error (chans st) id0) as [s0|] eqn:e0; [|destruct (id0 =? id); discriminate].
        assert (s = if id0 =? id then csend_alive d s0 else s0) as -> by (destruct (id0 =? id); simpl in e1; congruence).
        eapply send_fine; eauto; simpl; auto. intros a h. destruct (c_alive (chans st) id) eqn:al; auto. apply in_remove_other; auto. intros ->. unfold c_alive in al. rewrite e0 in al. congruence.
    + destruct (later st) as [|d ds] eqn:el; [discriminate|]. injection H as <-. assert (i10' : failing st = false) by (destruct (failing st); auto; destruct (i10 eq_refl) as [x y]; try discriminate; rewrite y in *; discriminate).
      constructor; simpl; auto; try discriminate; try congruence.
      * intros d0 l0 e. injection e as <- <-. split; auto. apply incl_refl.
      * intros id s p c0 e1 e2. pose proof (i11 id s p c0 e1 e2) as cf. eapply chan_same; eauto. intros a. unfold unsent. simpl. rewrite ec, el. pose proof (cf_sender _ _ _ _ _ cf a g2) as si. apply existsb_in in si. rewrite si. reflexivity.
  - destruct (is_none (writer st) && (0 <? owners st) && negb (poisoned st)) eqn:F; [|discriminate]. injection H as <-. rewrite !andb_true_iff in F. destruct F as [[f1 f2] f3]. apply is_none_true in f1. apply Nat.ltb_lt in f2. apply negb_true_iff in f3.
    constructor; simpl; auto; try discriminate; try congruence. intros id s p c0 e1 e2. eapply chan_same; eauto.
  - destruct (existsb (Nat.eqb t) (readers st)) eqn:F; [|discriminate]. injection H as <-. assert (ne : readers st <> []) by (intros e; rewrite e in F; discriminate).
    constructor; simpl; auto; try discriminate; try congruence.
    + intros t0 h. destruct (i2 t0 h) as (x & _). contradiction.
    + intros id s p c0 e1 e2. eapply chan_same; eauto.
  - destruct (free st) eqn:F; [|discriminate]. injection H as <-. apply free_true in F as (f1 & f2 & f3 & f4). destruct (i1 f1) as (g1 & g2 & g3).
    constructor; simpl; auto; try discriminate; try congruence.
    + apply NoDup_app_snoc; auto. intros h. apply i5 in h. lia.
    + intros id h. rewrite app_length. simpl. apply in_app_or in h as [h|[<-|[]]]; [apply i5 in h|]; lia.
    + rewrite !app_length. simpl. lia.
    + intros id s p c0 e1 e2. apply snoc_inv in e1 as [[-> ->]|[l1 e1]].
      * rewrite <- i7, snoc_new in e2. injection e2 as <- <-. constructor; simpl; auto; try discriminate.
        -- rewrite skipn_all, app_nil_r, (i8 f4 g3). apply first_ok. auto.
        -- exists []. rewrite skipn_all. split; [reflexivity|]. intros _. unfold unsent. simpl. rewrite g1, g2. auto.
        -- intros _ _. apply in_or_app. simpl. auto.
        -- intros _ (q & e). destruct q; discriminate.
        -- intros _ [].
      * rewrite nth_error_app1 in e2 by lia. destruct (i11 id s p c0 e1 e2) as [h1 h2 h3 h4 h5 h6 h7]. constructor; simpl; auto. intros a b. apply in_or_app. auto.
  - destruct (nth_error (chans st) id) as [s|] eqn:e0; [|discriminate]. destruct (calive s) eqn:a; [|discriminate]. injection H as <-.
    constructor; simpl; auto; try discriminate; try congruence.
    + intros id0 h. rewrite lupd_length. auto.
    + rewrite lupd_length. auto.
    + intros id0 s0 p c0 e1 e2. apply lupd_inv in e1 as [[<- ->]|[ne e1]]; [|eapply chan_same; eauto].
      eapply chan_same; [apply poll_fine; [exact a| |eapply i11; eauto]|..]; auto.
      intros z. destruct (writer st) as [t|] eqn:ew; [destruct (i2 t eq_refl); lia|]. unfold unsent. destruct (i1 eq_refl) as (-> & -> & _). auto.
  - destruct (nth_error (chans st) id) as [s|] eqn:e0; [|discriminate]. destruct (calive s) eqn:a; [|discriminate]. injection H as <-.
    constructor; simpl; auto; try discriminate; try congruence.
    + intros id0 h. rewrite lupd_length. auto.
    + rewrite lupd_length. auto.
    + intros id0 s0 p c0 e1 e2. apply lupd_inv in e1 as [[<- ->]|[ne e1]]; [|eapply chan_same; eauto].
      destruct (i11 id s p c0 e0 e2) as [h1 h2 (miss & m1 & m2) h4 h5 h6 h7]. constructor; simpl; auto; try discriminate. exists miss. split; auto; discriminate.
  - destruct (Nat.ltb_spec 0 (owners st)) as [l|]; [|discriminate]. injection H as <-. constructor; simpl; auto; try discriminate; try congruence.
    + intros t h. destruct (i2 t h) as (x & _ & y). auto with arith.
    + intros h. destruct (i3 h). auto with arith.
    + intros id s p c0 e1 e2. destruct (i11 id s p c0 e1 e2) as [h1 h2 h3 h4 h5 h6 h7]. constructor; simpl; auto.
      * intros a b. destruct (h5 a b). auto with arith.
      * intros a b. destruct (h7 a b). lia.
  - destruct (owners st) as [|[|n]] eqn:eo; [discriminate| |].
    + destruct (is_none (writer st) && is_nil (readers st)) eqn:F; [|discriminate]. injection H as <-. apply andb_true_iff in F as [f1 f2]. apply is_none_true in f1. apply is_nil_true in f2. destruct (i1 f1) as (g1 & g2 & g3).
      constructor; simpl; auto; try discriminate; try congruence.
      * constructor.
      * intros id [].
      * rewrite map_length. auto.
      * intros id s p c0 e1 e2. rewrite nth_error_map in e1. destruct (nth_error (chans st) id) as [s0|] eqn:e0; [|discriminate]. simpl in e1. injection e1 as <-.
        destruct (i11 id s0 p c0 e0 e2) as [h1 h2 h3 h4 h5 h6 h7]. constructor; simpl; auto; try discriminate.
        -- lia.
        -- intros a hl. right. destruct (h6 a hl) as [->| ->]; auto using orb_true_r.
        -- intros a hn. destruct (h7 a hn). lia.
    + injection H as <-. constructor; simpl; auto; try discriminate; try congruence.
      * intros t h. destruct (i2 t h) as (x & _ & y). auto with arith.
      * intros h. destruct (i3 h). auto with arith.
      * intros id s p c0 e1 e2. destruct (i11 id s p c0 e1 e2) as [h1 h2 h3 h4 h5 h6 h7]. rewrite eo in *. constructor; simpl; auto with arith.
        -- intros a b. destruct (h5 a b). auto with arith.
        -- intros a b. destruct (h7 a b). lia.
Qed.

Lemma reach c acts st : ok c -> exec step (sh_init c) acts = Some st -> sh_inv st.
Proof. intros h. apply (exec_inv step sh_inv inv_step). apply inv_init. auto. Qed.

Lemma start_of st id s : sh_inv st -> nth_error (chans st) id = Some s -> exists p c0, nth_error (starts st) id = Some (p, c0) /\ chan_fine st id s p c0.
Proof.
  intros iv H. destruct (nth_error (starts st) id) as [[p c0]|] eqn:E; [exists p, c0; split; auto; eapply si_chan; eauto|].
  apply nth_error_None in E. rewrite (si_start _ iv) in E. assert (id < length (chans st)) by (apply nth_error_Some; congruence). lia.
Qed.

Lemma prefix_applies l1 l2 c c' : apply_all app c (l1 ++ l2) = Some c' -> exists c1, apply_all app c l1 = Some c1.
Proof. rewrite apply_all_app. destruct (apply_all app c l1); [eauto|discriminate]. Qed.

(** ** The theorems *)
(** Where a subscriber began. *)
Definition began st (l : list (nat * O * option R)) (x : nat * C) (c : C) : Prop :=
  exists l1 l2 ds1 ds2, l = l1 ++ l2 /\ log st = ds1 ++ ds2 /\ length ds1 = fst x /\ follows means c l1 ds1 (snd x) /\ follows means (snd x) l2 ds2 (good st).

Definition calls_fine c st : Prop :=
  exists l, follows means c l (log st) (good st)
    /\ (calls st = l /\ contents st = good st \/ exists t o, calls st = l ++ [(t, o, None)] /\ panics o (good st) /\ (failing st = true \/ poisoned st = true))
    /\ forall x, In x (starts st) -> began st l x c.

Lemma calls_same c st st' : calls_fine c st -> log st' = log st -> good st' = good st -> calls st' = calls st -> starts st' = starts st -> contents st' = contents st ->
  (failing st = true \/ poisoned st = true -> failing st' = true \/ poisoned st' = true) -> calls_fine c st'.
Proof.
  intros (l & h1 & h2 & h3) e1 e2 e3 e4 e6 e5. exists l. unfold began. rewrite e1, e2, e3, e4, e6. repeat split; auto. destruct h2 as [h2|(t & o & h2 & h4 & h5)]; eauto 8.
Qed.

Lemma calls_fine_step c st a st' : sh_inv st -> calls_fine c st -> step st a = Some st' -> calls_fine c st'.
Proof.
  intros iv K H. destruct a as [t|t p|t o|t|t|t| |id|id| |]; simpl in H.
  - destruct (free st) eqn:F; [|discriminate]. injection H as <-. apply free_true in F as (f1 & f2 & f3 & f4). apply (calls_same c st); auto. simpl. intros [h|h]; auto; congruence.
  - destruct (holds t st && ready st) eqn:F; [|discriminate]. injection H as <-. apply andb_true_iff in F as [F _]. apply holds_true in F. destruct (si_excl _ iv _ F) as (_ & _ & e).
    apply (calls_same c st); auto. simpl. intros [h|h]; [rewrite h; auto|congruence].
  - destruct (holds t st && ready st && negb (failing st)) eqn:F; [|discriminate]. rewrite !andb_true_iff in F. destruct F as [[f1 f2] f3]. apply holds_true in f1. apply negb_true_iff in f3.
    destruct (run o (contents st)) as [[c1 ds] r] eqn:E. injection H as <-. destruct (si_excl _ iv _ f1) as (_ & _ & e). pose proof (si_ok _ iv) as k. rewrite (si_good _ iv e f3) in E.
    destruct K as (l & h1 & h2 & h3). assert (h2' : calls st = l) by (destruct h2 as [[h2 _]|(? & ? & _ & _ & [h2|h2])]; congruence). clear h2. destruct r as [r|]; simpl.
    + destruct (run_means _ _ _ _ _ k E) as (_ & _ & m). exists (l ++ [(t, o, Some r)]). simpl. split; [econstructor; eauto|]. split; [left; split; congruence|].
      intros x hx. destruct (h3 x hx) as (l1 & l2 & ds1 & ds2 & -> & b2 & b3 & b4 & b5). exists l1, (l2 ++ [(t, o, Some r)]), ds1, (ds2 ++ ds). simpl.
      rewrite b2, <- !app_assoc. repeat split; auto. econstructor; eauto.
    + destruct (run_panics _ _ _ _ k E) as [-> m]. exists l. unfold began. simpl. rewrite app_nil_r. repeat split; auto. right. exists t, o. split; [congruence|auto].
  - destruct (holds t st); [|discriminate]. destruct (cur st) as [[d [|id q]]|]; [injection H as <-; apply (calls_same c st); auto| |].
    + destruct (csend id d (chans st)). injection H as <-. apply (calls_same c st); auto.
    + destruct (later st); [discriminate|]. injection H as <-. apply (calls_same c st); auto.
  - destruct (is_none (writer st) && (0 <? owners st) && negb (poisoned st)) eqn:F; [|discriminate]. injection H as <-. rewrite !andb_true_iff in F. destruct F as [_ F]. apply negb_true_iff in F.
    apply (calls_same c st); auto. simpl. intros [h|h]; auto; congruence.
  - destruct (existsb _ _); [|discriminate]. injection H as <-. apply (calls_same c st); auto.
  - destruct (free st) eqn:F; [|discriminate]. apply free_true in F as (f1 & f2 & f3 & f4). injection H as <-. destruct K as (l & h1 & h2 & h3). exists l. simpl. split; auto. split; auto.
    intros x hx. apply in_app_iff in hx as [hx|[<-|[]]]; [exact (h3 x hx)|]. exists l, [], (log st), []. simpl. rewrite !app_nil_r. apply (si_idle _ iv) in f1 as (_ & _ & f1). rewrite (si_good _ iv f4 f1).
    repeat split; auto. constructor.
  - destruct (nth_error (chans st) id) as [s|]; [|discriminate]. destruct (calive s); [|discriminate]. injection H as <-. apply (calls_same c st); auto.
  - destruct (nth_error (chans st) id) as [s|]; [|discriminate]. destruct (calive s); [|discriminate]. injection H as <-. apply (calls_same c st); auto.
  - destruct (0 <? owners st); [|discriminate]. injection H as <-. apply (calls_same c st); auto.
  - destruct (owners st) as [|[|n]]; [discriminate| |injection H as <-; apply (calls_same c st); auto]. destruct (_ && _); [|discriminate]. injection H as <-. apply (calls_same c st); auto.
Qed.

Lemma reach_calls c acts st : ok c -> exec step (sh_init c) acts = Some st -> sh_inv st /\ calls_fine c st.
Proof.
  intros h. apply (exec_inv step (fun x => sh_inv x /\ calls_fine c x)).
  - intros x a x' [h1 h2] e. split; [eapply inv_step; eauto|eapply calls_fine_step; eauto].
  - split; [apply inv_init; auto|]. exists []. simpl. split; [constructor|]. split; auto. intros x [].
Qed.

Lemma sh_calls c acts st : ok c -> exec step (sh_init c) acts = Some st ->
  exists l ds c', follows means c l ds c'
    /\ (calls st = l /\ contents st = c' \/ exists t o, calls st = l ++ [(t, o, None)] /\ panics o c' /\ (failing st = true \/ poisoned st = true)).
Proof. intros hc H. destruct (reach_calls _ _ _ hc H) as (iv & l & h1 & h2 & _). exists l, (log st), (good st). auto. Qed.

Lemma sh_order c acts st id s : ok c -> exec step (sh_init c) acts = Some st -> nth_error (chans st) id = Some s ->
  exists l1 ds1 c0 l2 ds2 c', follows means c l1 ds1 c0 /\ follows means c0 l2 ds2 c'
    /\ (calls st = l1 ++ l2 /\ contents st = c' \/ exists t o, calls st = l1 ++ l2 ++ [(t, o, None)] /\ panics o c')
    /\ (exists rest, yielded (cgot s) ++ rest = first c0 ++ ds2)
    /\ (exists x, apply_all app empty (yielded (cgot s)) = Some x)
    /\ (calive s = true -> ready st = true -> ctotal s = first c0 ++ ds2).
Proof.
  intros hc H h1. destruct (reach_calls _ _ _ hc H) as (iv & l & k1 & k2 & k3). destruct (start_of _ _ _ iv h1) as (p & c0 & h2 & _).
  destruct (si_chan _ iv _ _ _ _ h1 h2) as [j1 j2 (miss & m1 & m2) _ _ _ _]. destruct (k3 _ (nth_error_In _ _ h2)) as (l1 & l2 & ds1 & ds2 & -> & b2 & b3 & b4 & b5). simpl in *.
  rewrite b2, <- b3, skipn_app, skipn_all, Nat.sub_diag in *. simpl in *.
  exists l1, ds1, c0, l2, ds2, (good st). unfold ctotal in *. repeat split; auto.
  - destruct k2 as [k2|(t & o & k2 & k3' & k4)]; [auto|]. right. exists t, o. rewrite k2, <- app_assoc. auto.
  - exists (cqueue s ++ miss). rewrite app_assoc. auto.
  - rewrite <- m1, <- app_assoc in j2. eapply prefix_applies; eauto.
  - intros a r. apply ready_true in r as [r1 r2]. rewrite (m2 a) in m1. unfold unsent in m1. rewrite r1, r2 in m1. simpl in m1. rewrite app_nil_r in m1. auto.
Qed.

Lemma sh_quiet c acts st id s : ok c -> exec step (sh_init c) acts = Some st -> nth_error (chans st) id = Some s -> calive s = true ->
  ready st = true -> failing st = false -> poisoned st = false -> apply_all app empty (ctotal s) = Some (contents st).
Proof.
  intros hc H h1 h2 h3 h4 h5. pose proof (reach _ _ _ hc H) as iv. destruct (start_of _ _ _ iv h1) as (p & c0 & _ & [k1 k2 (miss & m1 & m2) _ _ _ _]).
  apply ready_true in h3 as [e1 e2]. rewrite (m2 h2) in m1. unfold unsent in m1. rewrite e1, e2 in m1. simpl in m1. rewrite app_nil_r in m1. rewrite m1, k2, (si_good _ iv); auto.
Qed.

Lemma sh_wakes c acts st id s : ok c -> exec step (sh_init c) acts = Some st -> nth_error (chans st) id = Some s -> calive s = true ->
  last_out (cgot s) Pending -> cqueue s <> [] \/ owners st = 0 -> cwoken s = true.
Proof.
  intros hc H h1 h2 h3 h4. pose proof (reach _ _ _ hc H) as iv. destruct (start_of _ _ _ iv h1) as (p & c0 & _ & [_ _ _ _ k5 k6 _]).
  destruct (k6 h2 h3) as [w|w]; auto. destruct (k5 h2 w). destruct h4; [contradiction|lia].
Qed.

Lemma sh_ends_good c acts st id s : ok c -> exec step (sh_init c) acts = Some st -> nth_error (chans st) id = Some s -> calive s = true ->
  In (Ready None) (cgot s) -> owners st = 0 /\ apply_all app empty (yielded (cgot s)) = Some (good st).
Proof.
  intros hc H h1 h2 h3. pose proof (reach _ _ _ hc H) as iv. destruct (start_of _ _ _ iv h1) as (p & c0 & _ & [_ k2 (miss & m1 & m2) _ _ _ k7]).
  destruct (k7 h2 h3) as [e1 e2]. split; auto. rewrite (m2 h2) in m1. unfold ctotal in m1. rewrite e2, app_nil_r in m1.
  destruct (writer st) as [t|] eqn:ew; [apply (si_excl _ iv) in ew; lia|]. apply (si_idle _ iv) in ew as (w1 & w2 & w3). unfold unsent in m1. rewrite w1, w2 in m1. simpl in m1. rewrite app_nil_r in m1. rewrite m1. auto.
Qed.

Lemma sh_ends c acts st id s : ok c -> exec step (sh_init c) acts = Some st -> nth_error (chans st) id = Some s -> calive s = true ->
  In (Ready None) (cgot s) -> owners st = 0 /\ exists c', apply_all app empty (yielded (cgot s)) = Some c' /\ (poisoned st = false -> contents st = c').
Proof.
  intros hc H h1 h2 h3. destruct (sh_ends_good _ _ _ _ _ hc H h1 h2 h3) as [e1 e2]. split; auto. exists (good st). split; auto. intros hp. pose proof (reach _ _ _ hc H) as iv. apply (si_good _ iv); auto.
  destruct (writer st) as [t|] eqn:ew; [apply (si_excl _ iv) in ew; lia|]. apply (si_idle _ iv) in ew. tauto.
Qed.

(** *** Nobody is woken without a reason *)
Definition calm (n : nat) s : Prop := calive s = true -> last_out (cgot s) Pending -> cwoken s = true -> cqueue s <> [] \/ n = 0.

Lemma calm_step st a st' : (forall id s, nth_error (chans st) id = Some s -> calm (owners st) s) -> step st a = Some st' ->
  forall id s, nth_error (chans st') id = Some s -> calm (owners st') s.
Proof.
  intros iv H. destruct a as [t|t p|t o|t|t|t| |id'|id'| |]; simpl in H.
  - destruct (free st); [|discriminate]. injection H as <-. auto.
  - destruct (_ && _); [|discriminate]. injection H as <-. auto.
  - destruct (_ && _ && _); [|discriminate]. destruct (run o (contents st)) as [[c1 ds] r]. injection H as <-. auto.
  - destruct (holds t st); [|discriminate]. destruct (cur st) as [[d [|id' q]]|]; [injection H as <-; auto| |].
    + destruct (csend_spec id' d (chans st)) as (cs' & e1 & e2 & e3). rewrite e1 in H. injection H as <-. simpl. intros id s. rewrite e3. destruct (id =? id'); [|apply iv]. intros e.
      destruct (nth_error (chans st) id) as [x|] eqn:E; simpl in e; [|discriminate]. injection e as <-. unfold csend_alive. destruct (calive x) eqn:a; [|apply (iv _ _ E)].
      intros _ _ _. left. simpl. destruct (cqueue x); discriminate.
    + destruct (later st); [discriminate|]. injection H as <-. auto.
  - destruct (_ && _ && _); [|discriminate]. injection H as <-. auto.
  - destruct (existsb _ _); [|discriminate]. injection H as <-. auto.
  - destruct (free st); [|discriminate]. injection H as <-. simpl. intros id s e. apply snoc_inv in e as [[_ ->]|[_ e]]; [|apply (iv _ _ e)]. intros _ (l & h). destruct l; discriminate.
  - destruct (nth_error (chans st) id') as [x|] eqn:E; [|discriminate]. destruct (calive x); [|discriminate]. injection H as <-. simpl. intros id s e. apply lupd_inv in e as [[_ ->]|[_ e]]; [|apply (iv _ _ e)].
    intros _ hl hw. exfalso. unfold cpoll in *. destruct (cqueue x); [destruct (owners st =? 0)|]; discriminate.
  - destruct (nth_error (chans st) id') as [x|] eqn:E; [|discriminate]. destruct (calive x); [|discriminate]. injection H as <-. simpl. intros id s e. apply lupd_inv in e as [[_ ->]|[_ e]]; [|apply (iv _ _ e)]. discriminate.
  - destruct (Nat.ltb_spec 0 (owners st)); [|discriminate]. injection H as <-. simpl. intros id s e a b c. destruct (iv _ _ e a b c); [auto|lia].
  - destruct (owners st) as [|[|n]]; [discriminate| |].
    + destruct (_ && _); [|discriminate]. injection H as <-. simpl. intros id s _ _ _ _. auto.
    + injection H as <-. simpl. intros id s e a b c. destruct (iv _ _ e a b c); [auto|lia].
Qed.

Lemma sh_wakes_iff c acts st id s : ok c -> exec step (sh_init c) acts = Some st -> nth_error (chans st) id = Some s -> calive s = true ->
  last_out (cgot s) Pending -> (cwoken s = true <-> cqueue s <> [] \/ owners st = 0).
Proof.
  intros hc H h1 h2 h3. split; [|eapply sh_wakes; eauto]. intros w. revert h2 h3 w. fold (calm (owners st) s). revert id s h1. revert H.
  apply (exec_inv step (fun x => forall id s, nth_error (chans x) id = Some s -> calm (owners x) s)).
  - intros x a x' h e. eapply calm_step; eauto.
  - intros [|id]; discriminate.
Qed.

(** *** The lock *)
(** A guard was released. *)
Definition unlocks (t : nat) (a : act O) : bool := match a with AUnlock t' _ => t' =? t | _ => false end.
Definition unreads (t : nat) (a : act O) : bool := match a with AUnread t' => t' =? t | _ => false end.

Lemma calls_step st a st' t : sh_inv st -> step st a = Some st' -> writer st = Some t -> unlocks t a = false ->
  writer st' = Some t /\ (calls st' = calls st \/ exists o r, calls st' = calls st ++ [(t, o, r)]).
Proof.
  intros iv H hw hu. destruct (si_excl _ iv _ hw) as (r1 & r2 & r3).
  destruct a as [t'|t' p|t' o|t'|t'|t'| |id|id| |]; simpl in H.
  - unfold free in H. rewrite hw in H. discriminate.
  - unfold holds in H. rewrite hw in H. simpl in hu. rewrite Nat.eqb_sym in H. rewrite hu in H. discriminate.
  - destruct (holds t' st && ready st && negb (failing st)) eqn:F; [|discriminate]. rewrite !andb_true_iff in F. destruct F as [[f1 f2] f3]. apply holds_true in f1. assert (t' = t) as -> by congruence.
    destruct (run o (contents st)) as [[c1 ds] r] eqn:E. injection H as <-. simpl. split; auto. right. eauto.
  - destruct (holds t' st); [|discriminate]. destruct (cur st) as [[d [|id q]]|]; [injection H as <-; auto| |].
    + destruct (csend id d (chans st)). injection H as <-. auto.
    + destruct (later st); [discriminate|]. injection H as <-. auto.
  - rewrite hw in H. discriminate.
  - rewrite r1 in H. discriminate.
  - unfold free in H. rewrite hw in H. discriminate.
  - destruct (nth_error (chans st) id) as [s|]; [|discriminate]. destruct (calive s); [|discriminate]. injection H as <-. auto.
  - destruct (nth_error (chans st) id) as [s|]; [|discriminate]. destruct (calive s); [|discriminate]. injection H as <-. auto.
  - destruct (0 <? owners st); [|discriminate]. injection H as <-. auto.
  - destruct (owners st) as [|[|n]]; [discriminate| |injection H as <-; auto]. rewrite hw in H. discriminate.
Qed.

Lemma sh_guard c acts st t more st' : ok c -> exec step (sh_init c) acts = Some st -> writer st = Some t ->
  exec step st more = Some st' -> existsb (unlocks t) more = false ->
  writer st' = Some t /\ exists l, calls st' = calls st ++ l /\ forall x, In x l -> fst (fst x) = t.
Proof.
  intros hc H. pose proof (reach _ _ _ hc H) as iv. clear H. revert st iv. induction more as [|a more IH]; intros st iv hw E hu.
  - injection E as <-. split; auto. exists []. rewrite app_nil_r. split; auto. intros x [].
  - simpl in E, hu. destruct (step st a) as [st1|] eqn:S; [|discriminate]. apply orb_false_iff in hu as [hu1 hu2].
    destruct (calls_step _ _ _ _ iv S hw hu1) as [w1 k]. destruct (IH st1 (inv_step _ _ _ iv S) w1 E hu2) as (w2 & l & e1 & e2). split; auto.
    destruct k as [k|(o & r & k)]; rewrite k in e1; [eauto|]. exists ((t, o, r) :: l). rewrite <- app_assoc in e1. split; auto. intros x [<-|h]; auto.
Qed.

Lemma in_remove_one t t' l : t <> t' -> In t l -> In t (remove_one t' l).
Proof. intros n. induction l as [|x l IH]; simpl; auto. intros h. destruct (Nat.eqb_spec x t') as [e|e], h as [h|h]; simpl; auto. congruence. Qed.

Lemma sh_guard_ref c acts st t more st' : ok c -> exec step (sh_init c) acts = Some st -> In t (readers st) ->
  exec step st more = Some st' -> existsb (unreads t) more = false ->
  In t (readers st') /\ ready st' = true /\ contents st' = contents st /\ calls st' = calls st.
Proof.
  intros hc H. pose proof (reach _ _ _ hc H) as iv. clear H. revert st iv. induction more as [|a more IH]; intros st iv hr E hu.
  - injection E as <-. assert (w : writer st = None). { destruct (writer st) as [u|] eqn:w; auto. apply (si_excl _ iv) in w as [w _]. rewrite w in hr. destruct hr. }
    apply (si_idle _ iv) in w as (w1 & w2 & _). unfold ready. rewrite w1, w2. auto.
  - simpl in E, hu. destruct (step st a) as [st1|] eqn:S; [|discriminate]. apply orb_false_iff in hu as [hu1 hu2].
    assert (K : In t (readers st1) /\ contents st1 = contents st /\ calls st1 = calls st).
    { assert (w : writer st = None). { destruct (writer st) as [u|] eqn:w; auto. apply (si_excl _ iv) in w as [w _]. rewrite w in hr. destruct hr. }
      assert (ne : readers st <> []) by (intros e; rewrite e in hr; destruct hr).
      destruct a as [t'|t' p|t' o|t'|t'|t'| |id|id| |]; simpl in S.
      - destruct (free st) eqn:F; [|discriminate]. apply free_true in F as (_ & F & _). contradiction.
      - unfold holds in S. rewrite w in S. discriminate.
      - unfold holds in S. rewrite w in S. discriminate.
      - unfold holds in S. rewrite w in S. discriminate.
      - destruct (is_none (writer st) && _ && _); [|discriminate]. injection S as <-. simpl. auto.
      - destruct (existsb (Nat.eqb t') (readers st)); [|discriminate]. injection S as <-. simpl. split; auto. apply in_remove_one; auto. simpl in hu1. apply Nat.eqb_neq in hu1. auto.
      - destruct (free st) eqn:F; [|discriminate]. apply free_true in F as (_ & F & _). contradiction.
      - destruct (nth_error (chans st) id) as [s|]; [|discriminate]. destruct (calive s); [|discriminate]. injection S as <-. auto.
      - destruct (nth_error (chans st) id) as [s|]; [|discriminate]. destruct (calive s); [|discriminate]. injection S as <-. auto.
      - destruct (0 <? owners st); [|discriminate]. injection S as <-. auto.
      - destruct (owners st) as [|[|n]]; [discriminate| |injection S as <-; auto]. destruct (_ && _); [|discriminate]. injection S as <-. auto. }
    destruct K as (k1 & k2 & k3). destruct (IH st1 (inv_step _ _ _ iv S) k1 E hu2) as (j1 & j2 & j3 & j4). repeat split; auto; congruence.
Qed.

(** *** An operation gets done, whatever the subscribers do *)
Lemma send_now st t d l : writer st = Some t -> cur st = Some (d, l) ->
  exists st', exec step st (repeat (ASend t) (S (length l))) = Some st' /\ writer st' = Some t /\ cur st' = None /\ later st' = later st.
Proof.
  revert st. induction l as [|id l IH]; intros st hw hc; unfold holds; simpl repeat; cbn [exec]; unfold sh_step at 1; unfold holds; rewrite hw, Nat.eqb_refl, hc; simpl.
  - eexists. repeat split; auto.
  - destruct (csend id d (chans st)) as [cs b]. cbn [exec]. destruct (IH (set_job (Some (d, l)) (later st) (failing st) (set_chans (if b then senders st else remove Nat.eq_dec id (senders st)) cs st))) as (st' & e & r); auto. exists st'. auto.
Qed.

Lemma sh_progress st t : writer st = Some t -> exists n st', exec step st (repeat (ASend t) n) = Some st' /\ writer st' = Some t /\ ready st' = true.
Proof.
  intros hw.
  assert (K : forall ds st, later st = ds -> cur st = None -> writer st = Some t -> exists n st', exec step st (repeat (ASend t) n) = Some st' /\ writer st' = Some t /\ ready st' = true).
  { clear st hw. induction ds as [|d ds IH]; intros st e1 e2 e3.
    - exists 0, st. repeat split; auto. unfold ready. rewrite e1, e2. auto.
    - set (st1 := set_job (Some (d, senders st)) ds (failing st) st). destruct (send_now st1 t d (senders st) e3 eq_refl) as (st2 & j1 & j2 & j3 & j4).
      destruct (IH st2) as (n & st3 & m1 & m2); auto. exists (S (S (length (senders st)) + n)), st3. split; auto.
      replace (repeat (ASend t) (S (S (length (senders st)) + n))) with (ASend (O := O) t :: (repeat (ASend t) (S (length (senders st))) ++ repeat (ASend t) n)) by (rewrite <- repeat_app; reflexivity).
      cbn [exec]. assert (E : step st (ASend t) = Some st1) by (simpl; unfold holds; rewrite e3, Nat.eqb_refl, e2, e1; reflexivity). rewrite E, exec_app, j1. auto. }
  destruct (cur st) as [[d l]|] eqn:ec; [|eauto].
  destruct (send_now st t d l hw ec) as (st2 & j1 & j2 & j3 & j4). destruct (K (later st2) st2) as (n & st3 & m1 & m2); auto.
  exists (S (length l) + n), st3. split; auto. rewrite repeat_app, exec_app, j1. auto.
Qed.
(** *** Dropped subscribers are forgotten *)
Definition forgetting (id : nat) st : Prop :=
  id < length (chans st) /\ c_alive (chans st) id = false
  /\ (~ In id (senders st) \/ (exists d l, cur st = Some (d, l) /\ In id l) \/ later st <> []).

Lemma alive_dead id s cs : nth_error cs id = Some s -> c_alive cs id = calive s.
Proof. intros h. unfold c_alive. rewrite h. reflexivity. Qed.

Lemma forgetting_step id st a st' : sh_inv st -> forgetting id st -> step st a = Some st' -> forgetting id st'.
Proof.
  intros iv (h1 & h2 & h3) H. assert (K : ready st = true -> ~ In id (senders st)).
  { intros r. apply ready_true in r as [r1 r2]. destruct h3 as [h3|[(d & l & e & _)|h3]]; auto; congruence. }
  destruct a as [t|t p|t o|t|t|t| |id'|id'| |]; simpl in H.
  - destruct (free st); [|discriminate]. injection H as <-. repeat split; auto.
  - destruct (holds t st && ready st) eqn:F; [|discriminate]. injection H as <-. apply andb_true_iff in F as [_ F]. repeat split; simpl; auto.
  - destruct (holds t st && ready st && negb (failing st)) eqn:F; [|discriminate]. rewrite !andb_true_iff in F. destruct F as [[f1 f2] f3].
    destruct (run o (contents st)) as [[c1 ds] r]. injection H as <-. repeat split; simpl; auto.
  - destruct (holds t st); [|discriminate]. destruct (cur st) as [[d [|id' q]]|] eqn:ec.
    + injection H as <-. repeat split; simpl; auto. destruct h3 as [h3|[(d' & l & e & hi)|h3]]; auto. injection e as <- <-. destruct hi.
    + destruct (csend id' d (chans st)) as [cs b] eqn:E. injection H as <-.
      assert (Hb : length cs = length (chans st) /\ c_alive cs id = c_alive (chans st) id /\ b = c_alive (chans st) id').
      { destruct (csend_spec id' d (chans st)) as (cs' & e1 & e2 & e3). rewrite E in e1. injection e1 as -> ->. split; auto. split; auto. unfold c_alive. rewrite e3.
        destruct (nth_error (chans st) id) as [s|]; [|destruct (id =? id'); reflexivity]. destruct (id =? id'); simpl; rewrite ?calive_send; reflexivity. }
      destruct Hb as (b1 & b2 & b3). split; [simpl; lia|]. split; [simpl; congruence|]. simpl.
      assert (RR : ~ In id (senders st) -> ~ In id (if b then senders st else remove Nat.eq_dec id' (senders st))).
      { intros n. destruct b; auto. intros h. apply List.in_remove in h as [h _]. auto. }
      destruct h3 as [h3|[(d' & l & e & hi)|h3]]; auto. injection e as <- <-. destruct hi as [->|hi]; [|right; left; eauto].
      left. rewrite b3, h2. apply remove_In.
    + destruct (later st) as [|d ds] eqn:el; [discriminate|]. injection H as <-. repeat split; simpl; auto. destruct (in_dec Nat.eq_dec id (senders st)); auto. right. left. eauto.
  - destruct (is_none (writer st) && _ && _); [|discriminate]. injection H as <-. repeat split; auto.
  - destruct (existsb _ _); [|discriminate]. injection H as <-. repeat split; auto.
  - destruct (free st) eqn:F; [|discriminate]. apply free_true in F as (f1 & _). apply (si_idle _ iv) in f1 as (f1 & f2 & _). assert (n : ~ In id (senders st)) by (apply K; unfold ready; rewrite f1, f2; auto).
    injection H as <-. split; [simpl; rewrite app_length; lia|]. split; [unfold c_alive; simpl; rewrite nth_error_app1 by auto; auto|]. left. simpl. rewrite in_app_iff. simpl. intros [h|[h|[]]]; auto. lia.
  - destruct (nth_error (chans st) id') as [s|] eqn:En; [|discriminate]. destruct (calive s) eqn:Ea; [|discriminate]. injection H as <-. split; [simpl; rewrite lupd_length; auto|]. split; auto.
    simpl. destruct (Nat.eq_dec id id') as [->|ne]; [rewrite (alive_dead _ _ _ En) in h2; congruence|]. unfold c_alive. rewrite lupd_other by auto. auto.
  - destruct (nth_error (chans st) id') as [s|] eqn:En; [|discriminate]. destruct (calive s) eqn:Ea; [|discriminate]. injection H as <-. split; [simpl; rewrite lupd_length; auto|]. split; auto.
    simpl. destruct (Nat.eq_dec id id') as [->|ne]; [rewrite (alive_dead _ _ _ En) in h2; congruence|]. unfold c_alive. rewrite lupd_other by auto. auto.
  - destruct (0 <? owners st); [|discriminate]. injection H as <-. repeat split; auto.
  - destruct (owners st) as [|[|n]]; [discriminate| |injection H as <-; repeat split; auto]. destruct (_ && _); [|discriminate]. injection H as <-. split; [simpl; rewrite map_length; auto|]. split; [|simpl; auto].
    unfold c_alive in *. simpl. rewrite nth_error_map. destruct (nth_error (chans st) id) as [s|]; auto.
Qed.

Lemma sh_forgets c acts st id s t o st1 more st2 : ok c -> exec step (sh_init c) acts = Some st -> nth_error (chans st) id = Some s -> calive s = false ->
  step st (AOp t o) = Some st1 -> later st1 <> [] -> exec step st1 more = Some st2 -> ready st2 = true -> ~ In id (senders st2).
Proof.
  intros hc H h1 h2 h3 h4 h5 h6. pose proof (reach _ _ _ hc H) as iv. pose proof (inv_step _ _ _ iv h3) as iv1.
  assert (F : forgetting id st1).
  { simpl in h3. destruct (holds t st && ready st && negb (failing st)); [|discriminate]. destruct (run o (contents st)) as [[c1 ds] r]. injection h3 as <-. simpl in *.
    split; [apply nth_error_Some; simpl; congruence|]. split; simpl; auto. rewrite (alive_dead _ _ _ h1). auto. }
  assert (F2 : sh_inv st2 /\ forgetting id st2).
  { revert h5. apply (exec_inv step (fun x => sh_inv x /\ forgetting id x)); auto. intros x a x' [i1 i2] e. split; [eapply inv_step; eauto|eapply forgetting_step; eauto]. }
  destruct F2 as (_ & _ & _ & F2). apply ready_true in h6 as [r1 r2]. destruct F2 as [F2|[(d & l & e & _)|F2]]; auto; congruence.
Qed.
End Facts.

(** ** MutableVec *)
Section Vec.
Context {A : Type}.

Lemma one_wf (v : list A) : wf (mkVec v [0] [mkSub [] [] true false false] 1 false).
Proof. constructor; simpl; [repeat constructor; auto|intros id [<-|[]]; auto|]. intros _ [|[|id]] s e; simpl in e; [auto|discriminate|discriminate]. Qed.

Lemma vec_run_means (o : op A) v v' ds r : True -> vec_run o v = (v', ds, Some r) -> True /\ apply_all apply_to_vec v ds = Some v' /\ vec_means o v ds v' r.
Proof.
  intros _. unfold vec_run. set (st := mkVec v [0] [mkSub [] [] true false false] 1 false). pose proof (one_wf v) as W. fold st in W.
  destruct (op_event o v) as [(_ & v1 & H)|(n & v1 & ds1 & r1 & a1 & a2 & a3 & H)]; specialize (H st eq_refl W (le_n 1) eq_refl).
  - destruct H as [-> _]. discriminate.
  - destruct H as (e1 & e2 & e3 & e4 & _). destruct (op_exact o v n) as (v2 & r2 & E2). assert (EE : mv_event (EOp o) st = set_values v2 (notify_all (op_sends o v) st)) by (pose proof (E2 st eq_refl) as E3; rewrite e1 in E3; congruence).
    assert (S' : map (recv ds1) (subs st) = map (recv (op_sends o v)) (subs st)) by (rewrite <- e4, EE; apply (notify_all_spec (op_sends o v) st W (le_n 1))).
    simpl in S'. injection S' as S'. rewrite e1, e3, e4. simpl. intros E. injection E as <- <- <-. repeat split; auto.
Qed.

Lemma vec_run_panics (o : op A) v v' ds : True -> vec_run o v = (v', ds, None) -> ds = [] /\ op_panics o v.
Proof.
  intros _. unfold vec_run. set (st := mkVec v [0] [mkSub [] [] true false false] 1 false). pose proof (one_wf v) as W. fold st in W.
  destruct (op_event o v) as [(n & v1 & H)|(_ & v1 & ds1 & r1 & a1 & a2 & a3 & H)]; specialize (H st eq_refl W (le_n 1) eq_refl).
  - destruct H as [-> _]. intros E. injection E as <- <-. auto.
  - destruct H as (-> & _). discriminate.
Qed.

Lemma vec_first_ok (v : list A) : True -> apply_all apply_to_vec [] (vec_first v) = Some v.
Proof. intros _. destruct v; reflexivity. Qed.
End Vec.

(** ** MutableBTreeMap *)
Section Map.
Context {K V : Type} (cmp : K -> K -> comparison) (O : total_order cmp).

Lemma one_mwf (m : list (K * V)) : is_map cmp m -> mwf cmp (mkMap m [0] [new_chan []] 1).
Proof. constructor; simpl; auto; [repeat constructor; auto|intros id [<-|[]]; auto|]. intros _ [|[|id]] s e; simpl in e; [auto|discriminate|discriminate]. Qed.

Lemma map_run_means (o : mop K V) m m' ds r : is_map cmp m -> map_run cmp o m = (m', ds, Some r) ->
  is_map cmp m' /\ apply_all (apply_to_map cmp) m ds = Some m' /\ map_means o m ds m' r.
Proof.
  intros hm. unfold map_run. pose proof (one_mwf m hm) as W.
  destruct (mop_event cmp O o m hm) as (m1 & ds1 & r1 & h1 & h3 & h4 & h2 & H). destruct (H (mkMap m [0] [new_chan []] 1) eq_refl W (le_n 1)) as (st' & e1 & _ & _ & e2 & e3 & _).
  rewrite e1, e2, e3. simpl. intros E. injection E as <- <- <-. repeat split; auto.
Qed.

Lemma map_run_panics (o : mop K V) m m' ds : is_map cmp m -> map_run cmp o m = (m', ds, None) -> ds = [] /\ False.
Proof.
  intros hm. unfold map_run. pose proof (one_mwf m hm) as W.
  destruct (mop_event cmp O o m hm) as (m1 & ds1 & r1 & h1 & _ & _ & h2 & H). destruct (H (mkMap m [0] [new_chan []] 1) eq_refl W (le_n 1)) as (st' & e1 & _ & _ & e2 & e3 & _).
  rewrite e1. discriminate.
Qed.

Lemma map_first_ok (m : list (K * V)) : is_map cmp m -> apply_all (apply_to_map cmp) [] (map_first m) = Some m.
Proof. intros hm. destruct m as [|e m]; [reflexivity|]. cbn [map_first apply_all apply_to_map]. rewrite (from_iter_map cmp O); auto. Qed.
End Map.

(** ** The theorems for each *)
Section VecAll.
Context {A : Type}.
Implicit Types (st : shared (list A) (vecdiff A) (op A) (ret A)) (v : list A) (s : chan (vecdiff A)).

Lemma vec_order v acts st id s : exec vec_step (sh_init v) acts = Some st -> nth_error (chans st) id = Some s ->
  exists l1 ds1 v0 l2 ds2 v', follows vec_means v l1 ds1 v0 /\ follows vec_means v0 l2 ds2 v'
    /\ (calls st = l1 ++ l2 /\ contents st = v' \/ exists t o, calls st = l1 ++ l2 ++ [(t, o, None)] /\ op_panics o v')
    /\ (exists rest, yielded (cgot s) ++ rest = vec_first v0 ++ ds2)
    /\ (exists x, apply_all apply_to_vec [] (yielded (cgot s)) = Some x)
    /\ (calive s = true -> ready st = true -> ctotal s = vec_first v0 ++ ds2).
Proof. exact (sh_order vec_run vec_first apply_to_vec [] (fun _ => True) vec_means op_panics vec_run_means vec_run_panics vec_first_ok v acts st id s I). Qed.

Lemma vec_calls v acts st : exec vec_step (sh_init v) acts = Some st ->
  exists l ds v', follows vec_means v l ds v'
    /\ (calls st = l /\ contents st = v' \/ exists t o, calls st = l ++ [(t, o, None)] /\ op_panics o v' /\ (failing st = true \/ poisoned st = true)).
Proof. exact (sh_calls vec_run vec_first apply_to_vec [] (fun _ => True) vec_means op_panics vec_run_means vec_run_panics vec_first_ok v acts st I). Qed.

Lemma vec_quiet v acts st id s : exec vec_step (sh_init v) acts = Some st -> nth_error (chans st) id = Some s -> calive s = true ->
  ready st = true -> failing st = false -> poisoned st = false -> apply_all apply_to_vec [] (ctotal s) = Some (contents st).
Proof. exact (sh_quiet vec_run vec_first apply_to_vec [] (fun _ => True) vec_means op_panics vec_run_means vec_run_panics vec_first_ok v acts st id s I). Qed.
Lemma vec_wakes v acts st id s : exec vec_step (sh_init v) acts = Some st -> nth_error (chans st) id = Some s -> calive s = true ->
  last_out (cgot s) Pending -> (cwoken s = true <-> cqueue s <> [] \/ owners st = 0).
Proof. exact (sh_wakes_iff vec_run vec_first apply_to_vec [] (fun _ => True) vec_means op_panics vec_run_means vec_run_panics vec_first_ok v acts st id s I). Qed.
Lemma vec_ends v acts st id s : exec vec_step (sh_init v) acts = Some st -> nth_error (chans st) id = Some s -> calive s = true ->
  In (Ready None) (cgot s) -> owners st = 0 /\ exists v', apply_all apply_to_vec [] (yielded (cgot s)) = Some v' /\ (poisoned st = false -> contents st = v').
Proof. exact (sh_ends vec_run vec_first apply_to_vec [] (fun _ => True) vec_means op_panics vec_run_means vec_run_panics vec_first_ok v acts st id s I). Qed.
Lemma vec_guard v acts st t more st' : exec vec_step (sh_init v) acts = Some st -> writer st = Some t ->
  exec vec_step st more = Some st' -> existsb (unlocks t) more = false ->
  writer st' = Some t /\ exists l, calls st' = calls st ++ l /\ forall x, In x l -> fst (fst x) = t.
Proof. exact (sh_guard vec_run vec_first apply_to_vec [] (fun _ => True) vec_means op_panics vec_run_means vec_run_panics vec_first_ok v acts st t more st' I). Qed.
Lemma vec_guard_ref v acts st t more st' : exec vec_step (sh_init v) acts = Some st -> In t (readers st) ->
  exec vec_step st more = Some st' -> existsb (unreads t) more = false ->
  In t (readers st') /\ ready st' = true /\ contents st' = contents st /\ calls st' = calls st.
Proof. exact (sh_guard_ref vec_run vec_first apply_to_vec [] (fun _ => True) vec_means op_panics vec_run_means vec_run_panics vec_first_ok v acts st t more st' I). Qed.
Lemma vec_progress st t : writer st = Some t -> exists n st', exec vec_step st (repeat (ASend t) n) = Some st' /\ writer st' = Some t /\ ready st' = true.
Proof. exact (sh_progress vec_run vec_first st t). Qed.
Lemma vec_forgets v acts st id s t o st1 more st2 : exec vec_step (sh_init v) acts = Some st -> nth_error (chans st) id = Some s -> calive s = false ->
  vec_step st (AOp t o) = Some st1 -> later st1 <> [] -> exec vec_step st1 more = Some st2 -> ready st2 = true -> ~ In id (senders st2).
Proof. exact (sh_forgets vec_run vec_first apply_to_vec [] (fun _ => True) vec_means op_panics vec_run_means vec_run_panics vec_first_ok v acts st id s t o st1 more st2 I). Qed.
End VecAll.

Section MapAll.
Context {K V : Type} (cmp : K -> K -> comparison) (O : total_order cmp).
Implicit Types (st : shared (list (K * V)) (mapdiff K V) (mop K V) (mret V)) (m : list (K * V)) (s : chan (mapdiff K V)).

Lemma map_order m acts st id s : is_map cmp m -> exec (map_step cmp) (sh_init m) acts = Some st -> nth_error (chans st) id = Some s ->
  exists l1 ds1 m0 l2 ds2, follows map_means m l1 ds1 m0 /\ follows map_means m0 l2 ds2 (contents st) /\ calls st = l1 ++ l2
    /\ (exists rest, yielded (cgot s) ++ rest = map_first m0 ++ ds2)
    /\ (exists x, apply_all (apply_to_map cmp) [] (yielded (cgot s)) = Some x)
    /\ (calive s = true -> ready st = true -> ctotal s = map_first m0 ++ ds2).
Proof.
  intros hm H hs. destruct (sh_order (map_run cmp) map_first (apply_to_map cmp) [] (is_map cmp) map_means (fun _ _ => False) (map_run_means cmp O) (map_run_panics cmp O) (map_first_ok cmp O) m acts st id s hm H hs)
    as (l1 & ds1 & m0 & l2 & ds2 & m' & h1 & h2 & [[h3 <-]|(_ & _ & _ & [])] & h4). exists l1, ds1, m0, l2, ds2. auto.
Qed.

Lemma map_calls m acts st : is_map cmp m -> exec (map_step cmp) (sh_init m) acts = Some st -> exists ds, follows map_means m (calls st) ds (contents st).
Proof.
  intros hm H. destruct (sh_calls (map_run cmp) map_first (apply_to_map cmp) [] (is_map cmp) map_means (fun _ _ => False) (map_run_means cmp O) (map_run_panics cmp O) (map_first_ok cmp O) m acts st hm H)
    as (l & ds & m' & h1 & [[<- <-]|(_ & _ & _ & [] & _)]). eauto.
Qed.

Lemma map_good m acts st : is_map cmp m -> exec (map_step cmp) (sh_init m) acts = Some st -> contents st = good st.
Proof. intros hm H. destruct (reach_calls (map_run cmp) map_first (apply_to_map cmp) [] (is_map cmp) map_means (fun _ _ => False) (map_run_means cmp O) (map_run_panics cmp O) (map_first_ok cmp O) m acts st hm H) as (_ & l & _ & [[_ h]|(_ & _ & _ & [] & _)] & _). exact h. Qed.
Lemma map_quiet m acts st id s : is_map cmp m -> exec (map_step cmp) (sh_init m) acts = Some st -> nth_error (chans st) id = Some s -> calive s = true ->
  ready st = true -> apply_all (apply_to_map cmp) [] (ctotal s) = Some (contents st).
Proof.
  intros hm H h1 h2 h3. rewrite (map_good _ _ _ hm H). pose proof (reach (map_run cmp) map_first (apply_to_map cmp) [] (is_map cmp) map_means (fun _ _ => False) (map_run_means cmp O) (map_run_panics cmp O) (map_first_ok cmp O) m acts st hm H) as iv. destruct (start_of _ _ _ _ _ _ _ iv h1) as (p & c0 & _ & [k1 k2 (miss & m1 & m2) _ _ _ _]).
  apply ready_true in h3 as [e1 e2]. rewrite (m2 h2) in m1. unfold unsent in m1. rewrite e1, e2 in m1. simpl in m1. rewrite app_nil_r in m1. rewrite m1, k2. auto.
Qed.
Lemma map_wakes m acts st id s : is_map cmp m -> exec (map_step cmp) (sh_init m) acts = Some st -> nth_error (chans st) id = Some s -> calive s = true ->
  last_out (cgot s) Pending -> (cwoken s = true <-> cqueue s <> [] \/ owners st = 0).
Proof. exact (sh_wakes_iff (map_run cmp) map_first (apply_to_map cmp) [] (is_map cmp) map_means (fun _ _ => False) (map_run_means cmp O) (map_run_panics cmp O) (map_first_ok cmp O) m acts st id s). Qed.
Lemma map_ends m acts st id s : is_map cmp m -> exec (map_step cmp) (sh_init m) acts = Some st -> nth_error (chans st) id = Some s -> calive s = true ->
  In (Ready None) (cgot s) -> owners st = 0 /\ apply_all (apply_to_map cmp) [] (yielded (cgot s)) = Some (contents st).
Proof.
  intros hm H h1 h2 h3. rewrite (map_good _ _ _ hm H). exact (sh_ends_good (map_run cmp) map_first (apply_to_map cmp) [] (is_map cmp) map_means (fun _ _ => False) (map_run_means cmp O) (map_run_panics cmp O) (map_first_ok cmp O) m acts st id s hm H h1 h2 h3).
Qed.
Lemma map_guard m acts st t more st' : is_map cmp m -> exec (map_step cmp) (sh_init m) acts = Some st -> writer st = Some t ->
  exec (map_step cmp) st more = Some st' -> existsb (unlocks t) more = false ->
  writer st' = Some t /\ exists l, calls st' = calls st ++ l /\ forall x, In x l -> fst (fst x) = t.
Proof. exact (sh_guard (map_run cmp) map_first (apply_to_map cmp) [] (is_map cmp) map_means (fun _ _ => False) (map_run_means cmp O) (map_run_panics cmp O) (map_first_ok cmp O) m acts st t more st'). Qed.
Lemma map_guard_ref m acts st t more st' : is_map cmp m -> exec (map_step cmp) (sh_init m) acts = Some st -> In t (readers st) ->
  exec (map_step cmp) st more = Some st' -> existsb (unreads t) more = false ->
  In t (readers st') /\ ready st' = true /\ contents st' = contents st /\ calls st' = calls st.
Proof. exact (sh_guard_ref (map_run cmp) map_first (apply_to_map cmp) [] (is_map cmp) map_means (fun _ _ => False) (map_run_means cmp O) (map_run_panics cmp O) (map_first_ok cmp O) m acts st t more st'). Qed.
Lemma map_forgets m acts st id s t o st1 more st2 : is_map cmp m -> exec (map_step cmp) (sh_init m) acts = Some st -> nth_error (chans st) id = Some s -> calive s = false ->
  map_step cmp st (AOp t o) = Some st1 -> later st1 <> [] -> exec (map_step cmp) st1 more = Some st2 -> ready st2 = true -> ~ In id (senders st2).
Proof. exact (sh_forgets (map_run cmp) map_first (apply_to_map cmp) [] (is_map cmp) map_means (fun _ _ => False) (map_run_means cmp O) (map_run_panics cmp O) (map_first_ok cmp O) m acts st id s t o st1 more st2). Qed.
End MapAll.

Lemma map_progress {K V} (cmp : K -> K -> comparison) (st : shared (list (K * V)) (mapdiff K V) (mop K V) (mret V)) t : writer st = Some t ->
  exists n st', exec (map_step cmp) st (repeat (ASend t) n) = Some st' /\ writer st' = Some t /\ ready st' = true.
Proof. exact (sh_progress (map_run cmp) map_first st t). Qed.

