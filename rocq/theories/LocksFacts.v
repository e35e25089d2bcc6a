(** Nobody waits for ever (C78). *)
From Verif Require Import Base Spec Conc Locks.

Lemma lock_eqb_eq x y : lock_eqb x y = true <-> x = y.
Proof. destruct x, y; cbn; split; intros H; try discriminate; try (apply Nat.eqb_eq in H; congruence); injection H as ->; apply Nat.eqb_refl. Qed.
Lemma before_irrefl x : before x x = false.
Proof. destruct x; cbn; try apply Nat.ltb_irrefl; reflexivity. Qed.
Lemma before_trans x y z : before x y = true -> before y z = true -> before x z = true.
Proof. destruct x, y, z; cbn; intros H1 H2; try discriminate; try reflexivity; apply Nat.ltb_lt in H1; apply Nat.ltb_lt in H2; apply Nat.ltb_lt; lia. Qed.

Definition disciplined (s : list thread) : Prop := forall t, In t s -> disc (fst t) (snd t).

Lemma in_lupd {A} i (x y t : A) l : nth_error l i = Some y -> In t (lupd i x l) -> t = x \/ In t l.
Proof.
  intros H I. apply In_nth_error in I. destruct I as (j & I). destruct (Nat.eq_dec i j) as [<-|N].
  - rewrite (lupd_same _ _ _ _ H) in I. left. congruence.
  - rewrite lupd_other in I by assumption. right. eapply nth_error_In, I.
Qed.

Lemma step_disc b s i s' : disciplined s -> lk_step b s i = Some s' -> disciplined s'.
Proof.
  intros D. unfold lk_step. destruct (nth_error s i) as [[h p]|] eqn:E; [|discriminate].
  assert (Di := D _ (nth_error_In _ _ E)). cbn in Di.
  destruct p as [|[l [|]|l] p]; [discriminate| | |]; cbn in Di; destruct Di as (_ & Di).
  - destruct (existsb (holds l) s); [discriminate|]. intros H. injection H as <-. intros t I. destruct (in_lupd _ _ _ _ _ E I) as [->|I']; [exact Di|apply D, I'].
  - destruct (_ || _); [discriminate|]. intros H. injection H as <-. intros t I. destruct (in_lupd _ _ _ _ _ E I) as [->|I']; [exact Di|apply D, I'].
  - intros H. injection H as <-. intros t I. destruct (in_lupd _ _ _ _ _ E I) as [->|I']; [exact Di|apply D, I'].
Qed.

(** A lock that nobody holds can be taken by somebody who wants it. *)
Lemma free_go (s : list thread) i h l w p : nth_error s i = Some (h, Acq l w :: p) -> existsb (holds l) s = false -> exists j s', lk_step true s j = Some s'.
Proof.
  intros E F. destruct w.
  - exists i. unfold lk_step. rewrite E, F. eauto.
  - assert (existsb (holds_write l) s = false) as F'.
    { destruct (existsb (holds_write l) s) eqn:X; [|reflexivity]. apply existsb_exists in X. destruct X as (t & I & X). apply existsb_exists in X. destruct X as (y & J & X).
      apply andb_true_iff in X. rewrite <- F. symmetry. apply existsb_exists. exists t. split; [exact I|]. apply existsb_exists. exists y. tauto. }
    destruct (existsb (wants_write l) s) eqn:W.
    + apply existsb_exists in W. destruct W as ([h' p'] & I & W). apply In_nth_error in I. destruct I as (j & J). unfold wants_write in W. cbn in W.
      destruct p' as [|[k [|]|k] p']; try discriminate. apply lock_eqb_eq in W. subst k. exists j. unfold lk_step. rewrite J, F. eauto.
    + exists i. unfold lk_step. rewrite E, F', W. cbn. eauto.
Qed.

Lemma top_lock (h : list (lock * bool)) : h <> [] -> exists x, In x h /\ forall y, In y h -> before (fst x) (fst y) = false.
Proof.
  induction h as [|x h IH]; [congruence|]. intros _. destruct h as [|z h].
  - exists x. split; [left; reflexivity|]. intros y [<-|[]]. apply before_irrefl.
  - destruct IH as (t & I & T); [discriminate|]. destruct (before (fst t) (fst x)) eqn:B.
    + exists x. split; [left; reflexivity|]. intros y [<-|Y]; [apply before_irrefl|]. destruct (before (fst x) (fst y)) eqn:B2; [|reflexivity].
      rewrite <- (T y Y). symmetry. eapply before_trans; eassumption.
    + exists t. split; [right; exact I|]. intros y [<-|Y]; [exact B|apply T, Y].
Qed.

Lemma lk_progress s : disciplined s -> ~ finished s -> exists i s', lk_step true s i = Some s'.
Proof.
  intros D N. destruct (flat_map fst s) as [|x0 hs0] eqn:A.
  - (* nobody holds anything *)
    assert (HN : forall t, In t s -> fst t = []).
    { intros t I. destruct (fst t) as [|y ys] eqn:Y; [reflexivity|]. exfalso. assert (In y (flat_map fst s)) as J by (apply in_flat_map; exists t; rewrite Y; split; [exact I|left; reflexivity]). rewrite A in J. exact J. }
    assert (exists i h a p, nth_error s i = Some (h, a :: p)) as (i & h & a & p & E).
    { clear A D. revert N HN. clear. induction s as [|[h p] s IH]; intros N HN; [exfalso; apply N; intros t []|].
      assert (h = []) as -> by exact (HN _ (or_introl eq_refl)). destruct p as [|a p]; [|exists 0, [], a, p; reflexivity].
      destruct IH as (i & H); [|intros t I; apply HN; right; exact I|exists (S i); exact H]. intros F. apply N. intros t [<-|I]; [reflexivity|apply F, I]. }
    assert (I := nth_error_In _ _ E). assert (h = []) as -> by exact (HN _ I). assert (Di := D _ I). cbn in Di. destruct a as [l w|l].
    + eapply free_go; [exact E|]. destruct (existsb (holds l) s) eqn:X; [|reflexivity]. apply existsb_exists in X. destruct X as (t & It & X). unfold holds in X. rewrite (HN _ It) in X. discriminate.
    + destruct Di as ((x & [] & _) & _).
  - destruct (top_lock (flat_map fst s)) as (x & I & T); [rewrite A; discriminate|]. apply in_flat_map in I. destruct I as ([h p] & It & Ix). cbn in Ix.
    assert (Di := D _ It). apply In_nth_error in It. destruct It as (i & E). cbn in Di. destruct p as [|[l w|l] p]; cbn in Di.
    + subst h. destruct Ix.
    + destruct Di as (B & _). eapply free_go; [exact E|]. destruct (existsb (holds l) s) eqn:X; [|reflexivity]. apply existsb_exists in X. destruct X as (t & Jt & X).
      apply existsb_exists in X. destruct X as (y & Jy & X). apply lock_eqb_eq in X. specialize (B x Ix). rewrite <- X in B. rewrite T in B; [discriminate|]. apply in_flat_map. eauto.
    + exists i. unfold lk_step, thread in *. rewrite E. eauto.
Qed.

Lemma left_lupd i h a p h' (s : list thread) : nth_error s i = Some (h, a :: p) -> left s = S (left (lupd i (h', p) s)).
Proof.
  unfold left. revert i. induction s as [|t s IH]; intros [|i] E; try discriminate.
  - cbn in E. injection E as ->. reflexivity.
  - cbn in E. apply IH in E. cbn. unfold list_sum in E. rewrite E. lia.
Qed.
Lemma left_step b s i s' : lk_step b s i = Some s' -> left s = S (left s').
Proof.
  unfold lk_step. destruct (nth_error s i) as [[h p]|] eqn:E; [|discriminate]. destruct p as [|[l [|]|l] p]; [discriminate| | |].
  - destruct (existsb (holds l) s); [discriminate|]. intros H. injection H as <-. eapply left_lupd, E.
  - destruct (_ || _); [discriminate|]. intros H. injection H as <-. eapply left_lupd, E.
  - intros H. injection H as <-. eapply left_lupd, E.
Qed.
Lemma left_exec b l s s' : exec (lk_step b) s l = Some s' -> left s = length l + left s'.
Proof.
  revert s. induction l as [|i l IH]; intros s; cbn; [intros H; injection H as ->; reflexivity|]. destruct (lk_step b s i) as [s1|] eqn:E; [|discriminate]. cbn. intros H.
  rewrite (left_step _ _ _ _ E), (IH _ H). reflexivity.
Qed.

Lemma finished_dec s : finished s \/ ~ finished s.
Proof.
  induction s as [|[[|x h] [|a p]] s IH]; [left; intros t []| | | |].
  - destruct IH as [F|F]; [left; intros t [<-|I]; [reflexivity|apply F, I]|right; intros G; apply F; intros t I; apply G; right; exact I].
  - right. intros G. specialize (G _ (or_introl eq_refl)). discriminate.
  - right. intros G. specialize (G _ (or_introl eq_refl)). discriminate.
  - right. intros G. specialize (G _ (or_introl eq_refl)). discriminate.
Qed.

Lemma lk_finishes s : disciplined s -> exists l s', exec (lk_step true) s l = Some s' /\ finished s'.
Proof.
  remember (left s) as n eqn:En. revert s En. induction n as [n IH] using lt_wf_ind. intros s En D. destruct (finished_dec s) as [F|F].
  - exists [], s. split; [reflexivity|exact F].
  - destruct (lk_progress s D F) as (i & s1 & E). destruct (IH (left s1)) with (s := s1) as (l & s' & X & F').
    + rewrite En, (left_step _ _ _ _ E). lia.
    + reflexivity.
    + eapply step_disc; eassumption.
    + exists (i :: l), s'. split; [cbn; rewrite E; exact X|exact F'].
Qed.

(** *** The library obeys the rule *)
Lemma release_head l w h : release l ((l, w) :: h) = h.
Proof. cbn. assert (lock_eqb l l = true) as -> by (apply lock_eqb_eq; reflexivity). reflexivity. Qed.

(** All locks that [c] takes come after [o], nested ones after the outer. *)
Fixpoint rising (o : option lock) (c : code) : Prop :=
  match c with
  | Skip => True
  | Seq c d => rising o c /\ rising o d
  | Under l _ c => beyond o l /\ rising (Some l) c
  end.
Lemma rising_weaken o o' c : (forall l, beyond o l -> beyond o' l) -> rising o c -> rising o' c.
Proof. induction c as [|c IHc d IHd|l w c IH]; cbn; intros H R; [exact I| |]; destruct R as (R1 & R2); auto. Qed.
Lemma rising_seqs o cs : (forall c, In c cs -> rising o c) -> rising o (seqs cs).
Proof. induction cs as [|c cs IH]; cbn; intros H; [exact I|]. split; [apply H; left; reflexivity|apply IH; intros d J; apply H; right; exact J]. Qed.

Lemma rising_disc c : forall o h p, rising o c -> (forall l, beyond o l -> forall x, In x h -> before (fst x) l = true) -> disc h p -> disc h (acts c ++ p).
Proof.
  induction c as [|c IHc d IHd|l w c IH]; cbn; intros o h p R H D; [exact D| |].
  - destruct R as (R1 & R2). rewrite <- app_assoc. eapply IHc; [exact R1|exact H|]. eapply IHd; [exact R2|exact H|exact D].
  - destruct R as (R1 & R2). split; [apply H, R1|]. rewrite <- app_assoc. eapply IH; [exact R2| |].
    + cbn. intros k B x [<-|J]; [exact B|]. eapply before_trans; [apply (H _ R1 _ J)|exact B].
    + change ([Rel l] ++ p) with (Rel l :: p). cbn [disc]. split; [exists (l, w); split; [left; reflexivity|reflexivity]|]. rewrite release_head. exact D.
Qed.

Scheme wakeup_mut := Induction for wakeup Sort Prop with wakeups_mut := Induction for wakeups Sort Prop.
Combined Scheme wakeup_both from wakeup_mut, wakeups_mut.

Definition from (n : nat) (o : option lock) : Prop := match o with Some (Wakers b) => b < n | Some (Slot _) => False | _ => True end.
Lemma from_wakers n o b : from n o -> n <= b -> beyond o (Wakers b).
Proof. destruct o as [[]|]; cbn; intros F L; try reflexivity; try exact I; try contradiction. apply Nat.ltb_lt. lia. Qed.
Lemma from_slot n o k : from n o -> beyond o (Slot k).
Proof. destruct o as [[]|]; cbn; intros F; try reflexivity; try exact I; contradiction. Qed.
Lemma beyond_from o : beyond o (Wakers 0) -> from 0 o.
Proof. destruct o as [[]|]; cbn; intros H; try exact I; try discriminate. Qed.

Lemma wakeup_rises : forall n, (forall c, wakeup n c -> forall o, from n o -> rising o c) /\ (forall ws, wakeups n ws -> forall o, from n o -> rising o (seqs (map wake ws))).
Proof.
  assert (forall n, (forall c (H : wakeup n c) o, from n o -> rising o c) /\ (forall ws (H : wakeups n ws) o, from n o -> rising o (seqs (map wake ws)))) as X.
  2: { intros n. destruct (X n) as (X1 & X2). split; intros; eauto. }
  intros n. split.
  - intros c H. induction H as [n|n b ws L _ IH|n|n k w ws _ IH1 _ IH2] using wakeup_mut
      with (P0 := fun n ws _ => forall o, from n o -> rising o (seqs (map wake ws))); intros o F.
    + exact I.
    + cbn. split; [eapply from_wakers; eassumption|]. apply IH. cbn. lia.
    + exact I.
    + cbn. split; [split; [split; [eapply from_slot; eassumption|exact I]|apply IH1, F]|apply IH2, F].
  - intros c H. induction H as [n|n b ws L _ IH|n|n k w ws _ IH1 _ IH2] using wakeups_mut
      with (P := fun n c _ => forall o, from n o -> rising o c); intros o F.
    + exact I.
    + cbn. split; [eapply from_wakers; eassumption|]. apply IH. cbn. lia.
    + exact I.
    + cbn. split; [split; [split; [eapply from_slot; eassumption|exact I]|apply IH1, F]|apply IH2, F].
Qed.

Lemma lib_rises : forall o c, lib o c -> rising o c.
Proof.
  fix IH 3. intros o c [|c' d H1 H2|m u B H|m u ws B H W|a b us vs B L W1 W2|m us B H|k B|b p f B H1 H2|b f B H|b B|w B W|k w B W].
  - exact I.
  - cbn. split; apply IH; assumption.
  - cbn. split; [exact B|apply IH, H].
  - cbn. split; [exact B|]. split; [apply IH, H|apply (wakeup_rises 0); [exact W|exact I]].
  - cbn. split; [exact B|]. split; [apply Nat.ltb_lt, L|]. split; (apply (wakeup_rises 0); [assumption|exact I]).
  - cbn. split; [exact B|]. clear B. revert us H. fix IHl 2. intros us [|u us' [H|H] Hs]; cbn; [exact I| |]; (split; [|apply IHl, Hs]); [apply IH, H|apply (wakeup_rises 0); [exact H|exact I]].
  - cbn. auto.
  - cbn. split; [exact B|]. split; apply IH; assumption.
  - cbn. split; [exact B|apply IH, H].
  - cbn. auto.
  - apply (wakeup_rises 0); [exact W|apply beyond_from, B].
  - cbn. split; [split; [eapply from_slot, beyond_from, B|exact I]|]. apply (wakeup_rises 0); [exact W|apply beyond_from, B].
Qed.

Lemma lib_disciplined cs : (forall c, In c cs -> lib None c) -> disciplined (begin cs).
Proof.
  intros H t I. unfold begin in I. apply in_map_iff in I. destruct I as (c & <- & J). cbn. rewrite <- (app_nil_r (acts c)).
  eapply rising_disc; [apply lib_rises, H, J| |reflexivity]. intros l _ x [].
Qed.

(** The theorems. *)
Lemma lib_never_stuck cs l s : (forall c, In c cs -> lib None c) -> exec (lk_step false) (begin cs) l = Some s ->
  finished s \/ exists i s', lk_step true s i = Some s'.
Proof.
  intros H E. destruct (finished_dec s) as [F|F]; [left; exact F|right]. apply lk_progress; [|exact F].
  eapply (exec_inv (lk_step false) disciplined); [|apply lib_disciplined, H|exact E]. intros; eapply step_disc; eassumption.
Qed.
Lemma lib_finishes cs l s : (forall c, In c cs -> lib None c) -> exec (lk_step false) (begin cs) l = Some s ->
  exists l2 s2, exec (lk_step true) s l2 = Some s2 /\ finished s2.
Proof.
  intros H E. apply lk_finishes. eapply (exec_inv (lk_step false) disciplined); [|apply lib_disciplined, H|exact E]. intros; eapply step_disc; eassumption.
Qed.
Lemma lk_bounded b cs l s : exec (lk_step b) (begin cs) l = Some s -> length l <= left (begin cs).
Proof. intros E. apply left_exec in E. lia. Qed.
(** Guards that are dropped in any order. *)
Lemma disc_finishes ps l s : (forall p, In p ps -> disc [] p) -> exec (lk_step false) (map (fun p => ([], p)) ps) l = Some s ->
  exists l2 s2, exec (lk_step true) s l2 = Some s2 /\ finished s2.
Proof.
  intros H E. apply lk_finishes. eapply (exec_inv (lk_step false) disciplined); [| |exact E].
  - intros; eapply step_disc; eassumption.
  - intros t I. apply in_map_iff in I. destruct I as (p & <- & J). exact (H _ J).
Qed.

(** Two threads have the same lock only if both read. *)
Definition excl (s : list thread) : Prop := forall i j t u l, i <> j -> nth_error s i = Some t -> nth_error s j = Some u -> holds_write l t = true -> holds l u = false.
Lemma holds_write_holds l t : holds_write l t = true -> holds l t = true.
Proof. unfold holds_write, holds. rewrite !existsb_exists. intros (x & I & H). apply andb_true_iff in H. exists x. tauto. Qed.
Lemma existsb_nth {A} (f : A -> bool) s i x : existsb f s = false -> nth_error s i = Some x -> f x = false.
Proof. intros F E. destruct (f x) eqn:X; [|reflexivity]. rewrite <- F. symmetry. apply existsb_exists. exists x. split; [eapply nth_error_In, E|exact X]. Qed.
Lemma holds_release l k h p q : holds l (release k h, p) = true -> holds l (h, q) = true.
Proof.
  unfold holds. cbn. induction h as [|x h IH]; cbn; [exact (fun H => H)|]. destruct (lock_eqb (fst x) k); cbn; [intros ->; apply orb_true_r|].
  intros H. apply orb_true_iff in H. apply orb_true_iff. tauto.
Qed.
Lemma holds_write_release l k h p q : holds_write l (release k h, p) = true -> holds_write l (h, q) = true.
Proof.
  unfold holds_write. cbn. induction h as [|x h IH]; cbn; [exact (fun H => H)|]. destruct (lock_eqb (fst x) k); cbn; [intros ->; apply orb_true_r|].
  intros H. apply orb_true_iff in H. apply orb_true_iff. tauto.
Qed.

Lemma excl_gain s i h p t' : excl s -> nth_error s i = Some (h, p) ->
  (forall j u l, i <> j -> nth_error s j = Some u -> (holds_write l t' = true -> holds l u = false) /\ (holds_write l u = true -> holds l t' = false)) ->
  excl (lupd i t' s).
Proof.
  intros X E H a b t u l N A B W. destruct (Nat.eq_dec i a) as [<-|Na].
  - rewrite (lupd_same _ _ _ _ E) in A. injection A as <-. rewrite lupd_other in B by exact N. apply (H _ _ l N B), W.
  - rewrite lupd_other in A by exact Na. destruct (Nat.eq_dec i b) as [<-|Nb].
    + rewrite (lupd_same _ _ _ _ E) in B. injection B as <-. apply (H _ _ l Na A), W.
    + rewrite lupd_other in B by exact Nb. exact (X a b t u l N A B W).
Qed.

Lemma step_excl b s i s' : excl s -> lk_step b s i = Some s' -> excl s'.
Proof.
  intros X. unfold lk_step. destruct (nth_error s i) as [[h p]|] eqn:E; [|discriminate]. destruct p as [|[l [|]|l] p]; [discriminate| | |].
  - destruct (existsb (holds l) s) eqn:F; [discriminate|]. intros H. injection H as <-. eapply excl_gain; [exact X|exact E|]. intros j u k N B. split; intros W.
    + unfold holds_write in W. cbn in W. apply orb_true_iff in W. destruct W as [W|W].
      * rewrite andb_true_r in W. apply lock_eqb_eq in W. subst k. eapply existsb_nth; eassumption.
      * eapply (X i j); eassumption.
    + unfold holds. cbn. apply orb_false_iff. split.
      * destruct (lock_eqb l k) eqn:Q; [|reflexivity]. apply lock_eqb_eq in Q. subst k. apply holds_write_holds in W. rewrite (existsb_nth _ _ _ _ F B) in W. discriminate.
      * eapply (X j i u (h, Acq l true :: p) k); [congruence|exact B|exact E|exact W].
  - destruct (existsb (holds_write l) s) eqn:F; [discriminate|]. cbn. destruct (b && _); [discriminate|]. intros H. injection H as <-. eapply excl_gain; [exact X|exact E|].
    intros j u k N B. split; intros W.
    + unfold holds_write in W. cbn in W. rewrite andb_false_r in W. cbn in W. eapply (X i j); eassumption.
    + unfold holds. cbn. apply orb_false_iff. split.
      * destruct (lock_eqb l k) eqn:Q; [|reflexivity]. apply lock_eqb_eq in Q. subst k. rewrite (existsb_nth _ _ _ _ F B) in W. discriminate.
      * eapply (X j i u (h, Acq l false :: p) k); [congruence|exact B|exact E|exact W].
  - intros H. injection H as <-. eapply excl_gain; [exact X|exact E|]. intros j u k N B. split; intros W.
    + apply (holds_write_release _ _ _ _ (Rel l :: p)) in W. eapply (X i j); eassumption.
    + destruct (holds k (release l h, p)) eqn:Q; [|reflexivity]. apply (holds_release _ _ _ _ (Rel l :: p)) in Q.
      rewrite (X j i u _ k (fun e => N (eq_sym e)) B E W) in Q. discriminate.
Qed.
Lemma lk_excl b cs l s : exec (lk_step b) (begin cs) l = Some s -> excl s.
Proof.
  intros E. eapply (exec_inv (lk_step b) excl); [intros; eapply step_excl; eassumption| |exact E]. intros i j t u k N A _ W.
  apply nth_error_In in A. unfold begin in A. apply in_map_iff in A. destruct A as (c & <- & _). discriminate.
Qed.

Ltac is_stuck := split; [intros F; specialize (F _ (or_introl eq_refl)); discriminate|intros i; do 5 (destruct i as [|i]; [reflexivity|]); reflexivity].

(** *** Readers do not exclude each other *)
Definition inside (l : lock) (u : code) : thread := ([(l, false)], acts u ++ [Rel l]).
Lemma lupd_app {A} (x y : A) l1 l2 : lupd (length l1) x (l1 ++ y :: l2) = l1 ++ x :: l2.
Proof. induction l1 as [|a l1 IH]; cbn; [reflexivity|]. f_equal. exact IH. Qed.
Lemma readers_in l us2 : forall us1, (forall u, In u (us1 ++ us2) -> rising (Some l) u) ->
  exec (lk_step true) (map (inside l) us1 ++ begin (map (Under l false) us2)) (seq (length us1) (length us2)) = Some (map (inside l) (us1 ++ us2)).
Proof.
  induction us2 as [|u us2 IH]; intros us1 R; cbn [length seq exec].
  - unfold begin. cbn [map]. rewrite !app_nil_r. reflexivity.
  - assert (lk_step true (map (inside l) us1 ++ begin (map (Under l false) (u :: us2))) (length us1) = Some (map (inside l) (us1 ++ [u]) ++ begin (map (Under l false) us2))) as ->.
    { assert (nth_error (map (inside l) us1 ++ begin (map (Under l false) (u :: us2))) (length us1) = Some ([], Acq l false :: acts u ++ [Rel l])) as N.
      { rewrite nth_error_app2 by (rewrite map_length; lia). rewrite map_length, Nat.sub_diag. reflexivity. }
      unfold lk_step. rewrite N.
      assert (existsb (holds_write l) (map (inside l) us1 ++ begin (map (Under l false) (u :: us2))) = false) as ->.
      { apply not_true_is_false. intros X. apply existsb_exists in X. destruct X as (t & I & X). apply in_app_iff in I. unfold begin in I. rewrite !in_map_iff in I.
        destruct I as [(v & <- & _)|(v & <- & _)]; cbn in X; [rewrite andb_false_r in X|]; discriminate. }
      assert (existsb (wants_write l) (map (inside l) us1 ++ begin (map (Under l false) (u :: us2))) = false) as ->.
      { apply not_true_is_false. intros X. apply existsb_exists in X. destruct X as (t & I & X). apply in_app_iff in I. unfold begin in I. rewrite map_map, !in_map_iff in I.
        destruct I as [(v & <- & J)|(v & <- & _)]; [|discriminate]. unfold wants_write in X. cbn in X.
        assert (D : disc [(l, false)] (acts v ++ [Rel l])).
        { eapply (rising_disc v (Some l)).
          - apply R, in_app_iff. left. exact J.
          - cbn. intros k B x [<-|[]]. exact B.
          - cbn. split; [exists (l, false); split; [left; reflexivity|reflexivity]|]. assert (lock_eqb l l = true) as -> by (apply lock_eqb_eq; reflexivity). reflexivity. }
        destruct (acts v ++ [Rel l]) as [|[k [|]|k] q]; try discriminate. apply lock_eqb_eq in X. subst k. cbn in D. destruct D as (D & _).
        specialize (D _ (or_introl eq_refl)). cbn in D. rewrite before_irrefl in D. discriminate. }
      cbn [andb orb]. apply (f_equal Some). rewrite <- (map_length (inside l) us1) at 1. etransitivity; [apply (lupd_app _ ([], acts (Under l false u)))|]. rewrite map_app, <- app_assoc. reflexivity. }
    cbn. specialize (IH (us1 ++ [u])). rewrite <- !app_assoc in IH. rewrite app_length in IH. cbn in IH. rewrite Nat.add_1_r in IH. apply IH. exact R.
Qed.
Lemma readers_together m us : (forall u, In u us -> lib (Some (State m)) u) ->
  exists s, exec (lk_step true) (begin (map (read m) us)) (seq 0 (length us)) = Some s /\ length s = length us /\ forall t, In t s -> holds (State m) t = true.
Proof.
  intros H. exists (map (inside (State m)) us). split; [|split].
  - apply (readers_in (State m) us []). intros u I. apply lib_rises, H, I.
  - apply map_length.
  - intros t I. apply in_map_iff in I. destruct I as (u & <- & _). cbn. rewrite Nat.eqb_refl. reflexivity.
Qed.
Lemma lookers_together b us : (forall u, In u us -> lib (Some (Inner b)) u) ->
  exists s, exec (lk_step true) (begin (map (look b) us)) (seq 0 (length us)) = Some s /\ length s = length us /\ forall t, In t s -> holds (Inner b) t = true.
Proof.
  intros H. exists (map (inside (Inner b)) us). split; [|split].
  - apply (readers_in (Inner b) us []). intros u I. apply lib_rises, H, I.
  - apply map_length.
  - intros t I. apply in_map_iff in I. destruct I as (u & <- & _). cbn. rewrite Nat.eqb_refl. reflexivity.
Qed.
