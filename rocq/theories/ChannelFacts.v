(** Proofs about the channel model. *)
From Verif Require Import Base Spec BaseFacts Conc Channel.
From Coq Require Import NArith ZifyBool ZifyNat ZifyN.

Section Ch.
Context {A : Type} (v0 : A).
Implicit Type s : ch_st A.
Local Arguments N.of_nat : simpl never.

(** The call holds an Arc. *)
Definition holding (c : nat * ch_pc A) : bool :=
  match snd c with
  | PSendUp _ | PCloseUp | PCloneUp | PDropUp => false
  | p => negb (ch_returned p)
  end.
Definition is_drop (p : ch_pc A) : bool :=
  match p with PDropUp | PDropChk | PDropSub | PNotify KDropS | PWake KDropS _ | PRetDrop => true | _ => false end.
Definition notifying (c : nat * ch_pc A) : bool := match snd c with PNotify _ => true | _ => false end.
Definition rx_count s : nat := match c_rx s with RGone => 0 | _ => 1 end.

Ltac inj := repeat match goal with H : Some _ = Some _ |- _ => injection H as H; subst end.
Ltac break_if := match goal with |- context [if ?b then _ else _] => destruct b eqn:? end.

(** Case analysis of one move. *)
Ltac ch_cases E :=
  match type of E with ch_step ?s ?m = Some ?s' =>
    destruct m as [h v|h|h|h|i| | |];
    unfold ch_step, begin, rx_step in E;
    repeat match type of E with
    | context [existsb (Nat.eqb ?h) ?l] => destruct (existsb (Nat.eqb h) l) eqn:?; try discriminate E
    | context [borrowed ?s ?h] => destruct (borrowed s h) eqn:?; try discriminate E
    | context [nth_error (c_ops s) ?i] => destruct (nth_error (c_ops s) i) as [[h p]|] eqn:Hop; try discriminate E
    | context [c_rx s] => destruct (c_rx s) eqn:Hrx; try discriminate E
    end;
    try (cbn [fst snd] in E; unfold op_step in E;
         match goal with Hop : nth_error _ _ = Some (_, ?p) |- _ => destruct p end; try discriminate E;
         try match goal with k : ch_kind A |- _ => destruct k end);
    repeat match type of E with
    | context [if c_strong s =? 0 then _ else _] => destruct (c_strong s =? 0) eqn:?
    | context [if has_senders s then _ else _] => destruct (has_senders s) eqn:?
    | context [if (c_senders s =? 1)%N then _ else _] => destruct (c_senders s =? 1)%N eqn:?
    | context [match c_waker s with _ => _ end] => destruct (c_waker s) eqn:?
    | context [match c_value s with _ => _ end] => destruct (c_value s) eqn:?
    end;
    injection E as <-
  end.

Record inv1 s : Prop := {
  i_strong : c_strong s = rx_count s + count holding (c_ops s);
  i_nodup : NoDup (c_live s);
  i_lt : forall h, In h (c_live s) -> h < c_next s;
  i_borrow : forall i h p, nth_error (c_ops s) i = Some (h, p) -> ch_returned p = false -> is_drop p = false ->
               In h (c_live s);
  i_bound : length (c_live s) + count dropping (c_ops s) <= c_next s }.

Lemma in_live s h : existsb (Nat.eqb h) (c_live s) = true -> In h (c_live s).
Proof. rewrite existsb_exists. intros (x & Hx & E). apply Nat.eqb_eq in E. subst. exact Hx. Qed.

Lemma remove_length (l : list nat) h : NoDup l -> In h l ->
  S (length (filter (fun x => negb (x =? h)) l)) = length l.
Proof.
  induction l as [|x l IH]; simpl; intros N H; [tauto|]. inversion N as [|? ? Nx Nl]; subst.
  destruct (Nat.eqb_spec x h) as [->|n]; simpl.
  - f_equal. clear - Nx. induction l as [|y l IH]; simpl; auto.
    destruct (Nat.eqb_spec y h) as [->|n]; simpl.
    + exfalso. apply Nx. left; auto.
    + f_equal. apply IH. intros H. apply Nx. right; auto.
  - f_equal. apply IH; auto. destruct H; congruence.
Qed.

Lemma release_ops s : c_ops (release s) = c_ops s.
Proof. unfold release. destruct (c_strong s =? 1); reflexivity. Qed.
Lemma release_live s : c_live (release s) = c_live s.
Proof. unfold release. destruct (c_strong s =? 1); reflexivity. Qed.
Lemma release_next s : c_next (release s) = c_next s.
Proof. unfold release. destruct (c_strong s =? 1); reflexivity. Qed.
Lemma release_rx s : c_rx (release s) = c_rx s.
Proof. unfold release. destruct (c_strong s =? 1); reflexivity. Qed.
Lemma release_sent s : c_sent (release s) = c_sent s.
Proof. unfold release. destruct (c_strong s =? 1); reflexivity. Qed.
Lemma release_answers s : c_answers (release s) = c_answers s.
Proof. unfold release. destruct (c_strong s =? 1); reflexivity. Qed.
Lemma release_woken s : c_woken (release s) = c_woken s.
Proof. unfold release. destruct (c_strong s =? 1); reflexivity. Qed.
Lemma release_waiting s : c_waiting (release s) = c_waiting s.
Proof. unfold release. destruct (c_strong s =? 1); reflexivity. Qed.
Lemma release_polls s : c_polls (release s) = c_polls s.
Proof. unfold release. destruct (c_strong s =? 1); reflexivity. Qed.
Lemma release_raced s : c_raced (release s) = c_raced s.
Proof. unfold release. destruct (c_strong s =? 1); reflexivity. Qed.
Lemma release_overtaken s : c_overtaken (release s) = c_overtaken s.
Proof. unfold release. destruct (c_strong s =? 1); reflexivity. Qed.
Lemma release_closed s : c_closed (release s) = c_closed s.
Proof. unfold release. destruct (c_strong s =? 1); reflexivity. Qed.
Lemma release_close_race s : c_close_race (release s) = c_close_race s.
Proof. unfold release. destruct (c_strong s =? 1); reflexivity. Qed.
Lemma release_senders s : c_senders (release s) = c_senders s.
Proof. unfold release. destruct (c_strong s =? 1); reflexivity. Qed.
Lemma release_strong s : c_strong (release s) = c_strong s - 1.
Proof. unfold release. destruct (c_strong s =? 1); reflexivity. Qed.
Lemma release_value s : c_strong s <> 1 -> c_value (release s) = c_value s.
Proof. unfold release. destruct (Nat.eqb_spec (c_strong s) 1); [congruence|reflexivity]. Qed.
Lemma release_waker s : c_strong s <> 1 -> c_waker (release s) = c_waker s.
Proof. unfold release. destruct (Nat.eqb_spec (c_strong s) 1); [congruence|reflexivity]. Qed.

Lemma inv1_init : inv1 (ch_init v0).
Proof.
  constructor; simpl; auto.
  - repeat constructor; auto.
  - intros h [<-|[]]. lia.
  - intros [|i] h p H; discriminate.
Qed.


Ltac counts :=
  try match goal with Hop : nth_error (c_ops ?s) ?i = Some ?c |- context [lupd ?i ?d (c_ops ?s)] =>
    pose proof (count_lupd holding (c_ops s) i c d Hop); pose proof (count_lupd dropping (c_ops s) i c d Hop);
    pose proof (count_lupd notifying (c_ops s) i c d Hop) end;
  simpl in *.
Ltac proj_release := rewrite ?release_ops, ?release_live, ?release_next, ?release_rx, ?release_sent, ?release_answers, ?release_woken, ?release_waiting, ?release_polls, ?release_raced, ?release_overtaken, ?release_closed, ?release_close_race, ?release_senders, ?release_strong.

Lemma borrow_upd s i h p d j h' p' :
  (forall i h p, nth_error (c_ops s) i = Some (h, p) -> ch_returned p = false -> is_drop p = false -> In h (c_live s)) ->
  nth_error (c_ops s) i = Some (h, p) ->
  nth_error (lupd i (h, d) (c_ops s)) j = Some (h', p') -> ch_returned p' = false -> is_drop p' = false ->
  ch_returned p = false -> is_drop p = is_drop d ->
  In h' (c_live s).
Proof.
  intros I Hop H Rn Dn Rp Ed. apply lupd_inv in H. destruct H as [[-> H]|[_ H]].
  - injection H as -> ->. apply (I _ _ _ Hop); auto. congruence.
  - eauto.
Qed.

Lemma inv1_step s m s' : inv1 s -> ch_step s m = Some s' -> inv1 s'.
Proof.
  intros [I1 I2 I3 I4 I5] E. ch_cases E;
  (constructor; unfold rx_count in *; proj_release; simpl in *; rewrite ?count_snoc; simpl; counts;
    rewrite ?app_length; simpl; try lia; auto);
  match goal with
  | |- context [@ch_returned] => intros j h' p' Hj R D;
      first [ exact (borrow_upd _ _ _ _ _ _ _ _ I4 Hop Hj R D eq_refl eq_refl)
            | apply in_or_app; left; exact (borrow_upd _ _ _ _ _ _ _ _ I4 Hop Hj R D eq_refl eq_refl)
            | apply snoc_inv in Hj; destruct Hj as [[_ Hj]|[_ Hj]]; [injection Hj as -> ->|]; eauto using in_live; fail
            | idtac ]
  | |- NoDup (_ ++ _) => apply (Permutation_NoDup (l := c_next s :: c_live s)); [apply Permutation_cons_append|];
       constructor; auto; intros Hi; apply I3 in Hi; lia
  | |- forall h, In h (_ ++ _) -> _ => intros x Hx; apply in_app_or in Hx; destruct Hx as [Hx|[<-|[]]];
       [apply I3 in Hx|]; lia
  | _ => idtac end.
  all: try match goal with Hr : c_rx _ = _, I : c_strong _ = _ |- _ => rewrite Hr in I; simpl in I; lia end.
  - apply NoDup_filter. auto.
  - intros x H. apply filter_In in H. apply I3, H.
  - apply snoc_inv in Hj. destruct Hj as [[_ Hj]|[_ Hj]]; [injection Hj as -> ->; discriminate|].
    apply filter_In. split; [eapply I4; eauto|].
    destruct (Nat.eqb_spec h' h) as [->|n]; auto. exfalso.
    unfold borrowed in *. apply nth_error_In in Hj.
    assert (X : existsb (fun c => (fst c =? h) && negb (ch_returned (snd c))) (c_ops s) = true).
    { apply existsb_exists. exists (h, p'). split; auto. simpl. rewrite Nat.eqb_refl, R. reflexivity. }
    congruence.
  - assert (Hl : In h (c_live s)) by (apply in_live; auto).
    pose proof (remove_length _ _ I2 Hl). lia.
Qed.

Lemma inv1_reach l s : exec ch_step (ch_init v0) l = Some s -> inv1 s.
Proof. apply exec_inv; [apply inv1_step|apply inv1_init]. Qed.

(** While the Receiver exists and a call holds an Arc, releasing it does not free Inner. *)
Lemma two_strong s i h p : inv1 s -> c_rx s <> RGone -> nth_error (c_ops s) i = Some (h, p) ->
  holding (h, p) = true -> 2 <= c_strong s.
Proof.
  intros I R H Hh. rewrite (i_strong s I). pose proof (count_pos holding _ _ _ H Hh).
  unfold rx_count. destruct (c_rx s); try lia. congruence.
Qed.

(** ** C50 *)
Definition val_ok s : Prop :=
  subseq (yielded (c_answers s)) (map snd (c_sent s)) /\
  (c_rx s <> RGone ->
   match c_value s with
   | Some v => exists p i, c_sent s = p ++ [(i, v)] /\ subseq (yielded (c_answers s)) (map snd p)
   | None => exists p i v q, c_sent s = p ++ [(i, v)] /\ yielded (c_answers s) = q ++ [v] /\ subseq q (map snd p)
   end).

Lemma yielded_snoc {B} (l : list (poll (option B))) r :
  yielded (l ++ [r]) = yielded l ++ match r with Ready (Some v) => [v] | _ => [] end.
Proof. rewrite yielded_app. destruct r as [|[x|]]; reflexivity. Qed.


(** The rest of a call's step, when only the control state changed. *)
Ltac two I := match goal with
  | R : c_rx ?s <> RGone, Hop : nth_error (c_ops ?s) ?i = Some (?h, ?p) |- _ =>
      pose proof (two_strong s i h p I R Hop eq_refl) end.

Lemma val_ok_init : val_ok (ch_init v0).
Proof.
  split; simpl; [apply subseq_nil|]. intros _. exists [], None. split; [reflexivity|]. constructor.
Qed.

Lemma val_ok_step s m s' : inv1 s -> val_ok s -> ch_step s m = Some s' -> val_ok s'.
Proof.
  intros I [V1 V2] E. ch_cases E; unfold val_ok; proj_release; simpl;
    try (split; [assumption|assumption]);
    try (split; [assumption|intros R; two I; rewrite release_value; simpl; [apply V2; exact R|lia]]; fail).
  - (* store *)
    split.
    + rewrite map_app. apply subseq_skip_snoc. exact V1.
    + intros _. exists (c_sent s), (Some i). split; [reflexivity|exact V1].
  - split; [exact V1|]. intros _. apply V2. congruence.
  - (* take: a value *)
    destruct (V2 ltac:(congruence)) as (p & i & Es & Hs).
    rewrite yielded_snoc, Es, map_app. split.
    + apply subseq_take_snoc. exact Hs.
    + intros _. exists p, i, a, (yielded (c_answers s)). auto.
  - (* take: nothing *)
    split; [exact V1|]. intros _. rewrite Heqo. apply V2. congruence.
  - split; [exact V1|]. intros _. apply V2. congruence.
  - rewrite yielded_snoc, app_nil_r. split; [exact V1|]. intros _. apply V2. congruence.
  - rewrite yielded_snoc, app_nil_r. split; [exact V1|]. intros _. apply V2. congruence.
  - split; [exact V1|]. congruence.
Qed.

Lemma val_ok_reach l s : exec ch_step (ch_init v0) l = Some s -> val_ok s.
Proof.
  intros H. refine (proj2 (exec_inv ch_step (fun s => inv1 s /\ val_ok s) _ l (ch_init v0) s _ H)).
  - intros x m x' [I V] E. split; [eapply inv1_step; eauto|eapply val_ok_step; eauto].
  - split; [apply inv1_init|apply val_ok_init].
Qed.

(** Which calls have stored their value, and which value it was. *)
Definition stored (p : ch_pc A) : option A :=
  match p with PNotify (KSend v) | PWake (KSend v) _ | PRetSend true v => Some v | _ => None end.

Record send_ok s : Prop := {
  so_log : forall i v, In (Some i, v) (c_sent s) ->
             exists h p, nth_error (c_ops s) i = Some (h, p) /\ stored p = Some v;
  so_ops : forall i h p v, nth_error (c_ops s) i = Some (h, p) -> stored p = Some v -> In (Some i, v) (c_sent s);
  so_once : NoDup (map fst (c_sent s)) }.

Lemma send_ok_init : send_ok (ch_init v0).
Proof.
  constructor; simpl.
  - intros i v [H|[]]. discriminate.
  - intros [|i] h p v H; discriminate.
  - repeat constructor; auto.
Qed.

Lemma send_ok_keep s i h p d :
  send_ok s -> nth_error (c_ops s) i = Some (h, p) -> stored d = stored p ->
  (forall j v, In (Some j, v) (c_sent s) ->
      exists h' p', nth_error (lupd i (h, d) (c_ops s)) j = Some (h', p') /\ stored p' = Some v)
  /\ (forall j h' p' v, nth_error (lupd i (h, d) (c_ops s)) j = Some (h', p') -> stored p' = Some v ->
        In (Some j, v) (c_sent s)).
Proof.
  intros [S1 S2 S3] Hop Es. split.
  - intros j v H. destruct (S1 j v H) as (h' & p' & Hj & Hs). destruct (Nat.eq_dec i j) as [<-|n].
    + exists h, d. split; [eapply lupd_same; eauto|]. congruence.
    + exists h', p'. rewrite lupd_other by auto. auto.
  - intros j h' p' v H Hs. apply lupd_inv in H. destruct H as [[<- H]|[_ H]]; [|eauto].
    injection H as -> ->. eapply S2; eauto. congruence.
Qed.

Lemma send_ok_step s m s' : send_ok s -> ch_step s m = Some s' -> send_ok s'.
Proof.
  intros S E. pose proof S as [S1 S2 S3]. ch_cases E;
  try (constructor; proj_release; simpl; auto; fail);
  try (constructor; proj_release; simpl; auto;
       [ refine (proj1 (send_ok_keep s _ _ _ _ S Hop _)) | refine (proj2 (send_ok_keep s _ _ _ _ S Hop _))];
       reflexivity).
  1-4: constructor; simpl; auto;
    [ intros j w Hj; destruct (S1 j w Hj) as (h' & p' & Ho & Hs); exists h', p'; split; auto; apply snoc_old; auto
    | intros j h' p' w Hj Hs; apply snoc_inv in Hj; destruct Hj as [[_ Hj]|[_ Hj]];
      [injection Hj as -> ->; discriminate|eauto]].
  (* store *)
  assert (Hnew : forall w, ~ In (Some i, w) (c_sent s)).
  { intros w Hw. destruct (S1 _ _ Hw) as (h' & p' & Ho & Hs). rewrite Hop in Ho. injection Ho as <- <-. discriminate. }
  constructor; simpl.
  - intros j w H. apply in_app_or in H. destruct H as [H|[H|[]]].
    + destruct (S1 _ _ H) as (h' & p' & Ho & Hs). exists h', p'. split; auto. rewrite lupd_other; auto.
      intros <-. eapply Hnew; eauto.
    + injection H as -> ->. exists h, (PNotify (KSend w)). split; [eapply lupd_same; eauto|reflexivity].
  - intros j h' p' w H Hs. apply in_or_app. apply lupd_inv in H. destruct H as [[<- H]|[_ H]].
    + injection H as -> ->. simpl in Hs. injection Hs as ->. right. left. reflexivity.
    + left. eauto.
  - rewrite map_app. simpl. apply (Permutation_NoDup (l := Some i :: map fst (c_sent s))).
    { apply Permutation_cons_append. }
    constructor; auto. intros H. apply in_map_iff in H. destruct H as ([o w] & Eo & H). simpl in Eo. subst o.
    eapply Hnew; eauto.
Qed.

(** ** C52: the counter *)
Lemma has_senders_spec s : has_senders s = true <-> c_senders s <> 0%N.
Proof. unfold has_senders. destruct (N.eqb_spec (c_senders s) 0); simpl; split; congruence. Qed.

Notation sane := undisturbed.

Definition cnt_ok s : Prop :=
  sane s -> 0 < c_strong s ->
  if c_closed s then c_senders s = 0%N /\ count mid_count (c_ops s) = 0
  else c_senders s = N.of_nat (length (c_live s) + count dropping (c_ops s)).

Lemma cnt_ok_init : cnt_ok (ch_init v0).
Proof. intros _ _. reflexivity. Qed.

Lemma existsb_count {B} (f : B -> bool) l : existsb f l = false -> count f l = 0.
Proof.
  unfold count. induction l as [|x l IH]; simpl; auto. destruct (f x); simpl; [discriminate|auto].
Qed.

Ltac all_counts :=
  try match goal with Hop : nth_error (c_ops ?s) ?i = Some ?c |- context [lupd ?i ?d (c_ops ?s)] =>
    pose proof (count_lupd holding (c_ops s) i c d Hop); pose proof (count_lupd dropping (c_ops s) i c d Hop);
    pose proof (count_lupd mid_count (c_ops s) i c d Hop);
    pose proof (count_lupd notifying (c_ops s) i c d Hop) end;
  simpl in *.

Lemma live_pos s h : In h (c_live s) -> 0 < length (c_live s).
Proof. destruct (c_live s); simpl; [tauto|lia]. Qed.


Lemma cnt_ok_step s m s' : inv1 s -> cnt_ok s -> ch_step s m = Some s' -> cnt_ok s'.
Proof.
  intros I C E.
  assert (Hlp : forall i h p, nth_error (c_ops s) i = Some (h, p) -> ch_returned p = false -> is_drop p = false ->
            0 < length (c_live s)).
  { intros j h' p' H1 H2 H3. eapply live_pos, (i_borrow s I); eauto. }
  pose proof (i_bound s I) as Ib. pose proof (i_strong s I) as Is.
  ch_cases E; unfold cnt_ok, undisturbed; proj_release; simpl; rewrite ?count_snoc; simpl; all_counts;
    intros [G1 G2] G3;
    try (apply orb_false_elim in G1; destruct G1 as [G1 G1']);
    try specialize (Hlp _ _ _ Hop eq_refl eq_refl);
    (assert (Hn : (N.of_nat (c_next s) <= usize_max)%N) by lia);
    (assert (Hst : 0 < c_strong s) by (unfold rx_count in *; rewrite ?Hrx in *; lia));
    specialize (C (conj G1 Hn) Hst);
    rewrite ?app_length; simpl; unfold has_senders, wrap_add, wrap_sub, usize_max in *;
    destruct (c_closed s); try lia;
    repeat match goal with |- context [(?a =? ?b)%N] => destruct (N.eqb_spec a b) end; try lia.
  - match goal with Hl : existsb (Nat.eqb ?h) (c_live s) = true |- _ =>
      pose proof (remove_length _ _ (i_nodup s I) (in_live s h Hl)) end. lia.
  - apply existsb_count in G1'. lia.
Qed.

(** ** C51: wake-ups *)
Definition ready_now s : Prop := c_value s <> None \/ (sane s /\ c_senders s = 0%N).

Definition wk_ok s : Prop :=
  c_raced s = false ->
  match c_rx s with
  | RIdle => c_waiting s = true ->
      In (c_polls s) (c_woken s)
      \/ (exists i h k, nth_error (c_ops s) i = Some (h, PWake k (c_polls s)))
      \/ (c_waker s = Some (c_polls s) /\ (ready_now s -> 0 < count notifying (c_ops s)))
  | RChk => c_value s <> None -> 0 < count notifying (c_ops s)
  | RStore => ready_now s -> 0 < count notifying (c_ops s)
  | _ => True
  end.

Lemma wk_ok_init : wk_ok (ch_init v0).
Proof. intros _. simpl. discriminate. Qed.

Definition waking (p : ch_pc A) : bool := match p with PWake _ _ => true | _ => false end.

(** A step of call [i] that neither notifies nor wakes. *)
Lemma wk_frame s s' i h p d :
  wk_ok s -> nth_error (c_ops s) i = Some (h, p) -> c_ops s' = lupd i (h, d) (c_ops s) ->
  notifying (h, p) = false -> waking p = false ->
  c_raced s' = c_raced s -> c_rx s' = c_rx s -> c_waiting s' = c_waiting s -> c_polls s' = c_polls s ->
  c_woken s' = c_woken s -> (c_rx s <> RGone -> c_waker s' = c_waker s) ->
  (c_rx s <> RGone -> c_value s' <> None -> c_value s <> None \/ notifying (h, d) = true) ->
  (c_rx s <> RGone -> sane s' -> c_senders s' = 0%N -> (sane s /\ c_senders s = 0%N) \/ notifying (h, d) = true) ->
  wk_ok s'.
Proof.
  intros W Hop Eo Np Wp E1 E2 E3 E4 E5 Ew Ev Es Hr. rewrite E1 in Hr. specialize (W Hr).
  pose proof (count_lupd notifying (c_ops s) i (h, p) (h, d) Hop) as CN. rewrite Np in CN. simpl in CN.
  assert (Hn : c_rx s <> RGone -> forall X : Prop, (X -> 0 < count notifying (c_ops s)) ->
                (X \/ notifying (h, d) = true) -> 0 < count notifying (lupd i (h, d) (c_ops s))).
  { intros _ X HX [Hx|Hd]; [specialize (HX Hx); lia|]. rewrite Hd in CN. simpl in CN. lia. }
  assert (Hrn : c_rx s <> RGone -> ready_now s' -> ready_now s \/ notifying (h, d) = true).
  { intros R [H|[H1 H2]].
    - destruct (Ev R H); [left; left; auto|auto].
    - destruct (Es R H1 H2); [left; right; auto|auto]. }
  rewrite E2. destruct (c_rx s) eqn:Hrx; auto.
  - intros Hw. rewrite E3 in Hw. rewrite E4, E5. destruct (W Hw) as [H|[(j & h' & k & H)|[H1 H2]]]; auto.
    + right; left. exists j, h', k. rewrite Eo. rewrite lupd_other; auto.
      intros <-. rewrite Hop in H. injection H as <- ->. discriminate.
    + right; right. rewrite Ew by congruence. split; auto. rewrite Eo. intros Hrd.
      apply (Hn ltac:(congruence) (ready_now s)); auto. apply Hrn; auto. congruence.
  - rewrite Eo. intros Hv. apply (Hn ltac:(congruence) (c_value s <> None)); auto. apply Ev; auto. congruence.
  - rewrite Eo. intros Hv. apply (Hn ltac:(congruence) (ready_now s)); auto. apply Hrn; auto. congruence.
Qed.

Lemma raced_true s : c_rx s = RChk \/ c_rx s = RStore -> c_raced (log_notify s) = true.
Proof. intros [H|H]; simpl; rewrite H; apply orb_true_r. Qed.

Lemma wk_new s s' h p :
  wk_ok s -> c_ops s' = c_ops s ++ [(h, p)] -> notifying (h, p) = false ->
  c_raced s' = c_raced s -> c_rx s' = c_rx s -> c_waiting s' = c_waiting s -> c_polls s' = c_polls s ->
  c_woken s' = c_woken s -> c_waker s' = c_waker s -> c_value s' = c_value s -> c_senders s' = c_senders s ->
  c_close_race s' = c_close_race s -> c_next s' = c_next s -> wk_ok s'.
Proof.
  intros W Eo Np E1 E2 E3 E4 E5 E6 E7 E8 E9 E10 Hr. rewrite E1 in Hr. specialize (W Hr).
  rewrite E2, E3, E4, E5, E6, Eo, count_snoc, Np. unfold ready_now, undisturbed in *. rewrite E7, E8, E9, E10. simpl.
  rewrite Nat.add_0_r. destruct (c_rx s); auto.
  intros Hw. destruct (W Hw) as [H|[(j & h' & k & H)|H]]; auto.
  right; left. exists j, h', k. apply snoc_old. auto.
Qed.

Lemma wk_notify_some s i h k w :
  wk_ok s -> nth_error (c_ops s) i = Some (h, PNotify k) -> c_waker s = Some w ->
  wk_ok (goto (set_waker (log_notify s) None) i h (PWake k w)).
Proof.
  intros W Hop Ew Hr. simpl in Hr. apply orb_false_elim in Hr. destruct Hr as [Hr Hx].
  specialize (W Hr). simpl. destruct (c_rx s); auto; try discriminate.
  intros Hw. destruct (W Hw) as [H|[(j & h' & k' & H)|[H1 H2]]]; auto.
  - right; left. exists j, h', k'. rewrite lupd_other; auto. intros <-. congruence.
  - right; left. exists i, h, k. rewrite Ew in H1. injection H1 as ->. eapply lupd_same; eauto.
Qed.

Lemma wk_notify_none s i h k d :
  wk_ok s -> nth_error (c_ops s) i = Some (h, PNotify k) -> c_waker s = None ->
  inv1 s -> wk_ok (release (goto (log_notify s) i h d)).
Proof.
  intros W Hop Ew I Hr. rewrite release_raced in Hr. simpl in Hr. apply orb_false_elim in Hr. destruct Hr as [Hr Hx].
  specialize (W Hr). proj_release. simpl. destruct (c_rx s); auto; try discriminate.
  intros Hw. destruct (W Hw) as [H|[(j & h' & k' & H)|[H1 H2]]]; auto.
  - right; left. exists j, h', k'. rewrite lupd_other; auto. intros <-. congruence.
  - congruence.
Qed.

Lemma wk_wake s i h k w d :
  inv1 s -> wk_ok s -> nth_error (c_ops s) i = Some (h, PWake k w) -> ch_returned d = true ->
  wk_ok (release (goto (log_woken s w) i h d)).
Proof.
  intros I W Hop Rd Hr. rewrite release_raced in Hr. simpl in Hr. specialize (W Hr).
  pose proof (count_lupd notifying (c_ops s) i (h, PWake k w) (h, d) Hop) as CN.
  assert (Nd : notifying (h, d) = false) by (destruct d; try discriminate; reflexivity). rewrite Nd in CN. simpl in CN.
  assert (Hv : c_rx s <> RGone -> c_value (release (goto (log_woken s w) i h d)) = c_value s
                /\ c_waker (release (goto (log_woken s w) i h d)) = c_waker s).
  { intros R. two I. rewrite release_value, release_waker by (simpl; lia). auto. }
  unfold ready_now, undisturbed in *. proj_release. simpl. destruct (c_rx s) eqn:Hrx; auto.
  - destruct (Hv ltac:(congruence)) as [-> ->].
    intros Hw. destruct (W Hw) as [H|[(j & h' & k' & H)|[H1 H2]]].
    + left. apply in_or_app; auto.
    + destruct (Nat.eq_dec i j) as [<-|n].
      * rewrite Hop in H. injection H as <- <- ->. left. apply in_or_app. right. left. reflexivity.
      * right; left. exists j, h', k'. rewrite lupd_other; auto.
    + right; right. split; auto. intros X. specialize (H2 X). lia.
  - destruct (Hv ltac:(congruence)) as [-> _]. intros X. specialize (W X). lia.
  - destruct (Hv ltac:(congruence)) as [-> _]. intros X. specialize (W X). lia.
Qed.

Lemma wk_ok_step s m s' : inv1 s -> cnt_ok s -> wk_ok s -> ch_step s m = Some s' -> wk_ok s'.
Proof.
  intros I C W E.
  ch_cases E.
  (* steps of calls that only move on *)
  all: try (eapply wk_frame; [exact W|exact Hop|proj_release; reflexivity|reflexivity|reflexivity
     |proj_release; reflexivity|proj_release; reflexivity|proj_release; reflexivity|proj_release; reflexivity
     |proj_release; reflexivity
     |intros R; two I; rewrite ?release_waker by (simpl; lia); reflexivity
     |intros R; two I; rewrite ?release_value by (simpl; lia); simpl; auto
     |intros R; unfold undisturbed; proj_release; simpl; auto]; fail).
  all: try (eapply wk_frame; [exact W|exact Hop|reflexivity|reflexivity|reflexivity|reflexivity|reflexivity|reflexivity
     |reflexivity|reflexivity|reflexivity|simpl; auto|unfold undisturbed; simpl; auto]; fail).
  (* new calls *)
  1-4: eapply wk_new; [exact W|reflexivity..].
  (* clone returns *)
  1-3: eapply wk_frame; [exact W|exact Hop|proj_release; reflexivity|reflexivity|reflexivity
     |proj_release; reflexivity|proj_release; reflexivity|proj_release; reflexivity|proj_release; reflexivity
     |proj_release; reflexivity
     |intros R; try two I; rewrite ?release_waker by (simpl; lia); reflexivity
     |intros R; try two I; rewrite ?release_value by (simpl; lia); simpl; auto
     |intros R; unfold undisturbed; proj_release; simpl; intros [G1 G2] G3].
  - left. repeat split; auto. lia.
  - left. repeat split; auto. lia.
  - exfalso. assert (Hn : (N.of_nat (c_next s) <= usize_max)%N) by lia.
    two I. specialize (C (conj G1 Hn) ltac:(lia)). pose proof (i_bound s I).
    pose proof (count_pos mid_count _ _ _ Hop eq_refl).
    unfold wrap_add in G3. destruct (c_closed s); [lia|].
    destruct (N.eqb_spec (c_senders s) usize_max); lia.
  - (* drop, not the last *)
    eapply wk_frame; [exact W|exact Hop|proj_release; reflexivity|reflexivity|reflexivity
     |proj_release; reflexivity|proj_release; reflexivity|proj_release; reflexivity|proj_release; reflexivity
     |proj_release; reflexivity
     |intros R; two I; rewrite ?release_waker by (simpl; lia); reflexivity
     |intros R; two I; rewrite ?release_value by (simpl; lia); simpl; auto
     |intros R; unfold undisturbed; proj_release; simpl; intros [G1 G2] G3].
    exfalso. apply N.eqb_neq in Heqb. unfold wrap_sub, usize_max in G3. destruct (N.eqb_spec (c_senders s) 0); lia.
  - eapply wk_notify_some; eauto; reflexivity.
  - eapply wk_notify_none; eauto; proj_release; reflexivity.
  - eapply wk_notify_some; eauto; reflexivity.
  - eapply wk_notify_none; eauto; proj_release; reflexivity.
  - eapply wk_notify_some; eauto; reflexivity.
  - eapply wk_notify_none; eauto; proj_release; reflexivity.
  - eapply wk_wake; eauto; reflexivity.
  - eapply wk_wake; eauto; reflexivity.
  - eapply wk_wake; eauto; reflexivity.
  - intros _. simpl. exact Logic.I.
  - intros _. simpl. discriminate.
  - intros Hr. simpl. rewrite Heqo. congruence.
  - intros Hr. simpl in *. unfold wk_ok in W. rewrite Hrx in W. intros [H|[_ H]]; [auto|].
    apply has_senders_spec in Heqb. simpl in H. congruence.
  - intros _. simpl. discriminate.
  - intros Hr. simpl in *. unfold wk_ok in W. rewrite Hrx in W. intros _. right. right.
    split; [reflexivity|]. intros Hrd. apply W; auto.
  - intros _. rewrite release_rx. simpl. exact Logic.I.
Qed.

(** ** C51: the end *)
Definition ovt_ok s : Prop := c_rx s = RChk -> c_overtaken s = false -> c_value s = None.

Lemma ovt_ok_step s m s' : inv1 s -> ovt_ok s -> ch_step s m = Some s' -> ovt_ok s'.
Proof.
  intros I W E. unfold ovt_ok in *. ch_cases E; proj_release; simpl; auto; try congruence;
    try (intros Hr; assert (R : c_rx s <> RGone) by congruence; two I; rewrite ?release_value by (simpl; lia);
         simpl; auto; fail).
  intros Hr Ho. rewrite Hr in Ho. rewrite orb_true_r in Ho. discriminate.
Qed.

(** ** All invariants together *)
Record all_inv s : Prop := {
  a_1 : inv1 s; a_val : val_ok s; a_send : send_ok s; a_cnt : cnt_ok s; a_wk : wk_ok s; a_ovt : ovt_ok s }.

Lemma all_init : all_inv (ch_init v0).
Proof.
  constructor; [apply inv1_init|apply val_ok_init|apply send_ok_init|apply cnt_ok_init|apply wk_ok_init|].
  unfold ovt_ok. discriminate.
Qed.

Lemma all_step s m s' : all_inv s -> ch_step s m = Some s' -> all_inv s'.
Proof.
  intros [] E. constructor;
    [eapply inv1_step|eapply val_ok_step|eapply send_ok_step|eapply cnt_ok_step|eapply wk_ok_step|eapply ovt_ok_step]; eauto.
Qed.

Lemma all_reach l s : exec ch_step (ch_init v0) l = Some s -> all_inv s.
Proof. apply exec_inv; [apply all_step|apply all_init]. Qed.

(** ** What never goes back *)
Record later s s' : Prop := {
  l_sent : exists ext, c_sent s' = c_sent s ++ ext;
  l_next : c_next s <= c_next s';
  l_closed : c_closed s = true -> c_closed s' = true;
  l_race : c_close_race s = true -> c_close_race s' = true;
  l_ops : length (c_ops s) <= length (c_ops s');
  l_dead : c_live s = [] -> count (fun c => negb (ch_returned (snd c))) (c_ops s) = 0 -> c_live s' = [] /\ c_ops s' = c_ops s }.

Lemma later_refl s : later s s.
Proof. constructor; auto. exists []. rewrite app_nil_r. reflexivity. Qed.

Lemma later_step s m s' : ch_step s m = Some s' -> later s s'.
Proof.
  intros E. ch_cases E; constructor; proj_release; simpl;
    rewrite ?lupd_length, ?app_length; simpl; auto; try lia;
    try (exists []; rewrite app_nil_r; reflexivity);
    try (eexists; reflexivity);
    try (intros ->; reflexivity);
    try (intros Hl; rewrite Hl in *; discriminate);
    try (intros Hl Hc; exfalso;
         pose proof (count_pos (fun c => negb (ch_returned (snd c))) _ _ _ Hop eq_refl); simpl in *; lia).
Qed.

Lemma later_trans a b c : later a b -> later b c -> later a c.
Proof.
  intros [[e1 E1] N1 C1 R1 O1 D1] [[e2 E2] N2 C2 R2 O2 D2]. constructor; auto; try lia.
  - exists (e1 ++ e2). rewrite E2, E1, app_assoc. reflexivity.
  - intros H1 H2. destruct (D1 H1 H2) as [X1 X2]. rewrite <- X2 in H2. destruct (D2 X1 H2) as [X3 X4].
    split; [exact X3|congruence].
Qed.

Lemma later_exec l s s' : exec ch_step s l = Some s' -> later s s'.
Proof.
  revert s. induction l as [|m l IH]; simpl; intros s E.
  - injection E as <-. apply later_refl.
  - destruct (ch_step s m) as [s1|] eqn:E1; [|discriminate]. eapply later_trans; [eapply later_step; eauto|auto].
Qed.

(** ** Claims *)
Lemma ch_order l s : exec ch_step (ch_init v0) l = Some s ->
  subseq (yielded (c_answers s)) (map snd (c_sent s))
  /\ NoDup (map fst (c_sent s))
  /\ (exists ext, c_sent s = (None, v0) :: ext)
  /\ (forall i v, In (Some i, v) (c_sent s) ->
        exists h p, nth_error (c_ops s) i = Some (h, p) /\ send_arg p = Some v)
  /\ (forall i h v, nth_error (c_ops s) i = Some (h, PRetSend true v) -> In (Some i, v) (c_sent s))
  /\ (forall i h v w, nth_error (c_ops s) i = Some (h, PRetSend false v) -> ~ In (Some i, w) (c_sent s)).
Proof.
  intros H. pose proof (all_reach _ _ H) as [I V [S1 S2 S3] _ _ _].
  split; [apply V|]. split; [exact S3|]. split; [exact (l_sent _ _ (later_exec _ _ _ H))|].
  split; [|split].
  - intros i v Hi. destruct (S1 i v Hi) as (h & p & Ho & Hs). exists h, p. split; auto.
    destruct p as [| | | | | | | | | | | |[]|[] ?|[] ?| | |]; try discriminate; exact Hs.
  - intros i h v Hi. eapply S2; eauto.
  - intros i h v w Hi Hin. destruct (S1 _ _ Hin) as (h' & p & Ho & Hs). rewrite Hi in Ho.
    injection Ho as <- <-. discriminate.
Qed.

Lemma ch_latest l s : exec ch_step (ch_init v0) l = Some s -> c_rx s <> RGone ->
  match c_value s with
  | Some v => holds_last (c_sent s) (yielded (c_answers s)) v
  | None => shown_last (c_sent s) (yielded (c_answers s))
  end.
Proof. intros H. apply (a_val _ (all_reach _ _ H)). Qed.

Lemma ch_real_time l1 s1 l2 s2 i j h h' v w :
  exec ch_step (ch_init v0) l1 = Some s1 -> exec ch_step s1 l2 = Some s2 ->
  nth_error (c_ops s1) i = Some (h, PRetSend true v) ->
  nth_error (c_ops s2) j = Some (h', PRetSend true w) -> length (c_ops s1) <= j ->
  exists a b c, c_sent s2 = a ++ (Some i, v) :: b ++ (Some j, w) :: c.
Proof.
  intros H1 H2 Hi Hj L.
  assert (H12 : exec ch_step (ch_init v0) (l1 ++ l2) = Some s2) by (rewrite exec_app, H1; exact H2).
  pose proof (all_reach _ _ H1) as [_ _ [S1 S2 S3] _ _ _].
  pose proof (all_reach _ _ H12) as [_ _ [T1 T2 T3] _ _ _].
  destruct (l_sent _ _ (later_exec _ _ _ H2)) as [ext E].
  assert (Hin : In (Some i, v) (c_sent s1)) by (eapply S2; eauto).
  assert (Hjn : In (Some j, w) (c_sent s2)) by (eapply T2; eauto).
  rewrite E in Hjn. apply in_app_or in Hjn. destruct Hjn as [Hjn|Hjn].
  - exfalso. destruct (S1 _ _ Hjn) as (h'' & p & Ho & _).
    assert (j < length (c_ops s1)) by (apply nth_error_Some; congruence). lia.
  - apply in_split in Hin. destruct Hin as (a & b & Ea). apply in_split in Hjn. destruct Hjn as (b' & c & Eb).
    exists a, (b ++ b'), c. rewrite E, Ea, Eb. rewrite <- !app_assoc. simpl. rewrite <- ?app_assoc. reflexivity.
Qed.

Lemma idle_counts s : ch_idle s = true ->
  (forall i h p, nth_error (c_ops s) i = Some (h, p) -> ch_returned p = true)
  /\ count notifying (c_ops s) = 0 /\ count dropping (c_ops s) = 0 /\ count holding (c_ops s) = 0
  /\ (c_rx s = RIdle \/ c_rx s = RGone).
Proof.
  unfold ch_idle. rewrite andb_true_iff, forallb_forall. intros [F R].
  assert (F' : forall i h p, nth_error (c_ops s) i = Some (h, p) -> ch_returned p = true).
  { intros i h p H. apply nth_error_In in H. exact (F _ H). }
  assert (Hc : forall f : nat * ch_pc A -> bool, (forall c, f c = true -> ch_returned (snd c) = false) ->
            count f (c_ops s) = 0).
  { intros f Hf. destruct (count f (c_ops s)) eqn:E; auto. exfalso.
    destruct (count_ex f (c_ops s)) as (i & [h p] & Hi & Hx); [lia|].
    apply Hf in Hx. simpl in Hx. rewrite (F' _ _ _ Hi) in Hx. discriminate. }
  split; [exact F'|]. split; [|split; [|split]].
  - apply Hc. intros [h p]. destruct p; try discriminate; reflexivity.
  - apply Hc. intros [h p]. destruct p; try discriminate; reflexivity.
  - apply Hc. intros [h p]. destruct p; try discriminate; reflexivity.
  - destruct (c_rx s); try discriminate; auto.
Qed.

(** C51, wake-ups, when no notify ran in the middle of the poll. *)
Lemma ch_woken l s : exec ch_step (ch_init v0) l = Some s ->
  ch_idle s = true -> c_rx s = RIdle -> c_waiting s = true -> c_raced s = false ->
  In (c_polls s) (c_woken s) \/ (c_value s = None /\ (undisturbed s -> has_senders s = true)).
Proof.
  intros H Hid Hrx Hw Hr. pose proof (all_reach _ _ H) as [_ _ _ _ W _].
  specialize (W Hr). rewrite Hrx in W. destruct (idle_counts _ Hid) as (F & N & _).
  destruct (W Hw) as [Hin|[(i & h & k & Hi)|[_ Hrd]]]; auto.
  - apply F in Hi. discriminate.
  - right. rewrite N in Hrd. split.
    + destruct (c_value s) eqn:E; auto. exfalso. assert (0 < 0); [|lia]. apply Hrd. left. congruence.
    + intros Hs. apply has_senders_spec. intros E. assert (0 < 0); [|lia]. apply Hrd. right. auto.
Qed.

(** The wake-up is on its way even while calls are in progress. *)
Lemma ch_woken_soon l s : exec ch_step (ch_init v0) l = Some s ->
  c_rx s = RIdle -> c_waiting s = true -> c_raced s = false ->
  c_value s <> None \/ (undisturbed s /\ has_senders s = false) ->
  In (c_polls s) (c_woken s)
  \/ (exists i h k, nth_error (c_ops s) i = Some (h, PWake k (c_polls s)))
  \/ (c_waker s = Some (c_polls s) /\ exists i h k, nth_error (c_ops s) i = Some (h, PNotify k)).
Proof.
  intros H Hrx Hw Hr Hrd. pose proof (all_reach _ _ H) as [_ _ _ _ W _].
  specialize (W Hr). rewrite Hrx in W. destruct (W Hw) as [Hin|[Hin|[H1 H2]]]; auto.
  right. right. split; auto.
  assert (R : ready_now s).
  { destruct Hrd as [|[U X]]; [left; auto|right; split; auto].
    unfold has_senders in X. destruct (N.eqb_spec (c_senders s) 0); auto. discriminate. }
  destruct (count_ex _ _ (H2 R)) as (i & [h p] & Hi & Hn). exists i, h. destruct p; try discriminate. eauto.
Qed.

(** C51, the end. *)
Lemma ch_end_shown l s s' : exec ch_step (ch_init v0) l = Some s -> ch_step s MRx = Some s' ->
  c_answers s' = c_answers s ++ [Ready None] -> c_overtaken s = false ->
  shown_last (c_sent s') (yielded (c_answers s')).
Proof.
  intros H E Ea Ho. pose proof (all_reach _ _ H) as [_ V _ _ _ O].
  simpl in E. unfold rx_step in E. destruct (c_rx s) eqn:Hrx; try discriminate.
  - destruct (c_value s); injection E as <-; simpl in Ea.
    + apply app_inv_head in Ea. discriminate.
    + exfalso. assert (L : length (c_answers s) = length (c_answers s ++ [Ready None])) by (rewrite <- Ea; reflexivity).
      rewrite app_length in L. simpl in L. lia.
  - destruct (has_senders s); injection E as <-; simpl in Ea.
    + exfalso. assert (L : length (c_answers s) = length (c_answers s ++ [Ready None])) by (rewrite <- Ea; reflexivity).
      rewrite app_length in L. simpl in L. lia.
    + simpl. rewrite yielded_snoc, app_nil_r. destruct V as [_ V]. rewrite Hrx in V.
      specialize (V ltac:(congruence)). rewrite (O Hrx Ho) in V. exact V.
  - injection E as <-. simpl in Ea. apply app_inv_head in Ea. discriminate.
Qed.

(** C52. *)
Lemma ch_count l s : exec ch_step (ch_init v0) l = Some s -> undisturbed s -> 0 < c_strong s ->
  if c_closed s then has_senders s = false
  else c_senders s = N.of_nat (length (c_live s) + count dropping (c_ops s)).
Proof.
  intros H U P. pose proof (a_cnt _ (all_reach _ _ H) U P) as C. destruct (c_closed s); auto.
  destruct C as [C _]. unfold has_senders. rewrite C. reflexivity.
Qed.

Lemma dropping_zero s : count dropping (c_ops s) = 0 -> c_live s = [] -> all_dropped s.
Proof.
  intros C L. split; auto. intros i h p H. destruct p; auto;
    pose proof (count_pos dropping _ _ _ H eq_refl); lia.
Qed.

Lemma ch_end_only l s s' : exec ch_step (ch_init v0) l = Some s -> ch_step s MRx = Some s' ->
  c_answers s' = c_answers s ++ [Ready None] -> undisturbed s ->
  c_closed s = true \/ all_dropped s.
Proof.
  intros H E Ea U. pose proof (all_reach _ _ H) as [I _ _ C _ _].
  simpl in E. unfold rx_step in E. destruct (c_rx s) eqn:Hrx; try discriminate.
  - destruct (c_value s); injection E as <-; simpl in Ea.
    + apply app_inv_head in Ea. discriminate.
    + exfalso. assert (L : length (c_answers s) = length (c_answers s ++ [Ready None])) by (rewrite <- Ea; reflexivity).
      rewrite app_length in L. simpl in L. lia.
  - destruct (has_senders s) eqn:Hs; injection E as <-; simpl in Ea.
    + exfalso. assert (L : length (c_answers s) = length (c_answers s ++ [Ready None])) by (rewrite <- Ea; reflexivity).
      rewrite app_length in L. simpl in L. lia.
    + assert (P : 0 < c_strong s) by (rewrite (i_strong s I); unfold rx_count; rewrite Hrx; lia).
      specialize (C U P). destruct (c_closed s); auto. right.
      unfold has_senders in Hs. destruct (N.eqb_spec (c_senders s) 0) as [E0|]; [|discriminate].
      rewrite E0 in C. apply dropping_zero; [lia|]. destruct (c_live s); auto. simpl in C. lia.
  - injection E as <-. simpl in Ea. apply app_inv_head in Ea. discriminate.
Qed.

Lemma undisturbed_before s s' : later s s' -> undisturbed s' -> undisturbed s.
Proof.
  intros [_ N _ R _ _] [U1 U2]. split; [|lia]. destruct (c_close_race s); auto. rewrite R in U1; auto.
Qed.

(** After a close: sends fail, the Receiver sees no Sender. *)
Lemma ch_closed_stays l1 s1 l2 s2 : exec ch_step (ch_init v0) l1 = Some s1 -> exec ch_step s1 l2 = Some s2 ->
  c_closed s1 = true -> undisturbed s2 ->
  (0 < c_strong s2 -> has_senders s2 = false)
  /\ forall i h v ok, length (c_ops s1) <= i -> nth_error (c_ops s2) i = Some (h, PRetSend ok v) -> ok = false.
Proof.
  intros H1 H2 Hc U.
  pose (bad := fun p : ch_pc A => match p with PSendStore _ => true | _ => match stored p with Some _ => true | None => false end end).
  assert (X : all_inv s2 /\ later s1 s2 /\ (undisturbed s2 -> forall i h p, length (c_ops s1) <= i ->
             nth_error (c_ops s2) i = Some (h, p) -> bad p = false)).
  { refine (exec_inv ch_step (fun s => all_inv s /\ later s1 s /\ (undisturbed s -> forall i h p, length (c_ops s1) <= i ->
             nth_error (c_ops s) i = Some (h, p) -> bad p = false)) _ l2 s1 s2 _ H2).
    - intros s m s' (I & L & B) E. split; [eapply all_step; eauto|]. pose proof (later_step _ _ _ E) as L'.
      split; [eapply later_trans; eauto|]. intros U'.
      pose proof (undisturbed_before _ _ L' U') as Us. specialize (B Us).
      pose proof (l_closed _ _ L Hc) as Cs.
      destruct I as [I _ _ C _ _].
      ch_cases E; intros j h' p' Lj Hj; rewrite ?release_ops in Hj; simpl in Hj;
        try (apply snoc_inv in Hj; destruct Hj as [[_ Hj]|[_ Hj]]; [injection Hj as -> ->; reflexivity|eauto; fail]);
        try (apply lupd_inv in Hj; destruct Hj as [[<- Hj]|[_ Hj]]; [|eauto; fail];
             injection Hj as -> ->; try reflexivity; try (specialize (B _ _ _ Lj Hop); discriminate));
        eauto.
      exfalso. assert (P : 0 < c_strong s).
      { pose proof (count_pos holding _ _ _ Hop eq_refl). rewrite (i_strong s I). lia. }
      specialize (C Us P). rewrite Cs in C. apply has_senders_spec in Heqb. lia.
    - split; [eapply all_reach; eauto|]. split; [apply later_refl|]. intros _ i h p L Hi.
      assert (i < length (c_ops s1)) by (apply nth_error_Some; congruence). lia. }
  destruct X as ([I _ _ C _ _] & L & B). pose proof (l_closed _ _ L Hc) as Cs. split.
  - intros P. specialize (C U P). rewrite Cs in C. destruct C as [C _]. unfold has_senders. rewrite C. reflexivity.
  - intros i h v ok Li Hi. specialize (B U i h _ Li Hi). destruct ok; auto; discriminate.
Qed.

(** Once all Senders are dropped, nothing is in progress and the Receiver sees no Sender. *)
Lemma ch_all_dropped l s : exec ch_step (ch_init v0) l = Some s ->
  c_live s = [] -> ch_idle s = true -> c_rx s = RIdle -> undisturbed s ->
  has_senders s = false.
Proof.
  intros H L Hid Hrx U. pose proof (all_reach _ _ H) as [I _ _ C _ _].
  assert (P : 0 < c_strong s) by (rewrite (i_strong s I); unfold rx_count; rewrite Hrx; lia).
  specialize (C U P). destruct (idle_counts _ Hid) as (_ & _ & D & _).
  unfold has_senders. destruct (c_closed s); [destruct C as [-> _]; reflexivity|].
  rewrite C, L, D. reflexivity.
Qed.

(** A poll that is not interleaved with anything. *)
Lemma ch_poll_alone s : c_rx s = RIdle -> exists n s',
  exec ch_step s (MPoll :: repeat MRx n) = Some s' /\ c_rx s' = RIdle /\
  c_answers s' = c_answers s ++
    [match c_value s with Some v => Ready (Some v) | None => if has_senders s then Pending else Ready None end] /\
  c_value s' = None /\ c_senders s' = c_senders s /\ c_ops s' = c_ops s /\ c_live s' = c_live s /\
  c_raced s' = false /\ c_overtaken s' = false.
Proof.
  intros Hrx. destruct (c_value s) as [v|] eqn:Ev.
  - exists 1. eexists. unfold exec. cbn [repeat ch_step]. rewrite Hrx. unfold rx_step at 1. cbn [c_rx start_poll c_value].
    rewrite Ev. split; [reflexivity|]. simpl. auto 10.
  - destruct (has_senders s) eqn:Hs.
    + exists 3. eexists. cbn [repeat exec ch_step]. rewrite Hrx. unfold rx_step. cbn [c_rx start_poll c_value].
      rewrite Ev. cbn [c_rx set_rx]. replace (has_senders (set_rx (start_poll s) RChk)) with true by (symmetry; exact Hs).
      cbn [c_rx set_rx]. split; [reflexivity|]. simpl. auto 10.
    + exists 2. eexists. cbn [repeat exec ch_step]. rewrite Hrx. unfold rx_step. cbn [c_rx start_poll c_value].
      rewrite Ev. cbn [c_rx set_rx]. replace (has_senders (set_rx (start_poll s) RChk)) with false by (symmetry; exact Hs).
      split; [reflexivity|]. simpl. auto 10.
Qed.

(** ** Single-threaded use *)
Lemma alone_step s m s' : ch_step_alone s m = Some s' -> ch_step s m = Some s'.
Proof. destruct m; simpl; auto; destruct (ch_idle s); try discriminate; auto. Qed.

Lemma alone_exec l s s' : exec ch_step_alone s l = Some s' -> exec ch_step s l = Some s'.
Proof.
  revert s. induction l as [|m l IH]; simpl; intros s E; auto.
  destruct (ch_step_alone s m) as [s1|] eqn:E1; [|discriminate]. rewrite (alone_step _ _ _ E1). auto.
Qed.

(** At most one call or poll is in progress, and no race was noted. *)
Definition busy (c : nat * ch_pc A) : bool := negb (ch_returned (snd c)).
Record alone_ok s : Prop := {
  o_one : count busy (c_ops s) + match c_rx s with RIdle | RGone => 0 | _ => 1 end <= 1;
  o_raced : c_raced s = false;
  o_over : c_overtaken s = false;
  o_race : c_close_race s = false }.

Lemma alone_ok_init : alone_ok (ch_init v0).
Proof. constructor; simpl; auto. Qed.

Lemma idle_busy s : ch_idle s = true -> count busy (c_ops s) = 0 /\ (c_rx s = RIdle \/ c_rx s = RGone).
Proof.
  intros H. destruct (idle_counts _ H) as (F & _ & _ & _ & R). split; auto.
  destruct (count busy (c_ops s)) eqn:E; auto. exfalso.
  destruct (count_ex busy (c_ops s)) as (i & [h p] & Hi & Hx); [lia|].
  apply F in Hi. unfold busy in Hx. simpl in Hx. rewrite Hi in Hx. discriminate.
Qed.

Lemma alone_ok_step s m s' : alone_ok s -> ch_step_alone s m = Some s' -> alone_ok s'.
Proof.
  intros [O1 O2 O3 O4] E.
  assert (Hst : match m with MOp _ | MRx => True | _ => ch_idle s = true end).
  { destruct m; simpl in E; auto; destruct (ch_idle s); auto; discriminate. }
  apply alone_step in E.
  ch_cases E; try (apply idle_busy in Hst; destruct Hst as [B R]; try rewrite Hrx in *);
    try (assert (Hb : match c_rx s with RIdle | RGone => True | _ => False end)
           by (pose proof (count_pos busy _ _ _ Hop eq_refl); destruct (c_rx s); simpl in *; auto; lia));
    constructor; unfold goto, ret_clone; proj_release; simpl;
    rewrite ?count_snoc;
    try match goal with Hop : nth_error _ ?i = Some _ |- context [count busy (lupd ?i ?y _)] =>
          pose proof (count_lupd busy _ _ _ y Hop) as Hc; unfold busy at 2 4 in Hc; simpl in Hc end; simpl;
    rewrite ?O2, ?O3, ?O4; auto; try (destruct R as [R|R]; rewrite R; simpl; lia); try (simpl in *; lia);
    try (destruct (c_rx s); simpl in *; auto; try contradiction; lia).
  destruct (existsb mid_count (c_ops s)) eqn:Ex; auto. exfalso.
  apply existsb_exists in Ex. destruct Ex as ([h' p'] & Hin & Hm). apply In_nth_error in Hin. destruct Hin as [j Hj].
  assert (i <> j) by (intros <-; rewrite Hop in Hj; injection Hj as <- <-; discriminate).
  assert (2 <= count busy (c_ops s)); [|lia].
  apply (count_two _ _ _ _ _ _ H Hop Hj); [reflexivity|]. destruct p'; try discriminate; reflexivity.
Qed.

Lemma alone_reach l s : exec ch_step_alone (ch_init v0) l = Some s -> alone_ok s.
Proof. apply exec_inv; [apply alone_ok_step|apply alone_ok_init]. Qed.

(** C51 and C52 for single-threaded use. *)
Lemma ch_alone_woken l s : exec ch_step_alone (ch_init v0) l = Some s -> (N.of_nat (c_next s) <= usize_max)%N ->
  ch_idle s = true -> c_rx s = RIdle -> c_waiting s = true ->
  In (c_polls s) (c_woken s) \/ (c_value s = None /\ has_senders s = true).
Proof.
  intros H N Hid Hrx Hw. destruct (alone_reach _ _ H) as [_ R _ C].
  destruct (ch_woken _ _ (alone_exec _ _ _ H) Hid Hrx Hw R) as [|[V S]]; auto.
  right. split; auto. apply S. split; auto.
Qed.

Lemma ch_alone_counter l s : exec ch_step_alone (ch_init v0) l = Some s -> (N.of_nat (c_next s) <= usize_max)%N ->
  ch_idle s = true -> c_rx s = RIdle ->
  has_senders s = true <-> c_closed s = false /\ c_live s <> [].
Proof.
  intros H N Hid Hrx. destruct (alone_reach _ _ H) as [_ R _ C].
  pose proof (all_reach _ _ (alone_exec _ _ _ H)) as [I _ _ Cn _ _].
  assert (P : 0 < c_strong s) by (rewrite (i_strong s I); unfold rx_count; rewrite Hrx; lia).
  pose proof (ch_count _ _ (alone_exec _ _ _ H) (conj C N) P) as K.
  destruct (idle_counts _ Hid) as (_ & _ & D & _). rewrite D in K.
  destruct (c_closed s).
  - rewrite K. split; [discriminate|intros []; discriminate].
  - unfold has_senders. rewrite K. destruct (c_live s); simpl.
    + split; [discriminate|intros [_ []]; reflexivity].
    + split; auto. intros _. split; auto. discriminate.
Qed.

Lemma ch_alone_end l s s' : exec ch_step_alone (ch_init v0) l = Some s -> (N.of_nat (c_next s) <= usize_max)%N ->
  ch_step s MRx = Some s' -> c_answers s' = c_answers s ++ [Ready None] ->
  shown_last (c_sent s') (yielded (c_answers s')) /\ (c_closed s = true \/ all_dropped s).
Proof.
  intros H N E Ea. destruct (alone_reach _ _ H) as [_ R O C]. split.
  - eapply ch_end_shown; eauto using alone_exec.
  - eapply ch_end_only; eauto using alone_exec. split; auto.
Qed.

(** ** When send fails *)
Definition fail_ok s : Prop := sane s -> forall i h v, nth_error (c_ops s) i = Some (h, PRetSend false v) -> c_closed s = true \/ c_rx s = RGone.

Lemma sane_before s m s' : ch_step s m = Some s' -> sane s' -> sane s.
Proof.
  intros E [H1 H2]. pose proof (later_step _ _ _ E) as L. split.
  - destruct (c_close_race s) eqn:R; auto. rewrite (l_race _ _ L R) in H1. discriminate.
  - pose proof (l_next _ _ L). lia.
Qed.

Lemma fail_ok_step s m s' : all_inv s -> fail_ok s -> ch_step s m = Some s' -> fail_ok s'.
Proof.
  intros [I _ _ C _ _] F E Hs. pose proof (sane_before _ _ _ E Hs) as Hs0. specialize (F Hs0).
  assert (Hup : forall i h p, nth_error (c_ops s) i = Some (h, p) -> (c_strong s =? 0) = true -> c_rx s = RGone).
  { intros i h p _ Z. apply Nat.eqb_eq in Z. rewrite (i_strong s I) in Z. unfold rx_count in Z. destruct (c_rx s); try lia. reflexivity. }
  assert (Hchk : forall i h v, nth_error (c_ops s) i = Some (h, PSendChk v) -> has_senders s = false -> c_closed s = true).
  { intros i h v Hi Z. specialize (C Hs0). rewrite (i_strong s I) in C. pose proof (count_pos holding _ _ _ Hi eq_refl).
    specialize (C ltac:(lia)). destruct (c_closed s); auto. exfalso.
    assert (P : 0 < length (c_live s)) by (eapply live_pos, (i_borrow s I); eauto).
    unfold has_senders in Z. apply negb_false_iff, N.eqb_eq in Z. lia. }
  clear Hs. ch_cases E; proj_release; simpl; intros j h' v' Hj; try rewrite release_ops in Hj; simpl in Hj;
    first [ apply snoc_inv in Hj; destruct Hj as [[_ Hj]|[_ Hj]]; [discriminate|]
          | apply lupd_inv in Hj; destruct Hj as [[_ Hj]|[_ Hj]]; [try discriminate|]
          | idtac ];
    try (destruct (F _ _ _ Hj); auto; congruence); auto.
  - right. eapply Hup; eauto.
  - left. eapply Hchk; eauto.
Qed.

Lemma ch_send_fails l s : exec ch_step (ch_init v0) l = Some s -> undisturbed s ->
  forall i h v, nth_error (c_ops s) i = Some (h, PRetSend false v) -> c_closed s = true \/ c_rx s = RGone.
Proof.
  intros H. refine (proj2 (exec_inv ch_step (fun s => all_inv s /\ fail_ok s) _ l (ch_init v0) s _ H)).
  - intros x m x' [I V] E. split; [eapply all_step; eauto|eapply fail_ok_step; eauto].
  - split; [apply all_init|]. intros _ [|i] h v; discriminate.
Qed.

(** ** When everything is dropped, nothing is left *)
Definition freed s : Prop := c_strong s = 0 -> c_value s = None /\ c_waker s = None.

Lemma release_freed s : 0 < c_strong s -> freed (release s).
Proof. intros P Z. rewrite release_strong in Z. unfold release. replace (c_strong s =? 1) with true by (symmetry; apply Nat.eqb_eq; lia). auto. Qed.

Lemma freed_step s m s' : inv1 s -> freed s -> ch_step s m = Some s' -> freed s'.
Proof.
  intros I F E.
  assert (Hh : forall i c, nth_error (c_ops s) i = Some c -> holding c = true -> 0 < c_strong s).
  { intros i c Hi Hc. rewrite (i_strong s I). pose proof (count_pos holding _ _ _ Hi Hc). lia. }
  assert (Hr : c_rx s <> RGone -> 0 < c_strong s).
  { intros R. rewrite (i_strong s I). unfold rx_count. destruct (c_rx s); try lia. congruence. }
  ch_cases E; try exact F; try (apply release_freed; simpl; first [exact (Hh _ _ Hop eq_refl)|apply Hr; congruence]);
    intros Z; simpl in Z; exfalso;
    first [pose proof (Hh _ _ Hop eq_refl); lia | assert (0 < c_strong s) by (apply Hr; congruence); lia | discriminate | idtac].
Qed.

Lemma ch_freed l s : exec ch_step (ch_init v0) l = Some s -> c_rx s = RGone ->
  forallb (fun c => ch_returned (snd c)) (c_ops s) = true -> c_value s = None /\ c_waker s = None /\ c_strong s = 0.
Proof.
  intros H R Q. assert (IF : inv1 s /\ freed s).
  { refine (exec_inv ch_step (fun s => inv1 s /\ freed s) _ l (ch_init v0) s _ H).
    - intros x m x' [I V] E. split; [eapply inv1_step; eauto|eapply freed_step; eauto].
    - split; [apply inv1_init|]. discriminate. }
  destruct IF as [I F]. assert (Z : c_strong s = 0).
  { rewrite (i_strong s I). unfold rx_count. rewrite R. unfold count. rewrite forallb_forall in Q.
    assert (K : filter holding (c_ops s) = []); [|rewrite K; reflexivity].
    induction (c_ops s) as [|c l' IH]; [reflexivity|]. simpl. rewrite IH by (intros x Hx; apply Q; right; exact Hx).
    specialize (Q c (or_introl eq_refl)). destruct c as [h p]. unfold holding. simpl in *. destruct p; try discriminate; reflexivity. }
  destruct (F Z). auto.
Qed.
End Ch.
