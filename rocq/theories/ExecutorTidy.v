(** Signals that are not part of a pipeline any more are forgotten, and a task is woken only for Mutables that it currently depends on. *)
From Verif Require Import Base Conc Executor ExecutorFacts ExecutorRun ExecutorLive ExecutorUse ExecutorEnd ExecutorQuiet.

(** ** Specification *)

(** The Mutables that the pipeline depends on while they contain [vals] and the Broadcasters were made from [defs]; of a switch:
    those of its input, and of the inner signal that was made from the current value of its input. *)
Inductive depends {V} (vals : nat -> V) (defs : nat -> pipe V) : pipe V -> nat -> Prop :=
| dep_mut m f : depends vals defs (PMut m f) m
| dep_map f p m : depends vals defs p m -> depends vals defs (PMap f p) m
| dep_dedupe eqb f p m : depends vals defs p m -> depends vals defs (PDedupe eqb f p) m
| dep_eq test out p m : depends vals defs p m -> depends vals defs (PEq test out p) m
| dep_ref f ps m : depends_one vals defs ps m -> depends vals defs (PRef f ps) m
| dep_child b f m : depends vals defs (defs b) m -> depends vals defs (PChild b f) m
| dep_switch f p m : depends vals defs p m -> depends vals defs (PSwitch f p) m
| dep_inner f p a m : shows vals defs p a -> depends vals defs (f a) m -> depends vals defs (PSwitch f p) m
with depends_one {V} (vals : nat -> V) (defs : nat -> pipe V) : pipes V -> nat -> Prop :=
| dep_here p ps m : depends vals defs p m -> depends_one vals defs (PCons p ps) m
| dep_there p ps m : depends_one vals defs ps m -> depends_one vals defs (PCons p ps) m.

(** The move (to [w']) writes to the Mutable, or drops its last handle. *)
Definition concerns {V} (mv : move V) (w' : world V) (m : nat) : Prop :=
  match mv with
  | MSet m' _ => m = m'
  | MDrop m' => m = m' /\ held m w' = false
  | MSwap m1 m2 => m = m1 \/ m = m2
  | _ => False
  end.

(** A signal of the task is registered with the Mutable. *)
Definition registered {V} (w : world V) (m t : nat) : Prop :=
  exists i, In i (u_signals (w_mu w m)) /\ c_alive (w_cw w i) = true /\ c_owner (w_cw w i) = WTask t.

(** ** Invariant *)

(** The ChangedWakers of the parts that have not ended. *)
Fixpoint lids {V} (s : sig V) : list nat :=
  match s with
  | SMut i _ _ => [i]
  | SAlways _ _ => []
  | SMap _ s | SDedupe _ _ _ s | SEq _ _ _ s => lids s
  | SRef _ ss => lidss ss
  | SKid _ i _ _ => [i]
  | SSwitch _ live _ s ss => (if live then lids s else []) ++ lidss ss
  end
with lidss {V} (ss : slots V) : list nat :=
  match ss with LNil => [] | LCons live _ s ss => (if live then lids s else []) ++ lidss ss end.

Section Tidy.
Context {V : Type}.
Implicit Types (w : world V) (s : sig V) (ss : slots V) (o : wk) (p : pipe V).

Lemma lids_ids : (forall s i, In i (lids s) -> In i (ids s)) /\ (forall ss i, In i (lidss ss) -> In i (idss ss)).
Proof.
  apply (sig_slots_ind V); simpl; intros; auto; apply in_app_or in H1 as [h|h]; apply in_or_app; auto; destruct live; auto; destruct h.
Qed.

Definition mine w o i : Prop := i < w_ncw w /\ c_owner (w_cw w i) = o /\ c_alive (w_cw w i) = true.
Definition tidyb w b : Prop := forall i, mine w (WNote b) i -> b_live (w_bc w b) = true /\ In i (lids (b_signal (w_bc w b))).
Definition tidies L w : Prop := forall b, b < L -> tidyb w b.
Definition left o (l l' : list nat) w w' : Prop := forall i, mine w' o i -> In i l' \/ (mine w o i /\ ~ In i l).

Lemma left_trans o l l1 l2 w w1 w2 : left o l l1 w w1 -> left o l1 l2 w1 w2 -> left o l l2 w w2.
Proof. intros h1 h2 i h. apply h2 in h as [h|[h n]]; auto. apply h1 in h as [h|h]; tauto. Qed.

(** What [build] makes. *)
Definition makes o l w w' : Prop := w_ncw w <= w_ncw w' /\ (forall i, i < w_ncw w -> w_cw w' i = w_cw w i) /\
  forall i, w_ncw w <= i < w_ncw w' -> In i l /\ c_owner (w_cw w' i) = o.

Lemma build_lids : (forall p o w s w', build o p w = (s, w') -> makes o (lids s) w w')
  /\ (forall ps o w ss w', builds o ps w = (ss, w') -> makes o (lidss ss) w w').
Proof.
  apply (pipe_pipes_ind V); simpl; intros.
  - injection H as <- <-. unfold makes. destruct (u_senders _ =? 0); simpl; (split; [lia|]; split; [intros i h; apply fupd_other; lia|]; intros i h; assert (i = w_ncw w) as -> by lia; rewrite fupd_same; auto).
  - injection H as <- <-. split; [auto|]. split; [auto|]. intros; lia.
  - destruct (build o p w) as [s1 w1] eqn:E. injection H0 as <- <-. exact (H _ _ _ _ E).
  - destruct (build o p w) as [s1 w1] eqn:E. injection H0 as <- <-. exact (H _ _ _ _ E).
  - destruct (build o p w) as [s1 w1] eqn:E. injection H0 as <- <-. exact (H _ _ _ _ E).
  - destruct (builds o ps w) as [s1 w1] eqn:E. injection H0 as <- <-. exact (H _ _ _ _ E).
  - injection H as <- <-. unfold makes. simpl. split; [lia|]. split; [intros i h; apply fupd_other; lia|]. intros i h. assert (i = w_ncw w) as -> by lia. rewrite fupd_same. auto.
  - destruct (build o p w) as [s1 w1] eqn:E. injection H1 as <- <-. simpl. rewrite app_nil_r. exact (H0 _ _ _ _ E).
  - injection H as <- <-. split; [auto|]. split; [auto|]. intros; lia.
  - destruct (build o p w) as [s1 w1] eqn:E. destruct (builds o ps w1) as [ss1 w2] eqn:E2. injection H1 as <- <-.
    destruct (H _ _ _ _ E) as (a1 & a2 & a3), (H0 _ _ _ _ E2) as (b1 & b2 & b3). split; [lia|]. split; [intros i h; rewrite b2, a2; auto; lia|].
    intros i h. simpl. rewrite in_app_iff. destruct (Nat.lt_ge_cases i (w_ncw w1)).
    + rewrite b2 by auto. destruct (a3 i); [lia|auto].
    + destruct (b3 i); [lia|auto].
Qed.

(** Somebody else's. *)
Lemma mine_ev o L l w w' o' i : ev o L (touch L w l) w w' -> (forall j, In j l -> c_owner (w_cw w j) = o) -> o' <> o -> (forall b, b < L -> o' <> WNote b) ->
  mine w' o' i -> mine w o' i.
Proof.
  intros e hl h1 h2 (a1 & a2 & a3). destruct (Nat.lt_ge_cases i (w_ncw w)) as [h|h].
  - rewrite (ev_own e) in a2 by auto. split; [auto|]. split; [auto|]. rewrite <- a3. symmetry. f_equal. apply (ev_cw e); [auto|].
    intros [hj|(b & b1 & b2 & _)]; [apply hl in hj; congruence|apply (h2 b b1); congruence].
  - destruct (ev_new e i (conj h a1)) as [[h3|(b & b1 & b2)] _]; [congruence|destruct (h2 b b1); congruence].
Qed.

Lemma mine_drop l w o i : mine (drop_ids l w) o i -> mine w o i /\ ~ In i l.
Proof.
  intros (a1 & a2 & a3). destruct (drop_spec l w) as (_ & _ & d3 & _ & _ & _ & _ & d8). rewrite d8 in a2, a3. rewrite d3 in a1.
  destruct (in_dec Nat.eq_dec i l); [discriminate|]. repeat split; auto.
Qed.

Lemma tidies_drop l w L : tidies L w -> tidies L (drop_ids l w).
Proof.
  intros h b hb i hi. apply mine_drop in hi as [hi _]. destruct (drop_spec l w) as (_ & _ & _ & _ & d5 & _). rewrite d5. apply h; auto.
Qed.

(** The ChangedWakers stay (except for flags and wakers) and so do the Broadcasters. *)
Lemma tidies_same L w w' : (forall o i, mine w' o i -> mine w o i) -> (forall b, b_live (w_bc w' b) = b_live (w_bc w b) /\ b_signal (w_bc w' b) = b_signal (w_bc w b)) ->
  tidies L w -> tidies L w'.
Proof. intros h1 h2 h b hb i hi. destruct (h2 b) as [-> ->]. apply h; auto. Qed.

Lemma mine_cw w j x o i : c_owner x = c_owner (w_cw w j) -> c_alive x = c_alive (w_cw w j) -> mine (set_cw j x w) o i -> mine w o i.
Proof. unfold mine. simpl. unfold fupd. destruct (Nat.eqb_spec i j) as [->|]; intros e1 e2; rewrite ?e1, ?e2; auto. Qed.

Lemma mine_dec w o l i : mine w o i -> In i l \/ (mine w o i /\ ~ In i l).
Proof. destruct (in_dec Nat.eq_dec i l); auto. Qed.

Definition poll_t n := forall o s w L out, lev o L -> below L w -> good w o L s -> NoDup (ids s) -> cur w s out -> tidies L w ->
  match poll_sig n o s w with
  | Ok (s', w', r) => left o (lids s) (lids s') w w' /\ tidies L w'
  | _ => True
  end.
Definition slots_t n := forall o ss w L, lev o L -> below L w -> goods w o L ss -> NoDup (idss ss) -> curs w ss -> tidies L w ->
  match poll_slots n o ss w with
  | Ok (ss', w', d, c) => left o (lidss ss) (lidss ss') w w' /\ tidies L w'
  | _ => True
  end.
Definition drain_t n := forall o s w L ch v, lev o L -> below L w -> good w o L s -> NoDup (ids s) -> cur w s v -> tidies L w ->
  match drain n o s ch v w with
  | Ok (s', w', l, c, v') => left o (lids s) (if l then lids s' else []) w w' /\ tidies L w'
  | _ => True
  end.

Lemma left_drop o s s' w w' : left o (lids s) (lids s') w w' -> left o (lids s) [] w (drop_sig s' w').
Proof.
  intros h i hi. apply mine_drop in hi as [hi hn]. right. apply h in hi as [hi|hi]; auto. destruct hn. apply lids_ids. auto.
Qed.

Lemma drain_t_S n : poll_t n -> drain_t n -> drain_t (S n).
Proof.
  intros IHp IHd o s w L ch v hl hb hg hn hc ht. cbn [drain].
  pose proof (IHp o s w L v hl hb hg hn hc ht) as Q. pose proof (proj1 (poll_all_ok n) o s w L v hl hb hg hn hc) as P.
  destruct (poll_sig n o s w) as [| |[[s1 w1] r]]; auto. destruct Q as [q1 q2], P as (_ & hb1 & _ & hn1 & _ & _ & _ & hr).
  destruct r as [|[x|]]; auto.
  - destruct hr as [g1 c1]. specialize (IHd o s1 w1 L true (Some x) hl hb1 g1 hn1 c1 q2). destruct (drain n o s1 true (Some x) w1) as [| |[[[[s2 w2] l] c] v2]]; auto.
    destruct IHd as (d1 & d2). split; [eapply left_trans; eauto|auto].
  - split; [apply left_drop; auto|apply tidies_drop; auto].
Qed.

Lemma slots_t_S n : poll_t n -> slots_t n -> slots_t (S n).
Proof.
  intros IHp IHs o ss w L hl hb hg hn hc ht. destruct ss as [|live v s ss]; cbn [poll_slots]; [split; auto; intros i hi; auto|].
  destruct hg as [g1 g2], hc as [c1 c2]. simpl in hn. apply nodup_app_inv in hn as (n1 & n2 & dis).
  assert (A : match (if live then
                   match poll_sig n o s w with
                   | Ok (s, w, Ready None) => Ok (LCons false v s LNil, drop_sig s w, true, false)
                   | Ok (s, w, Ready (Some v)) => Ok (LCons true (Some v) s LNil, w, false, true)
                   | Ok (s, w, Pending) => Ok (LCons true v s LNil, w, false, false)
                   | Panic => Panic | OutOfFuel => OutOfFuel
                   end
                 else Ok (LCons false v s LNil, w, true, false)) with
           | Ok (LCons l1 _ s1 _, w1, _, c) => left o (if live then lids s else []) (if l1 then lids s1 else []) w w1 /\ tidies L w1
               /\ ev o L (touch L w (ids s)) w w1 /\ below L w1
           | _ => True end).
  { destruct live; [|split; [intros i hi; auto|split; [auto|split; [apply ev_refl|auto]]]].
    pose proof (IHp o s w L v hl hb g1 n1 c1 ht) as Q. pose proof (proj1 (poll_all_ok n) o s w L v hl hb g1 n1 c1) as P.
    destruct (poll_sig n o s w) as [| |[[s1 w1] r]]; auto. destruct Q as [q1 q2], P as (e & hb1 & hi & hn1 & _ & _ & _ & hr).
    destruct r as [|[x|]].
    - split; [auto|]. split; [auto|]. split; auto.
    - split; [auto|]. split; [auto|]. split; auto.
    - destruct hr as [r1 r2]. destruct (end_drop o L w w1 s s1 v hl hb1 e hi r1 r2) as (b1 & b2 & _).
      split; [apply left_drop; auto|]. split; [apply tidies_drop; auto|]. auto. }
  destruct (if live then _ else _) as [| |[[[[|l1 v1 s1 ss1] w1] d1] c0]]; auto. destruct A as (q1 & q2 & e & hb1).
  assert (un : free (touch L w (ids s)) w (idss ss)).
  { intros j hj. destruct (good_owner2 w o L ss g2 j hj) as [ho1 ho2]. split; [auto|]. intros [h|(b & h1 & h2 & _)]; [eauto|].
    rewrite h2 in ho2. symmetry in ho2. apply hl in ho2. lia. }
  pose proof (IHs o ss w1 L hl hb1 ltac:(eapply good_ev2; eauto) n2 ltac:(eapply cur_ev2; eauto) q2) as S1.
  destruct (poll_slots n o ss w1) as [| |[[[ss2 w2] d2] c3]]; auto. destruct S1 as [s1' s2]. split; [|auto].
  intros i hi. simpl. apply s1' in hi as [hi|[hi hi']]; [left; apply in_or_app; auto|]. apply q1 in hi as [hi|[hi hi2]]; [left; apply in_or_app; auto|].
  right. split; [auto|]. intros h. apply in_app_or in h as [h|h]; auto.
Qed.

Lemma left_refl o l w : left o l l w w.
Proof. intros i hi. apply mine_dec. auto. Qed.

Lemma left_same o l w w' : (forall i, mine w' o i -> mine w o i) -> left o l l w w'.
Proof. intros h i hi. apply mine_dec. auto. Qed.

Lemma poll_t_S n : poll_t n -> slots_t n -> drain_t n -> poll_t (S n).
Proof.
  intros IHp IHs IHd o s w L out hl hb hg hn hc ht. destruct s as [i m f|v taken|f s|eqb f old s|test f ma s|f ss|b i e f|f live sel s ss]; cbn [poll_sig].
  - destruct (c_changed (w_cw w i)) eqn:Ec; [|destruct (u_senders (w_mu w m) =? 0)].
    + split; [apply left_same; intros j; apply mine_cw; auto|]. eapply tidies_same; [|simpl; auto|exact ht]. intros o' j. apply mine_cw; auto.
    + split; [apply left_refl|auto].
    + split; [apply left_same; intros j; apply mine_cw; auto|]. eapply tidies_same; [|simpl; auto|exact ht]. intros o' j. apply mine_cw; auto.
  - destruct taken; (split; [apply left_refl|auto]).
  - destruct hc as (a & c1 & _). specialize (IHp o s w L a hl hb hg hn c1 ht). destruct (poll_sig n o s w) as [| |[[s1 w1] [|[x|]]]]; auto.
  - destruct hc as (a & c1 & c2). pose proof (IHp o s w L a hl hb hg hn c1 ht) as Q. pose proof (proj1 (poll_all_ok n) o s w L a hl hb hg hn c1) as P.
    destruct (poll_sig n o s w) as [| |[[s1 w1] r]]; auto. destruct Q as [q1 q2], P as (_ & hb1 & _ & hn1 & _ & _ & _ & hr).
    destruct r as [|[x|]]; auto.
    destruct (match old with Some a => negb (eqb a x) | None => true end) eqn:Eo; [auto|].
    destruct hr as [g1 c3].
    assert (c4 : cur w1 (SDedupe eqb f old s1) out).
    { exists (Some x). split; [auto|]. destruct a as [v|]; [|destruct c2; subst; discriminate].
      destruct c2 as (a0 & d1 & d2 & d3). subst old. apply negb_false_iff in Eo. eauto 10. }
    pose proof (IHp o (SDedupe eqb f old s1) w1 L out hl hb1 g1 hn1 c4 q2) as Q2. destruct (poll_sig n o (SDedupe eqb f old s1) w1) as [| |[[s2 w2] r]]; auto.
    destruct Q2 as [q3 q4]. split; [eapply left_trans; eauto|auto].
  - destruct hc as (a & c1 & c2 & c2'). pose proof (IHp o s w L a hl hb hg hn c1 ht) as Q. pose proof (proj1 (poll_all_ok n) o s w L a hl hb hg hn c1) as P.
    destruct (poll_sig n o s w) as [| |[[s1 w1] r]]; auto. destruct Q as [q1 q2], P as (_ & hb1 & _ & hn1 & _ & _ & _ & hr).
    destruct r as [|[x|]]; auto.
    destruct (match ma with Some a => negb (Bool.eqb a (test x)) | None => true end) eqn:Eo; [auto|].
    destruct hr as [g1 c3].
    assert (c4 : cur w1 (SEq test f ma s1) out).
    { exists (Some x). split; [auto|]. destruct a as [v|]; [|subst; discriminate]. subst ma. simpl in *.
      apply negb_false_iff, eqb_prop in Eo. rewrite <- Eo. auto. }
    pose proof (IHp o (SEq test f ma s1) w1 L out hl hb1 g1 hn1 c4 q2) as Q2. destruct (poll_sig n o (SEq test f ma s1) w1) as [| |[[s2 w2] r]]; auto.
    destruct Q2 as [q3 q4]. split; [eapply left_trans; eauto|auto].
  - destruct hg as [g1 g2], hc as [c1 c2]. specialize (IHs o ss w L hl hb g2 hn c1 ht). destruct (poll_slots n o ss w) as [| |[[[ss1 w1] d] c]]; auto.
    destruct c; [destruct (values ss1); auto|]. destruct d; auto.
  - pose proof hg as (g1 & g2 & g3 & g4 & g5). destruct (hb b g3) as (k1 & k2 & k3 & k4).
    assert (A : forall w2 : world V, (forall i, mine w2 o i -> mine w o i) -> tidies L w2 ->
      match (let x := w_bc w2 b in
            if b_epoch x =? e then
              if b_live x then Ok (SKid b i e f, set_cw i (arm_cw (Some o) (w_cw w2 i)) w2, Pending)
              else Ok (SKid b i e f, w2, Ready None)
            else match b_value x with
                 | Some v => Ok (SKid b i (b_epoch x) f, w2, Ready (Some (f v)))
                 | None => Panic
                 end) with
      | Ok (s', w', r) => left o (lids (SKid b i e f)) (lids s') w w' /\ tidies L w'
      | _ => True
      end).
    { intros w2 h1 h2. cbv zeta. destruct (Nat.eqb_spec (b_epoch (w_bc w2 b)) e) as [Ee|Ee]; [destruct (b_live (w_bc w2 b))|destruct (b_value (w_bc w2 b))]; auto;
        try (split; [apply left_same; auto|auto]; fail).
      split; [apply left_same; intros j hj; apply h1; revert hj; apply mine_cw; auto|]. eapply tidies_same; [|simpl; auto|exact h2]. intros o' j. apply mine_cw; auto. }
    destruct (b_changed (w_bc w b)) eqn:Ec; [|apply A; auto].
    assert (T1 : tidies L (set_bc b (flag_bc false (w_bc w b)) w)).
    { eapply tidies_same; [| |exact ht]; [auto|]. intros b0. simpl. unfold fupd. destruct (Nat.eqb_spec b0 b) as [->|]; auto. }
    set (w1 := set_bc b (flag_bc false (w_bc w b)) w) in *. cbv zeta. set (x := w_bc w1 b).
    assert (ex : x = flag_bc false (w_bc w b)) by (unfold x, w1; simpl; apply fupd_same).
    destruct (b_live x) eqn:El; [|specialize (A w1); cbv zeta in A; fold x in A; rewrite El in A; apply A; auto].
    assert (El0 : b_live (w_bc w b) = true) by (rewrite ex in El; exact El). rewrite El0 in k4. destruct k4 as [k4 _].
    assert (E1 : ev o L (fun _ => False) w w1).
    { constructor; simpl; auto; try (intros; lia).
      - intros b1 j. unfold fupd. destruct (Nat.eqb_spec b1 b) as [->|]; auto.
      - intros b1 j. unfold fupd. destruct (Nat.eqb_spec b1 b) as [->|]; auto.
      - intros b1. unfold fupd. destruct (Nat.eqb_spec b1 b) as [->|]; [apply bc_ev_unchanged|apply bc_ev_refl].
      - intros b1 h. rewrite fupd_other by lia. reflexivity. }
    assert (fr : free (fun _ => False) w (ids (b_signal (w_bc w b)))) by (intros j hj; split; [eapply bc_owner; eauto|auto]).
    assert (L1 : lev (WNote b) b) by (intros b1 h; injection h as <-; auto).
    assert (B1 : below b w1). { intros b1 h. eapply bc_ok_ev; [exact E1| |auto|apply hb; lia]. unfold w1. simpl. rewrite fupd_other by lia. apply same_bc_refl. }
    assert (xs : b_signal x = b_signal (w_bc w b)) by (rewrite ex; reflexivity).
    assert (xv : b_value x = b_value (w_bc w b)) by (rewrite ex; reflexivity).
    assert (G1 : good w1 (WNote b) b (b_signal x)) by (rewrite xs; eapply good_ev1; eauto).
    assert (N1 : NoDup (ids (b_signal x))) by (rewrite xs; auto).
    assert (C1 : cur w1 (b_signal x) (b_value x)) by (rewrite xs, xv; eapply cur_ev1; eauto).
    pose proof (IHd (WNote b) (b_signal x) w1 b false (b_value x) L1 B1 G1 N1 C1 ltac:(intros b0 h0; apply T1; lia)) as D.
    pose proof (proj2 (proj2 (poll_all_ok n)) (WNote b) (b_signal x) w1 b false (b_value x) L1 B1 G1 N1 C1) as P.
    destruct (drain n (WNote b) (b_signal x) false (b_value x) w1) as [| |[[[[s' w2] live'] c] v']]; auto.
    destruct D as (d1 & d2). destruct P as (E2 & _).
    assert (own : forall j, In j (ids (b_signal x)) -> c_owner (w_cw w1 j) = WNote b) by (intros j hj; eapply good_owner1; eauto).
    assert (nb : forall b', b' < L -> o <> WNote b') by (intros b' h1 h2; apply hl in h2; lia).
    apply A.
    + intros j hj. apply (mine_ev (WNote b) b (ids (b_signal x)) w1 w2 o j E2 own); [apply nb; auto|intros b' h; apply nb; lia|exact hj].
    + intros b0 hb0 j hj. simpl. change (mine w2 (WNote b0) j) in hj. destruct (Nat.lt_total b0 b) as [h|[->|h]].
      * rewrite fupd_other by lia. apply d2; auto.
      * rewrite fupd_same. simpl. apply d1 in hj as [hj|[hj hj']]; [destruct live'; [auto|destruct hj]|]. destruct hj'. apply (T1 b hb0 j hj).
      * rewrite fupd_other by lia. rewrite (ev_above E2) by lia. apply T1; [auto|].
        apply (mine_ev (WNote b) b (ids (b_signal x)) w1 w2 _ j E2 own); [intros K; injection K as K; lia| |exact hj]. intros b' h'. intros K. injection K as K. lia.
  - change (NoDup (ids s ++ idss ss)) in hn.
    pose proof (switch_first n o f live sel s ss w L out (proj1 (poll_all_ok n)) hl hb hg hn hc) as F. fold (outer n o f live sel s ss w) in F.
    match goal with |- match (match ?x with _ => _ end) with _ => _ end => change x with (outer n o f live sel s ss w) end.
    assert (Q : match outer n o f live sel s ss w with
                | Ok (live', _, s', ss', w') => left o (lids (SSwitch f live sel s ss)) (lids (SSwitch f live' sel s' ss')) w w' /\ tidies L w'
                | _ => True end).
    { unfold outer. destruct live; [|split; [apply left_refl|auto]]. destruct hg as (a1 & a2 & a3), hc as (b1 & b2 & b3). apply nodup_app_inv in hn as (n1 & _).
      pose proof (IHp o s w L sel hl hb a1 n1 b1 ht) as Q. pose proof (proj1 (poll_all_ok n) o s w L sel hl hb a1 n1 b1) as P.
      destruct (poll_sig n o s w) as [| |[[s1 w1] r]]; auto. destruct Q as [q1 q2]. simpl.
      assert (two : forall l w2, left o (lids s) l w w2 -> left o (lids s ++ lidss ss) (l ++ lidss ss) w w2).
      { intros l w2 h i hi. destruct (in_dec Nat.eq_dec i (lidss ss)) as [h'|h']; [left; apply in_or_app; auto|].
        apply h in hi as [hi|[hi hi']]; [left; apply in_or_app; auto|]. right. split; [auto|]. intros K. apply in_app_or in K as [K|K]; auto. }
      destruct r as [|[a|]].
      - split; [apply two; auto|auto].
      - destruct (build o (f a) w1) as [inner w2] eqn:Eb. destruct P as (e & hb1 & _).
        destruct (proj1 (build_ok o L hl) (f a) w1 inner w2 (below_epochs _ _ hb1) ltac:(rewrite (ev_nmu e); auto) Eb) as (g & sb & _).
        destruct (proj1 build_lids _ _ _ _ _ Eb) as (m1 & m2 & m3).
        assert (old : forall o' i, mine w2 o' i -> mine w1 o' i \/ (o' = o /\ In i (lids inner))).
        { intros o' i (k1 & k2 & k3). destruct (Nat.lt_ge_cases i (w_ncw w1)) as [h|h].
          - left. rewrite m2 in k2, k3 by auto. repeat split; auto.
          - destruct (m3 i (conj h k1)). right. split; [congruence|auto]. }
        split.
        + intros i hi. apply mine_drop in hi as [hi hd]. simpl. rewrite app_nil_r. apply old in hi as [hi|[_ hi]].
          * apply q1 in hi as [hi|[hi hi']]; [left; apply in_or_app; auto|]. right. split; [auto|]. intros K. apply in_app_or in K as [K|K]; auto. apply hd, lids_ids, K.
          * left. apply in_or_app. auto.
        + apply tidies_drop. intros b hb2 i hi. destruct (sb b) as (c1 & c2 & _). rewrite c1, c2. apply old in hi as [hi|[K _]].
          * apply q2; auto.
          * symmetry in K. apply hl in K. lia.
      - split; [|apply tidies_drop; auto]. apply (two []). apply left_drop. auto. }
    destruct (outer n o f live sel s ss w) as [| |[[[[live' sel'] s'] ss'] w']]; auto.
    destruct F as (e & hb' & hi & hn' & _ & _ & _ & hg2 & _ & hc2 & _), Q as [q1 q2]. apply nodup_app_inv in hn' as (_ & hn2 & _).
    specialize (IHs o ss' w' L hl hb' hg2 hn2 hc2 q2). destruct (poll_slots n o ss' w') as [| |[[[ss2 w2] d] c]]; auto. destruct IHs as [s1 s2].
    assert (k : left o (lids (SSwitch f live sel s ss)) (lids (SSwitch f live' sel' s' ss2)) w w2).
    { intros i h. apply s1 in h as [h|[h h']]; [left; apply in_or_app; auto|]. apply q1 in h as [h|h]; auto. simpl in *. apply in_app_or in h as [h|h]; [|contradiction].
      left. apply in_or_app. auto. }
    destruct c; [|destruct (d && negb live'); auto]. destruct (values ss2) as [[|v [|]]|]; auto.
Qed.

Lemma poll_all_t n : poll_t n /\ slots_t n /\ drain_t n.
Proof.
  induction n as [|n (h1 & h2 & h3)].
  - repeat split; intros ? *; simpl; auto.
  - split; [apply poll_t_S; auto|]. split; [apply slots_t_S; auto|apply drain_t_S; auto].
Qed.

(** ** Moves *)
Definition tidyt w t : Prop := forall i, mine w (WTask t) i -> ended (t_pc (w_task w t)) = false /\ In i (lids (t_sig (w_task w t))).
Definition tidy w : Prop := tidies (w_nbc w) w /\ forall t, t < w_nt w -> tidyt w t.

Lemma tidy_same w w' : w_nbc w' = w_nbc w -> w_nt w' = w_nt w -> (forall o i, mine w' o i -> mine w o i) ->
  (forall b, b_live (w_bc w' b) = b_live (w_bc w b) /\ b_signal (w_bc w' b) = b_signal (w_bc w b)) ->
  (forall t, t_sig (w_task w' t) = t_sig (w_task w t) /\ ended (t_pc (w_task w' t)) = ended (t_pc (w_task w t))) -> tidy w -> tidy w'.
Proof.
  intros e1 e2 h1 h2 h3 [k1 k2]. split.
  - rewrite e1. eapply tidies_same; eauto.
  - intros t ht i hi. rewrite e2 in ht. destruct (h3 t) as [-> ->]. apply k2; auto.
Qed.

Lemma tidy_woke F w w0 w' : woke F w0 w' -> w_cw w0 = w_cw w -> w_ncw w0 = w_ncw w -> w_bc w0 = w_bc w -> w_task w0 = w_task w -> w_nbc w0 = w_nbc w -> w_nt w0 = w_nt w ->
  tidy w -> tidy w'.
Proof.
  intros k e1 e2 e3 e4 e5 e6. apply tidy_same.
  - rewrite (wo_nbc _ _ _ k). auto.
  - rewrite (wo_nt _ _ _ k). auto.
  - intros o i (a1 & a2 & a3). rewrite (wo_ncw _ _ _ k) in a1. rewrite (wo_owner _ _ _ k) in a2. rewrite (wo_alive _ _ _ k) in a3. rewrite e1, e2 in *. repeat split; auto.
  - intros b. destruct (wo_bc _ _ _ k b) as (a1 & a2 & _). rewrite e3 in *. auto.
  - intros t. destruct (wo_task _ _ _ k t) as (a1 & a2 & _). rewrite e4 in *. rewrite a2. auto.
Qed.

Lemma tidy_task w t x : t_sig x = t_sig (w_task w t) -> ended (t_pc x) = ended (t_pc (w_task w t)) -> tidy w -> tidy (set_task t x w).
Proof.
  intros h1 h2. apply tidy_same; auto. intros t'. simpl. unfold fupd. destruct (Nat.eqb_spec t' t) as [->|]; auto.
Qed.

Lemma no_new w o L l w' : ev o L (touch L w l) w w' -> (forall j, In j l -> c_owner (w_cw w j) = o) -> L = w_nbc w -> forall t, o <> WTask t -> forall i, mine w' (WTask t) i -> mine w (WTask t) i.
Proof. intros e hl -> t ht i. eapply mine_ev; eauto. congruence. Qed.

Lemma tidy_poll w t n w' : inv w -> step w (MPoll t n) = Some w' -> tidy w -> tidy w'.
Proof.
  intros hi H [t1 t2]. pose proof hi as (h1 & h2 & h3). simpl in H. destruct (t_pc (w_task w t)) eqn:Ep; try discriminate H.
  destruct (Nat.ltb_spec t (w_nt w)) as [ht|]; [|discriminate H].
  pose proof (h2 t ht) as ok. unfold task_ok in ok. rewrite Ep in ok. destruct ok as (k1 & k2 & k3 & k4 & _).
  pose proof (proj1 (poll_all_ok n) (WTask t) (t_sig (w_task w t)) w (w_nbc w) _ ltac:(intros b; discriminate) h1 k4 k1 k3) as P.
  pose proof (proj1 (poll_all_t n) (WTask t) (t_sig (w_task w t)) w (w_nbc w) _ ltac:(intros b; discriminate) h1 k4 k1 k3 t1) as Q.
  destruct (poll_sig n (WTask t) (t_sig (w_task w t)) w) as [| |[[s w1] r]]; [discriminate H|destruct P|].
  destruct P as (e & _), Q as [q1 q2].
  assert (own : forall j, In j (ids (t_sig (w_task w t))) -> c_owner (w_cw w j) = WTask t) by (intros j hj; eapply good_owner1; eauto).
  assert (A : forall x w2, tidies (w_nbc w) w2 -> w_nbc w2 = w_nbc w -> w_nt w2 = w_nt w -> w_task w2 = w_task w -> (forall o i, mine w2 o i -> mine w1 o i) ->
    (forall i, mine w2 (WTask t) i -> ended (t_pc x) = false /\ In i (lids (t_sig x))) -> tidy (set_task t x w2)).
  { intros x w2 a1 a2 a3 a4 a5 a6. split; simpl; [rewrite a2; exact a1|]. intros t' ht' i hi'. simpl. unfold fupd. destruct (Nat.eqb_spec t' t) as [->|ne]; [apply a6; auto|].
    rewrite a4. apply t2; [lia|]. apply (mine_ev (WTask t) (w_nbc w) (ids (t_sig (w_task w t))) w w1 _ i e own); [congruence|discriminate|apply a5; auto]. }
  assert (B : forall i, mine w1 (WTask t) i -> In i (lids s)).
  { intros i hi'. apply q1 in hi' as [hi'|[hi' hn]]; [auto|]. destruct hn. apply (t2 t ht i hi'). }
  rewrite (ev_task e) in H. pose proof (ev_task e) as et. pose proof (ev_nt e) as en. pose proof (ev_nbc e) as eb.
  pose proof (ev_drop (WTask 0) w1 (ids s) 0 (fun _ => True) (fun _ _ => I)) as g.
  destruct r as [|[v|]]; injection H as <-; apply A; auto; unfold drop_sig.
  - apply tidies_drop. auto.
  - rewrite (ev_nbc g). auto.
  - rewrite (ev_nt g). auto.
  - rewrite (ev_task g). auto.
  - intros o i hi'. apply mine_drop in hi'. tauto.
  - intros i hi'. apply mine_drop in hi' as [hi' hn]. destruct hn. apply lids_ids, B, hi'.
Qed.

Lemma tidy_step w mv w' : inv w -> step w mv = Some w' -> tidy w -> tidy w'.
Proof.
  intros hi H ht. pose proof hi as (hb & hts & hw).
  destruct mv as [v|m|m|m v|m m'|nm nb p h|nm nb p h|t|t|t|t n|t r]; [| | | | | | | | | |eapply tidy_poll; eauto|]; simpl in H.
  - injection H as <-. exact ht.
  - destruct (held m w); [|discriminate]. injection H as <-. exact ht.
  - destruct (held m w); [|discriminate]. destruct (u_senders (w_mu w m) =? 1); [|injection H as <-; exact ht].
    destruct (notify m false _) as [w1|] eqn:E; [|discriminate]. injection H as <-. apply notify_woke in E as [e1 _].
    change (tidy w1). eapply tidy_woke; [exact e1|reflexivity..|exact ht].
  - destruct (held m w); [|discriminate]. apply notify_woke in H as [e1 _]. eapply tidy_woke; [exact e1|reflexivity..|exact ht].
  - destruct (_ && _ && _); [|discriminate]. set (w1 := set_mu m' _ _) in H. destruct (notify m true w1) as [w2|] eqn:E; [|discriminate].
    apply notify_woke in E as [e1 _], H as [e3 _]. eapply tidy_woke; [exact e3|reflexivity..|]. eapply tidy_woke; [exact e1|reflexivity..|exact ht].
  - destruct (_ && _) eqn:El; [|discriminate]. apply andb_true_iff in El as [l1 l2]. apply Nat.leb_le in l1, l2.
    destruct (build (WNote (w_nbc w)) p w) as [s w1] eqn:E. injection H as <-.
    destruct (proj1 (build_ok (WNote (w_nbc w)) (w_nbc w) (lev_note w)) p w s w1 (below_epochs _ _ hb) ltac:(eapply closed_mono1; eauto) E) as (g & sb & _).
    destruct (proj1 build_lids _ _ _ _ _ E) as (m1 & m2 & m3). pose proof (ev_nbc g) as eb. pose proof (ev_nt g) as en. pose proof (ev_task g) as et. destruct ht as [t1 t2].
    assert (old : forall o' i, mine w1 o' i -> mine w o' i \/ (o' = WNote (w_nbc w) /\ In i (lids s))).
    { intros o' i (k1 & k2 & k3). destruct (Nat.lt_ge_cases i (w_ncw w)) as [h'|h'].
      - left. rewrite m2 in k2, k3 by auto. repeat split; auto.
      - destruct (m3 i (conj h' k1)). right. split; [congruence|auto]. }
    split; simpl.
    + intros b hb' i hi'. change (mine w1 (WNote b) i) in hi'. simpl. destruct (Nat.eq_dec b (w_nbc w1)) as [->|ne].
      * rewrite fupd_same. simpl. split; [auto|]. rewrite eb in hi'. apply old in hi' as [hi'|[_ hi']]; auto. destruct hi' as (a1 & a2 & _). apply (wf_own _ hw) in a2; [lia|auto].
      * rewrite fupd_other by auto. destruct (sb b) as (c1 & c2 & _). rewrite c1, c2. apply t1; [lia|]. apply old in hi' as [hi'|[K _]]; auto. injection K as ->. lia.
    + intros t ht' i hi'. change (mine w1 (WTask t) i) in hi'. simpl. rewrite et. apply t2; [lia|]. apply old in hi' as [hi'|[K _]]; auto. discriminate.
  - destruct (_ && _) eqn:El; [|discriminate]. apply andb_true_iff in El as [l1 l2]. apply Nat.leb_le in l1, l2.
    destruct (build (WTask (w_nt w)) p w) as [s w1] eqn:E. injection H as <-.
    destruct (proj1 (build_ok (WTask (w_nt w)) (w_nbc w) (lev_task _ _)) p w s w1 (below_epochs _ _ hb) ltac:(eapply closed_mono1; eauto) E) as (g & sb & _).
    destruct (proj1 build_lids _ _ _ _ _ E) as (m1 & m2 & m3). pose proof (ev_nbc g) as eb. pose proof (ev_nt g) as en. pose proof (ev_task g) as et. destruct ht as [t1 t2].
    assert (old : forall o' i, mine w1 o' i -> mine w o' i \/ (o' = WTask (w_nt w) /\ In i (lids s))).
    { intros o' i (k1 & k2 & k3). destruct (Nat.lt_ge_cases i (w_ncw w)) as [h'|h'].
      - left. rewrite m2 in k2, k3 by auto. repeat split; auto.
      - destruct (m3 i (conj h' k1)). right. split; [congruence|auto]. }
    split; simpl.
    + intros b hb' i hi'. change (mine w1 (WNote b) i) in hi'. simpl. destruct (sb b) as (c1 & c2 & _). rewrite c1, c2. apply t1; [lia|]. apply old in hi' as [hi'|[K _]]; auto. discriminate.
    + intros t ht' i hi'. change (mine w1 (WTask t) i) in hi'. simpl. destruct (Nat.eq_dec t (w_nt w1)) as [->|ne].
      * rewrite fupd_same. simpl. split; [auto|]. rewrite en in hi'. apply old in hi' as [hi'|[_ hi']]; auto. destruct hi' as (a1 & a2 & _). apply (wf_ownt _ hw) in a2; [lia|auto].
      * rewrite fupd_other by auto. rewrite et. apply t2; [lia|]. apply old in hi' as [hi'|[K _]]; auto. injection K as ->. lia.
  - destruct (_ && _) eqn:El; [|discriminate]. apply andb_true_iff in El as [l1 _]. apply Nat.ltb_lt in l1. injection H as <-.
    pose proof (ev_drop (WTask 0) w (ids (t_sig (w_task w t))) 0 (fun _ => True) (fun _ _ => I)) as g. destruct ht as [t1 t2]. split; simpl; unfold drop_sig.
    + rewrite (ev_nbc g). apply tidies_drop. auto.
    + rewrite (ev_nt g). intros t' ht' i hi'. apply mine_drop in hi' as [hi' hn]. simpl. unfold fupd. destruct (Nat.eqb_spec t' t) as [->|ne].
      * destruct hn. apply lids_ids. apply (t2 t l1 i hi').
      * rewrite (ev_task g). apply t2; auto.
  - destruct (t <? w_nt w); [|discriminate]. injection H as <-. apply tidy_task; auto.
  - destruct (_ && _); [|discriminate]. destruct (t_pc (w_task w t)) eqn:Ep; try discriminate; injection H as <-; apply tidy_task; auto; rewrite Ep; reflexivity.
  - destruct (t_pc (w_task w t)) eqn:Ep; try discriminate. destruct (t <? w_nt w); [|discriminate]. injection H as <-. apply tidy_task; auto. rewrite Ep. destruct r; reflexivity.
Qed.

Lemma reach_tidy v mvs w : exec step (w_init v) mvs = Some w -> inv w /\ tidy w.
Proof.
  apply (exec_inv step (fun w => inv w /\ tidy w)).
  - intros a mv b [h1 h2] H. split; [eapply inv_step; eauto|eapply tidy_step; eauto].
  - split; [apply inv_init|]. split; intros b hb; simpl in hb; lia.
Qed.

(** ** Who is woken *)
Inductive chain w : nat -> wk -> Prop :=
| chain_own i o : c_waker (w_cw w i) = Some o -> chain w i o
| chain_kid i b j o : c_waker (w_cw w i) = Some (WNote b) -> In j (b_wakers (w_bc w b)) -> c_alive (w_cw w j) = true -> chain w j o -> chain w i o.

(** Less is registered. *)
Definition less w w' : Prop := (forall i, c_waker (w_cw w' i) = c_waker (w_cw w i) \/ c_waker (w_cw w' i) = None) /\ (forall i, c_alive (w_cw w' i) = c_alive (w_cw w i))
  /\ (forall b i, In i (b_wakers (w_bc w' b)) -> In i (b_wakers (w_bc w b))).

Lemma less_chain w w' : less w w' -> forall i o, chain w' i o -> chain w i o.
Proof.
  intros (h1 & h2 & h3) i o H. induction H as [i o e|i b j o e hj ha hc IH].
  - apply chain_own. destruct (h1 i); congruence.
  - eapply chain_kid; [destruct (h1 i); [|congruence]|apply h3; eauto|rewrite <- h2; eauto|exact IH]. congruence.
Qed.

Lemma less_woke F w w' : woke F w w' -> less w w'.
Proof. intros k. split; [apply k|]. split; [apply k|apply k]. Qed.

Lemma less_trans w w1 w2 : less w w1 -> less w1 w2 -> less w w2.
Proof.
  intros (a1 & a2 & a3) (b1 & b2 & b3). split; [|split; [congruence|auto]]. intros i. destruct (b1 i) as [->|]; auto.
Qed.

Definition only (f : nat -> world V -> option (world V)) : Prop :=
  forall i w w', f i w = Some w' -> less w w' /\ forall o, roused w' o -> roused w o \/ chain w i o.

Lemma each_only f : only f -> forall l w w', each_alive f l w = Some w' ->
  less w w' /\ forall o, roused w' o -> roused w o \/ exists i, In i l /\ c_alive (w_cw w i) = true /\ chain w i o.
Proof.
  intros hf. induction l as [|i l IH]; simpl; intros w w' H; [injection H as <-; split; [repeat split; auto|auto]|].
  destruct (c_alive (w_cw w i)) eqn:Ea.
  - destruct (f i w) as [w1|] eqn:Ef; [|discriminate]. apply hf in Ef as [e1 e2]. apply IH in H as [e3 e4]. split; [eapply less_trans; eauto|].
    intros o h. apply e4 in h as [h|(j & j1 & j2 & j3)].
    + apply e2 in h as [h|h]; [auto|]. right. exists i. auto.
    + right. exists j. split; [auto|]. split; [|eapply less_chain; eauto]. destruct e1 as (_ & e1 & _). rewrite <- e1. auto.
  - apply IH in H as [e3 e4]. split; [auto|]. intros o h. apply e4 in h as [h|(j & j1 & j2 & j3)]; [auto|]. right. exists j. auto.
Qed.

Lemma wake_only n ch : only (wake n ch).
Proof.
  revert ch. induction n as [|n IH]; intros ch i w w' H; [discriminate|].
  split; [eapply less_woke; apply (wake_woke _ _ _ _ _ H)|]. cbn [wake] in H. cbv zeta in H.
  set (w1 := set_cw i _ w) in H.
  destruct (c_waker (w_cw w i)) as [[t|b]|] eqn:Ew.
  - injection H as <-. intros [t'|b']; simpl; auto. unfold fupd. destruct (Nat.eqb_spec t' t) as [->|]; auto. intros _. right. apply chain_own. auto.
  - set (w2 := set_bc b (flag_bc true (w_bc w1 b)) w1) in H. destruct (each_alive (wake n false) (b_wakers (w_bc w2 b)) w2) as [w3|] eqn:E3; [|discriminate]. injection H as <-.
    apply (each_only _ (IH false)) in E3 as [_ e4].
    assert (l2 : less w w2).
    { unfold w2, w1. split; [|split]; simpl.
      - intros j. unfold fupd. destruct (Nat.eqb_spec j i) as [->|]; auto.
      - intros j. unfold fupd. destruct (Nat.eqb_spec j i) as [->|]; auto. destruct ch; auto.
      - intros b0 j. unfold fupd. destruct (Nat.eqb_spec b0 b) as [->|]; auto. }
    intros o h. assert (h3 : roused w3 o).
    { destruct o as [t'|b']; simpl in *; auto. revert h. unfold fupd. destruct (Nat.eqb_spec b' b) as [->|]; auto. }
    apply e4 in h3 as [h3|(j & j1 & j2 & j3)].
    + destruct o as [t'|b']; simpl in *; auto. unfold fupd in h3. destruct (Nat.eqb_spec b' b) as [->|]; auto. right. apply chain_own. auto.
    + right. eapply chain_kid; [exact Ew|apply l2; exact j1| |eapply less_chain; eauto]. destruct l2 as (_ & l2 & _). rewrite <- l2. auto.
  - injection H as <-. auto.
Qed.

Lemma notify_only m ch w w' : notify m ch w = Some w' -> forall o, roused w' o -> roused w o \/ exists i, In i (u_signals (w_mu w m)) /\ c_alive (w_cw w i) = true /\ chain w i o.
Proof.
  unfold notify. destruct (each_alive _ _ _) as [w1|] eqn:E; [|discriminate]. intros H. injection H as <-.
  apply (each_only _ (wake_only _ ch)) in E as [_ e]. intros [t|b] h; [exact (e (WTask t) h)|exact (e (WNote b) h)].
Qed.

(** ** What is registered is needed *)
Definition feeds w i m : Prop :=
  c_src (w_cw w i) = FMut m \/ exists b, c_src (w_cw w i) = FBc b /\ depends (contents w) (inputs w) (inputs w b) m.

Lemma lids_depends w L : wfw w -> below L w -> forall o,
  (forall s, good w o L s -> still w o s -> forall out, cur w s out -> forall i m, In i (lids s) -> feeds w i m -> depends (contents w) (inputs w) (pipe_of s) m)
  /\ (forall ss, goods w o L ss -> stills w o ss -> curs w ss -> forall i m, In i (lidss ss) -> feeds w i m -> depends_one (contents w) (inputs w) (pipes_of ss) m).
Proof.
  intros hw hb o. apply sig_slots_ind; simpl; intros.
  - destruct H2 as [<-|[]]. destruct H as (_ & _ & _ & _ & _ & e). destruct H3 as [h|(b & h & _)]; rewrite e in h; [|discriminate]. injection h as <-. constructor.
  - destruct H2.
  - destruct H2 as (a & c & _). constructor. eapply H; eauto.
  - destruct H2 as (a & c & _). constructor. eapply H; eauto.
  - destruct H2 as (a & c & _). constructor. eapply H; eauto.
  - destruct H2 as (c & _), H0 as [_ g], H1 as [st _]. constructor. eapply H; eauto.
  - destruct H2 as [<-|[]]. destruct H as (_ & _ & _ & _ & hin). apply (wf_bw _ hw) in hin as (_ & es & _). destruct H3 as [h|(b' & h & hd)]; rewrite es in h; [discriminate|].
    injection h as <-. constructor. exact hd.
  - destruct H1 as (g1 & g2 & g3), H2 as (s1 & s2 & s3), H3 as (c1 & c2 & c3). apply in_app_or in H4 as [h|h].
    + destruct live; [|destruct h]. apply dep_switch. eapply H; eauto.
    + pose proof (H0 g2 s2 c2 i m h H5) as K. unfold inner_of in c3. destruct sel as [a|]; [|destruct c3 as [-> _]; destruct h].
      destruct c3 as [_ c3]. rewrite c3 in K. inversion K as [? ? ? K1|? ? ? K1]; subst; [|inversion K1].
      assert (fr : fresh w s) by (destruct live; [eapply still_fresh; eauto|eapply over_fresh; eauto]).
      destruct (proj1 (shows_fresh w L hb o) s (Some a) c1 ltac:(destruct live; auto) fr) as (v & ev & sh). injection ev as <-. eapply dep_inner; eauto.
  - destruct H2.
  - destruct H1 as (g1 & g2), H2 as (s1 & s2), H3 as (c1 & c2). apply in_app_or in H4 as [h|h].
    + destruct live; [|destruct h]. apply dep_here. eapply H; eauto.
    + apply dep_there. eapply H0; eauto.
Qed.

(** The signal of [o], which has nothing to tell. *)
Definition sig_of w o : sig V := match o with WTask t => t_sig (w_task w t) | WNote b => b_signal (w_bc w b) end.
Definition rests w o : Prop :=
  match o with
  | WTask t => t < w_nt w /\ t_pc (w_task w t) = TSleep /\ t_woken (w_task w t) = false
  | WNote b => b < w_nbc w /\ b_live (w_bc w b) = true /\ b_changed (w_bc w b) = false
  end.

Lemma rests_ok w o : inv w -> rests w o -> exists L out, L <= w_nbc w /\ good w o L (sig_of w o) /\ still w o (sig_of w o) /\ cur w (sig_of w o) out.
Proof.
  intros (h1 & h2 & h3). destruct o as [t|b]; simpl.
  - intros (ht & ep & ew). specialize (h2 t ht). unfold task_ok, alert in h2. rewrite ep in h2. destruct h2 as (_ & _ & c & g & [h|h]); [congruence|]. eauto 10.
  - intros (hb & el & ec). destruct (h1 b hb) as (_ & c & _ & k). rewrite el in k. destruct k as [g [h|h]]; [congruence|]. exists b, (b_value (w_bc w b)). split; [lia|auto].
Qed.

(** Broadcasters whose children rest do so, too. *)
Lemma lids_rests w o L : inv w -> L <= w_nbc w -> 
  (forall s, good w o L s -> still w o s -> forall i b, In i (lids s) -> c_src (w_cw w i) = FBc b -> rests w (WNote b))
  /\ (forall ss, goods w o L ss -> stills w o ss -> forall i b, In i (lidss ss) -> c_src (w_cw w i) = FBc b -> rests w (WNote b)).
Proof.
  intros hi hL. pose proof hi as (h1 & h2 & hw). apply sig_slots_ind; simpl; intros; eauto.
  - destruct H1 as [<-|[]]. destruct H as (_ & _ & _ & _ & _ & e). congruence.
  - destruct H1.
  - eapply H; eauto; tauto.
  - destruct H1 as [<-|[]]. destruct H as (_ & _ & hl & _ & hin). apply (wf_bw _ hw) in hin as (_ & es & _). rewrite es in H2. injection H2 as <-. split; [lia|tauto].
  - destruct H1 as (g1 & g2 & g3), H2 as (s1 & s2 & s3). apply in_app_or in H3 as [h|h]; [destruct live; [|destruct h]|]; eauto.
  - destruct H1.
  - destruct H1 as (g1 & g2), H2 as (s1 & s2). apply in_app_or in H3 as [h|h]; [destruct live; [|destruct h]|]; eauto.
Qed.

Lemma below_le w L L' : L <= L' -> below L' w -> below L w.
Proof. intros h k b hb. apply k. lia. Qed.

Lemma tidy_lids w o i : inv w -> tidy w -> mine w o i -> In i (lids (sig_of w o)).
Proof.
  intros (h1 & h2 & hw) [t1 t2] hm. pose proof hm as (a1 & a2 & a3). destruct o as [t|b]; simpl.
  - apply t2; auto. eapply wf_ownt; eauto.
  - apply t1; auto. eapply wf_own; eauto.
Qed.

(** Resting, and woken through [i]: what feeds [i] is depended on. *)
Lemma chain_rests w i o : inv w -> tidy w -> chain w i o -> i < w_ncw w -> c_alive (w_cw w i) = true -> rests w o ->
  rests w (c_owner (w_cw w i)) /\ forall m, feeds w i m -> depends (contents w) (inputs w) (pipe_of (sig_of w o)) m.
Proof.
  intros hi ht H. pose proof hi as (h1 & h2 & hw). induction H as [i o e|i b j o e hj ha hc IH]; intros hn hal hr.
  - destruct (wf_waker _ hw i hn) as [K|K]; [congruence|]. assert (o = c_owner (w_cw w i)) as -> by congruence. split; [auto|].
    intros m hf. destruct (rests_ok w _ hi hr) as (L & out & l1 & g & s & c).
    eapply (proj1 (lids_depends w L hw (below_le _ _ _ l1 h1) _)); eauto. apply tidy_lids; auto. repeat split; auto.
  - apply (wf_bw _ hw) in hj as (j1 & j2 & _). destruct (IH j1 ha hr) as [IH1 IH2].
    destruct (wf_waker _ hw i hn) as [K|K]; [congruence|]. assert (eo : c_owner (w_cw w i) = WNote b) by congruence. rewrite eo.
    assert (rb : rests w (WNote b)).
    { destruct (rests_ok w _ hi IH1) as (L & out & l1 & g & s & c). eapply (proj1 (lids_rests w (c_owner (w_cw w j)) L hi l1)); eauto. apply tidy_lids; auto. repeat split; auto. }
    split; [auto|]. intros m hf. apply IH2. right. exists b. split; [auto|].
    destruct (rests_ok w _ hi rb) as (L & out & l1 & g & s & c).
    eapply (proj1 (lids_depends w L hw (below_le _ _ _ l1 h1) _) (sig_of w (WNote b))); eauto. apply (tidy_lids w (WNote b)); auto. repeat split; auto.
Qed.

Lemma roused_notify w t m ch w0 w' : inv w -> tidy w -> t < w_nt w -> t_pc (w_task w t) = TSleep -> t_woken (w_task w t) = false ->
  notify m ch w0 = Some w' -> less w w0 -> (forall i, In i (u_signals (w_mu w0 m)) -> In i (u_signals (w_mu w m))) ->
  t_woken (w_task w' t) = true -> t_woken (w_task w0 t) = true \/ depends (contents w) (inputs w) (t_pipe (w_task w t)) m.
Proof.
  intros hi ht hlt ep ew H e1 e4 hr. pose proof hi as (h1 & h2 & hw).
  apply (notify_only _ _ _ _ H (WTask t)) in hr as [hr|(i & i1 & i2 & i3)]; [auto|]. right.
  apply e4 in i1. pose proof e1 as (_ & e2 & _). rewrite e2 in i2.
  assert (hc : chain w i (WTask t)) by (eapply less_chain; eauto).
  apply (wf_sig _ hw) in i1 as [i4 i5].
  destruct (chain_rests w i _ hi ht hc i4 i2) as [_ K]; [repeat split; auto|].
  specialize (h2 t hlt). unfold task_ok in h2. rewrite ep in h2. destruct h2 as (_ & <- & _). apply K. left. exact i5.
Qed.

Lemma less_mu w m x : less w (set_mu m x w).
Proof. repeat split; auto. Qed.

(** ** The theorems *)
Lemma tidy_wakes (v : V) mvs w t mv w' : exec step (w_init v) mvs = Some w -> t < w_nt w -> t_pc (w_task w t) = TSleep -> t_woken (w_task w t) = false ->
  step w mv = Some w' -> t_woken (w_task w' t) = true ->
  mv = MWake t \/ exists m, concerns mv w' m /\ depends (contents w) (inputs w) (t_pipe (w_task w t)) m.
Proof.
  intros R hlt ep ew H hr. destruct (reach_tidy v mvs w R) as [hi ht]. pose proof hi as (hb & hts & hw).
  destruct mv as [x|m|m|m x|m m'|nm nb p h|nm nb p h|t'|t'|t'|t' n|t' r]; simpl in H.
  - injection H as <-. simpl in hr. congruence.
  - destruct (held m w); [|discriminate]. injection H as <-. simpl in hr. congruence.
  - destruct (held m w) eqn:hm; [|discriminate]. destruct (Nat.eqb_spec (u_senders (w_mu w m)) 1) as [E1|]; [|injection H as <-; simpl in hr; congruence].
    destruct (notify m false _) as [w1|] eqn:E; [|discriminate]. injection H as <-. right. exists m. split.
    + simpl. split; [auto|]. unfold held. simpl. rewrite fupd_same. simpl. apply notify_woke in E as [e1 _]. destruct (wo_mu _ _ _ e1 m) as [_ ->]. simpl. rewrite fupd_same. simpl.
      rewrite E1. apply andb_false_r.
    + destruct (roused_notify w t m false _ w1 hi ht hlt ep ew E) as [K|K]; auto; [apply less_mu|simpl; rewrite fupd_same; auto|]. simpl in K. congruence.
  - destruct (held m w) eqn:hm; [|discriminate]. right. exists m. split; [reflexivity|].
    destruct (roused_notify w t m true _ w' hi ht hlt ep ew H) as [K|K]; auto; [apply less_mu|simpl; rewrite fupd_same; auto|]. simpl in K. congruence.
  - destruct (_ && _ && _); [|discriminate]. set (w1 := set_mu m' _ _) in H. destruct (notify m true w1) as [w2|] eqn:E; [|discriminate]. right.
    assert (sg : forall m0, u_signals (w_mu w1 m0) = u_signals (w_mu w m0)).
    { intros m0. unfold w1. simpl. unfold fupd. destruct (Nat.eqb_spec m0 m') as [->|]; auto. destruct (Nat.eqb_spec m0 m) as [->|]; auto. }
    pose proof (notify_woke _ _ _ _ E) as [e1 _]. assert (l1 : less w w1) by (repeat split; auto).
    destruct (roused_notify w t m' true _ w' hi ht hlt ep ew H) as [K|K]; auto.
    + eapply less_trans; [exact l1|eapply less_woke; exact e1].
    + intros i h. rewrite <- sg. apply (wo_sigs _ _ _ e1). auto.
    + exists m. split; [simpl; auto|]. destruct (roused_notify w t m true _ w2 hi ht hlt ep ew E) as [K'|K']; auto; [intros i; rewrite sg; auto|]. simpl in K'. congruence.
    + exists m'. split; [simpl; auto|auto].
  - destruct (_ && _) eqn:El; [|discriminate]. apply andb_true_iff in El as [l1 l2]. apply Nat.leb_le in l1, l2.
    destruct (build (WNote (w_nbc w)) p w) as [s w1] eqn:E. injection H as <-.
    destruct (proj1 (build_ok (WNote (w_nbc w)) (w_nbc w) (lev_note w)) p w s w1 (below_epochs _ _ hb) ltac:(eapply closed_mono1; eauto) E) as (g & _). simpl in hr. rewrite (ev_task g) in hr. congruence.
  - destruct (_ && _) eqn:El; [|discriminate]. apply andb_true_iff in El as [l1 l2]. apply Nat.leb_le in l1, l2.
    destruct (build (WTask (w_nt w)) p w) as [s w1] eqn:E. injection H as <-.
    destruct (proj1 (build_ok (WTask (w_nt w)) (w_nbc w) (lev_task _ _)) p w s w1 (below_epochs _ _ hb) ltac:(eapply closed_mono1; eauto) E) as (g & _).
    simpl in hr. rewrite (ev_nt g), fupd_other in hr by lia. rewrite (ev_task g) in hr. congruence.
  - destruct (_ && _) eqn:El; [|discriminate]. injection H as <-.
    pose proof (ev_drop (WTask 0) w (ids (t_sig (w_task w t'))) 0 (fun _ => True) (fun _ _ => I)) as g. unfold drop_sig in hr. simpl in hr. unfold fupd in hr.
    destruct (Nat.eqb_spec t t') as [<-|]; [simpl in hr; congruence|]. rewrite (ev_task g) in hr. congruence.
  - destruct (t' <? w_nt w); [|discriminate]. injection H as <-. simpl in hr. unfold fupd in hr. destruct (Nat.eqb_spec t t') as [<-|]; [auto|congruence].
  - destruct (_ && _); [|discriminate]. destruct (t_pc (w_task w t')) eqn:Ep; try discriminate; injection H as <-; simpl in hr; unfold fupd in hr;
      (destruct (Nat.eqb_spec t t') as [<-|]; [simpl in hr; congruence|congruence]).
  - destruct (t_pc (w_task w t')) eqn:Ep; try discriminate H. assert (ne : t <> t') by congruence.
    destruct (Nat.ltb_spec t' (w_nt w)) as [ht'|]; [|discriminate H].
    pose proof (hts t' ht') as ok. unfold task_ok in ok. rewrite Ep in ok. destruct ok as (k1 & k2 & k3 & k4 & _).
    pose proof (proj1 (poll_all_ok n) (WTask t') (t_sig (w_task w t')) w (w_nbc w) _ ltac:(intros b; discriminate) hb k4 k1 k3) as P.
    destruct (poll_sig n (WTask t') (t_sig (w_task w t')) w) as [| |[[s w1] r]]; [discriminate H|destruct P|]. destruct P as (e & _).
    pose proof (ev_drop (WTask 0) w1 (ids s) 0 (fun _ => True) (fun _ _ => I)) as g.
    destruct r as [|[x|]]; injection H as <-; simpl in hr; unfold drop_sig in hr; rewrite fupd_other in hr by auto; [| |rewrite (ev_task g) in hr]; rewrite (ev_task e) in hr; congruence.
  - destruct (t_pc (w_task w t')) eqn:Ep; try discriminate. destruct (t' <? w_nt w); [|discriminate]. injection H as <-. simpl in hr. unfold fupd in hr.
    destruct (Nat.eqb_spec t t') as [<-|]; [simpl in hr; congruence|congruence].
Qed.

Lemma tidy_registered (v : V) mvs w t m : exec step (w_init v) mvs = Some w -> t < w_nt w -> t_pc (w_task w t) = TSleep -> t_woken (w_task w t) = false ->
  registered w m t -> depends (contents w) (inputs w) (t_pipe (w_task w t)) m.
Proof.
  intros R hlt ep ew (i & i1 & i2 & i3). destruct (reach_tidy v mvs w R) as [hi ht]. pose proof hi as (hb & hts & hw).
  apply (wf_sig _ hw) in i1 as [i4 i5]. destruct (rests_ok w (WTask t) hi ltac:(repeat split; auto)) as (L & out & l1 & g & s & c).
  specialize (hts t hlt). unfold task_ok in hts. rewrite ep in hts. destruct hts as (_ & <- & _).
  eapply (proj1 (lids_depends w L hw (below_le _ _ _ l1 hb) _)); eauto; [|left; exact i5]. apply (tidy_lids w (WTask t)); auto. repeat split; auto.
Qed.

Lemma tidy_gone (v : V) mvs w t m : exec step (w_init v) mvs = Some w -> t < w_nt w -> ended (t_pc (w_task w t)) = true -> ~ registered w m t.
Proof.
  intros R hlt he (i & i1 & i2 & i3). destruct (reach_tidy v mvs w R) as [hi [_ ht]]. pose proof hi as (hb & hts & hw).
  apply (wf_sig _ hw) in i1 as [i4 i5]. destruct (ht t hlt i) as [K _]; [repeat split; auto|]. congruence.
Qed.
End Tidy.
