(** A closure is not called without a reason: how often the closure of a for_each is called in a whole program (Executor.v). *)
From Verif Require Import Base Conc Executor ExecutorFacts ExecutorRun ExecutorLive ExecutorUse ExecutorEnd.

(** ** Specification *)

(** The Mutables that the pipeline depends on; of a switch: also those that any of its inner signals depends on. *)
Inductive reads {V} (defs : nat -> pipe V) : pipe V -> nat -> Prop :=
| read_mut m f : reads defs (PMut m f) m
| read_map f p m : reads defs p m -> reads defs (PMap f p) m
| read_dedupe eqb f p m : reads defs p m -> reads defs (PDedupe eqb f p) m
| read_eq test out p m : reads defs p m -> reads defs (PEq test out p) m
| read_ref f ps m : reads_one defs ps m -> reads defs (PRef f ps) m
| read_child b f m : reads defs (defs b) m -> reads defs (PChild b f) m
| read_switch f p m : reads defs p m -> reads defs (PSwitch f p) m
| read_inner f p a m : reads defs (f a) m -> reads defs (PSwitch f p) m
with reads_one {V} (defs : nat -> pipe V) : pipes V -> nat -> Prop :=
| read_here p ps m : reads defs p m -> reads_one defs (PCons p ps) m
| read_there p ps m : reads_one defs ps m -> reads_one defs (PCons p ps) m.

(** It writes to a Mutable of [rel]. *)
Definition writes {V} (rel : nat -> bool) (mv : move V) : bool :=
  match mv with MSet m _ => rel m | MSwap m m' => rel m || rel m' | _ => false end.

(** ** Nothing to tell, and nothing that has not arrived yet *)
Inductive quiet {V} (w : world V) : sig V -> Prop :=
| q_mut i m f : i < w_ncw w -> c_changed (w_cw w i) = false -> quiet w (SMut i m f)
| q_always v : quiet w (SAlways v true)
| q_map f s : quiet w s -> quiet w (SMap f s)
| q_dedupe eqb f old s : quiet w s -> quiet w (SDedupe eqb f old s)
| q_eq test out ma s : quiet w s -> quiet w (SEq test out ma s)
| q_ref f ss : quiets w ss -> quiet w (SRef f ss)
| q_kid b i e f : e = b_epoch (w_bc w b) -> (b_live (w_bc w b) = true -> quiet w (b_signal (w_bc w b))) -> quiet w (SKid b i e f)
| q_switch f live sel s ss : quiet w s -> quiets w ss -> quiet w (SSwitch f live sel s ss)
with quiets {V} (w : world V) : slots V -> Prop :=
| q_nil : quiets w LNil
| q_cons l v s ss : quiet w s -> quiets w ss -> quiets w (LCons l v s ss).

Section Quiet.
Context {V : Type}.
Implicit Types (w : world V) (s : sig V) (ss : slots V) (o : wk) (p : pipe V).

Scheme quiet_mind := Minimality for quiet Sort Prop with quiets_mind := Minimality for quiets Sort Prop.
Combined Scheme quiet_quiets_ind from quiet_mind, quiets_mind.

Lemma fresh_quiet w L : below L w -> forall o,
  (forall s, good w o L s \/ over w o L s -> fresh w s -> quiet w s) /\ (forall ss, goods w o L ss \/ overs w o L ss -> freshs w ss -> quiets w ss).
Proof.
  induction L as [L IHL] using lt_wf_ind. intros hb o. apply sig_slots_ind; simpl; intros; try (constructor; tauto).
  - subst. constructor.
  - constructor; [apply H0|]. intros el. assert (hl : b < L) by tauto. destruct (hb b hl) as (_ & _ & _ & k). rewrite el in k. destruct k as [k1 k2].
    apply (IHL b hl (fun b' h => hb b' (Nat.lt_trans _ _ _ h hl)) (WNote b)); [auto|]. eapply still_fresh; eauto. destruct k2 as [k2|k2]; [|auto].
    destruct H0 as [_ [h|h]]; congruence.
  - destruct H2. constructor; [apply H|apply H0]; auto; destruct H1 as [(a & b & _)|(_ & a & b & _)]; auto. destruct live; auto.
  - destruct H2. constructor; [apply H|apply H0]; auto; destruct H1 as [(a & b)|(_ & a & b)]; auto. destruct live; auto.
Qed.

Definition keeps w w' : Prop := forall s, quiet w s -> quiet w' s.

Lemma keeps_slots w w' : keeps w w' -> forall ss, quiets w ss -> quiets w' ss.
Proof. intros h ss H. induction H; constructor; auto. Qed.

Lemma keeps_trans w w1 w2 : keeps w w1 -> keeps w1 w2 -> keeps w w2.
Proof. unfold keeps. auto. Qed.

Lemma frame w w' : w_ncw w <= w_ncw w' -> (forall i, i < w_ncw w -> c_changed (w_cw w i) = false -> c_changed (w_cw w' i) = false) ->
  (forall b, b_epoch (w_bc w' b) = b_epoch (w_bc w b) /\ b_live (w_bc w' b) = b_live (w_bc w b) /\ b_signal (w_bc w' b) = b_signal (w_bc w b)) -> keeps w w'.
Proof.
  intros h1 h2 h3.
  assert (H : (forall s, quiet w s -> quiet w' s) /\ (forall ss, quiets w ss -> quiets w' ss)); [|exact (proj1 H)].
  apply quiet_quiets_ind; intros; try (constructor; auto; lia).
  destruct (h3 b) as (e1 & e2 & e3). constructor; [congruence|]. rewrite e2, e3. auto.
Qed.

Lemma frame_ev o L T w w' : ev o L T w w' -> (forall b, same_bc (w_bc w b) (w_bc w' b)) -> keeps w w'.
Proof.
  intros e h. apply frame; [apply (ev_ncw e)| |].
  - intros i hi hc. destruct (c_changed (w_cw w' i)) eqn:E; auto. apply (ev_flag e) in E; [congruence|auto].
  - intros b. destruct (h b) as (a1 & a2 & a3 & a4 & a5). auto.
Qed.

Lemma keeps_drop l w : keeps w (drop_ids l w).
Proof.
  apply (frame_ev (WTask 0) 0 (fun _ => True)); [apply ev_drop; auto|]. intros b. destruct (drop_spec l w) as (_ & _ & _ & _ & h & _). rewrite h. apply same_bc_refl.
Qed.

Lemma keeps_refl w : keeps w w. Proof. unfold keeps. auto. Qed.

(** A signal with Broadcasters below [L] does not depend on the others. *)
Lemma low_quiet w b x :
  (forall s, quiet w s -> forall o L, L <= b -> below L w -> good w o L s \/ over w o L s -> quiet (set_bc b x w) s)
  /\ (forall ss, quiets w ss -> forall o L, L <= b -> below L w -> goods w o L ss \/ overs w o L ss -> quiets (set_bc b x w) ss).
Proof.
  apply quiet_quiets_ind; simpl; intros; try (constructor; simpl; eauto; fail).
  - constructor. apply (H0 o L); auto. tauto.
  - assert (hb : b0 < L) by tauto. constructor; simpl; rewrite fupd_other by lia; [auto|]. intros el. destruct (H3 b0 hb) as (_ & _ & _ & k). rewrite el in k.
    eapply (H1 el (WNote b0) b0); [lia| |left; apply k]. intros b' h. apply H3. lia.
  - constructor; [eapply H0|eapply H2]; eauto; destruct H5 as [(a1 & a2 & _)|(_ & a1 & a2 & _)]; eauto. destruct live; eauto.
  - constructor; [eapply H0|eapply H2]; eauto; destruct H5 as [(a1 & a2)|(_ & a1 & a2)]; eauto. destruct l; eauto.
Qed.

(** ** Polls *)
Definition poll_q n := forall o s w L out, lev o L -> below L w -> good w o L s -> NoDup (ids s) -> cur w s out ->
  match poll_sig n o s w with
  | Ok (s', w', r) => keeps w w' /\ (quiet w s -> match r with Ready (Some _) => False | _ => True end)
  | _ => True
  end.
Definition slots_q n := forall o ss w L, lev o L -> below L w -> goods w o L ss -> NoDup (idss ss) -> curs w ss ->
  match poll_slots n o ss w with
  | Ok (ss', w', d, c) => keeps w w' /\ (quiets w ss -> c = false)
  | _ => True
  end.
Definition drain_q n := forall o s w L ch v, lev o L -> below L w -> good w o L s -> NoDup (ids s) -> cur w s v ->
  match drain n o s ch v w with
  | Ok (s', w', l, c, v') => keeps w w' /\ (quiet w s -> c = ch) /\ (ch = true -> c = true)
  | _ => True
  end.

Lemma drain_q_S n : poll_q n -> drain_q n -> drain_q (S n).
Proof.
  intros IHp IHd o s w L ch v hl hb hg hn hc. cbn [drain].
  pose proof (IHp o s w L v hl hb hg hn hc) as Q. pose proof (proj1 (poll_all_ok n) o s w L v hl hb hg hn hc) as P.
  destruct (poll_sig n o s w) as [| |[[s1 w1] r]]; auto. destruct Q as [q1 q2], P as (_ & hb1 & _ & hn1 & _ & _ & _ & hr).
  destruct r as [|[x|]]; auto.
  - destruct hr as [g1 c1]. specialize (IHd o s1 w1 L true (Some x) hl hb1 g1 hn1 c1). destruct (drain n o s1 true (Some x) w1) as [| |[[[[s2 w2] l] c] v2]]; auto.
    destruct IHd as (d1 & d2 & d3). split; [eapply keeps_trans; eauto|]. split; [|auto]. intros h. destruct (q2 h).
  - split; [|auto]. eapply keeps_trans; [exact q1|apply keeps_drop].
Qed.

Lemma slots_q_S n : poll_q n -> slots_q n -> slots_q (S n).
Proof.
  intros IHp IHs o ss w L hl hb hg hn hc. destruct ss as [|live v s ss]; cbn [poll_slots]; [split; auto using keeps_refl|].
  destruct hg as [g1 g2], hc as [c1 c2]. simpl in hn. apply nodup_app_inv in hn as (n1 & n2 & dis).
  assert (A : match (if live then
                   match poll_sig n o s w with
                   | Ok (s, w, Ready None) => Ok (LCons false v s LNil, drop_sig s w, true, false)
                   | Ok (s, w, Ready (Some v)) => Ok (LCons true (Some v) s LNil, w, false, true)
                   | Ok (s, w, Pending) => Ok (LCons true v s LNil, w, false, false)
                   | Panic => Panic | OutOfFuel => OutOfFuel
                   end
                 else Ok (LCons false v s LNil, w, true, false)) with
           | Ok (_, w1, _, c) => keeps w w1 /\ (quiet w s -> c = false) /\ ev o L (touch L w (ids s)) w w1 /\ below L w1
           | _ => True end).
  { destruct live; [|split; [apply keeps_refl|split; [auto|split; [apply ev_refl|auto]]]].
    pose proof (IHp o s w L v hl hb g1 n1 c1) as Q. pose proof (proj1 (poll_all_ok n) o s w L v hl hb g1 n1 c1) as P.
    destruct (poll_sig n o s w) as [| |[[s1 w1] r]]; auto. destruct Q as [q1 q2], P as (e & hb1 & hi & hn1 & _ & _ & _ & hr).
    destruct r as [|[x|]].
    - split; [auto|]. split; [auto|]. split; auto.
    - split; [auto|]. split; [intros h; destruct (q2 h)|]. split; auto.
    - destruct hr as [r1 r2]. destruct (end_drop o L w w1 s s1 v hl hb1 e hi r1 r2) as (b1 & b2 & _).
      split; [eapply keeps_trans; [exact q1|apply keeps_drop]|]. auto. }
  destruct (if live then _ else _) as [| |[[[[|l1 v1 s1 ss1] w1] d1] c0]]; auto. destruct A as (q1 & q2 & e & hb1).
  assert (un : free (touch L w (ids s)) w (idss ss)).
  { intros j hj. destruct (good_owner2 w o L ss g2 j hj) as [ho1 ho2]. split; [auto|]. intros [h|(b & h1 & h2 & _)]; [eauto|].
    rewrite h2 in ho2. symmetry in ho2. apply hl in ho2. lia. }
  pose proof (IHs o ss w1 L hl hb1 ltac:(eapply good_ev2; eauto) n2 ltac:(eapply cur_ev2; eauto)) as S1.
  destruct (poll_slots n o ss w1) as [| |[[[ss2 w2] d2] c3]]; auto. destruct S1 as [s1' s2]. split; [eapply keeps_trans; eauto|].
  intros h. inversion h; subst. rewrite q2, s2; auto. eapply keeps_slots; eauto.
Qed.

(** The poll of Broadcaster [b] at a change. *)
Lemma kid_keeps b w w1 w2 s' (live c : bool) v x o T : w1 = set_bc b (flag_bc false (w_bc w b)) w -> x = w_bc w1 b ->
  ev o b T w1 w2 -> keeps w1 w2 -> below b w2 -> (quiet w1 (b_signal x) -> c = false) -> b_live x = true ->
  fresh w2 s' -> (if live then good w2 (WNote b) b s' else over w2 (WNote b) b s') ->
  keeps w (set_bc b (inner_bc s' live v (if c then S (b_epoch x) else b_epoch x) (w_bc w2 b)) w2).
Proof.
  intros e1 ex e k hb hq hl hf hg.
  assert (k0 : keeps w w1).
  { subst w1. apply frame; [auto|auto|]. intros b0. simpl. unfold fupd. destruct (Nat.eqb_spec b0 b) as [->|]; auto. }
  assert (eb : w_bc w2 b = x) by (subst x; apply (ev_above e); auto).
  set (w3 := set_bc b _ w2).
  assert (qs : quiet w3 s').
  { apply (proj1 (low_quiet w2 b _) s') with (o := WNote b) (L := b); auto; [apply (fresh_quiet w2 b hb (WNote b))|]; auto; destruct live; auto. }
  apply (keeps_trans _ w1); [exact k0|]. destruct c.
  - (* it was not quiet *)
    assert (H : (forall s, quiet w1 s -> quiet w3 s) /\ (forall ss, quiets w1 ss -> quiets w3 ss)); [|exact (proj1 H)].
    apply quiet_quiets_ind; intros; try (constructor; auto; fail).
    + pose proof (k (SMut i m f) (q_mut w1 i m f H H0)) as h. inversion h; subst. constructor; auto.
    + destruct (Nat.lt_total b0 b) as [h|[->|h]].
      * assert (h1 : quiet w1 (SKid b0 i e0 f)) by (constructor; auto).
        apply k in h1. inversion h1 as [| | | | | |? ? ? ? q1 q2|]; clear h1. unfold w3. constructor; simpl; rewrite fupd_other by lia; [exact q1|]. intros el. destruct (hb b0 h) as (_ & _ & _ & kk). rewrite el in kk.
        apply (proj1 (low_quiet w2 b _) _ (q2 el)) with (o := WNote b0) (L := b0); [lia| |left; apply kk]. intros b' h'. apply hb. lia.
      * exfalso. subst x. specialize (hq (H0 hl)). discriminate.
      * pose proof (ev_above e b0 ltac:(lia)) as eb0. unfold w3. constructor; simpl; rewrite fupd_other by lia; rewrite eb0; auto.
  - apply (keeps_trans _ w2); [exact k|].
    assert (H : (forall s, quiet w2 s -> quiet w3 s) /\ (forall ss, quiets w2 ss -> quiets w3 ss)); [|exact (proj1 H)].
    apply quiet_quiets_ind; intros; try (constructor; auto; fail).
    destruct (Nat.eq_dec b0 b) as [->|h].
    + constructor; unfold w3; simpl; rewrite fupd_same; simpl; [congruence|]. intros _. exact qs.
    + constructor; unfold w3; simpl; rewrite fupd_other by auto; auto.
Qed.

Lemma poll_q_S n : poll_q n -> slots_q n -> drain_q n -> poll_q (S n).
Proof.
  intros IHp IHs IHd o s w L out hl hb hg hn hc. destruct s as [i m f|v taken|f s|eqb f old s|test f ma s|f ss|b i e f|f live sel s ss]; cbn [poll_sig].
  - destruct (c_changed (w_cw w i)) eqn:Ec; [|destruct (u_senders (w_mu w m) =? 0)]; (split; [|auto]).
    + apply frame; auto. intros j hj h. simpl. unfold fupd. destruct (Nat.eqb_spec j i) as [->|]; auto.
    + intros h. inversion h; congruence.
    + apply keeps_refl.
    + apply frame; auto. intros j hj h. simpl. unfold fupd. destruct (Nat.eqb_spec j i) as [->|]; auto.
  - split; [apply keeps_refl|]. intros h. inversion h; subst. exact I.
  - destruct hc as (a & c1 & _). specialize (IHp o s w L a hl hb hg hn c1). destruct (poll_sig n o s w) as [| |[[s1 w1] [|[x|]]]]; auto;
      destruct IHp as [q1 q2]; (split; [auto|]); auto; intros h; inversion h; subst; auto.
  - destruct hc as (a & c1 & c2). pose proof (IHp o s w L a hl hb hg hn c1) as Q. pose proof (proj1 (poll_all_ok n) o s w L a hl hb hg hn c1) as P.
    destruct (poll_sig n o s w) as [| |[[s1 w1] r]]; auto. destruct Q as [q1 q2], P as (_ & hb1 & _ & hn1 & _ & _ & _ & hr).
    destruct r as [|[x|]]; auto.
    destruct (match old with Some a => negb (eqb a x) | None => true end) eqn:Eo; [split; [auto|]; intros h; inversion h; subst; auto|].
    destruct hr as [g1 c3].
    assert (c4 : cur w1 (SDedupe eqb f old s1) out).
    { exists (Some x). split; [auto|]. destruct a as [v|]; [|destruct c2; subst; discriminate].
      destruct c2 as (a0 & d1 & d2 & d3). subst old. apply negb_false_iff in Eo. eauto 10. }
    pose proof (IHp o (SDedupe eqb f old s1) w1 L out hl hb1 g1 hn1 c4) as Q2. destruct (poll_sig n o (SDedupe eqb f old s1) w1) as [| |[[s2 w2] r]]; auto.
    destruct Q2 as [q3 q4]. split; [eapply keeps_trans; eauto|]. intros h. inversion h; subst. destruct (q2 H0).
  - destruct hc as (a & c1 & c2 & c2'). pose proof (IHp o s w L a hl hb hg hn c1) as Q. pose proof (proj1 (poll_all_ok n) o s w L a hl hb hg hn c1) as P.
    destruct (poll_sig n o s w) as [| |[[s1 w1] r]]; auto. destruct Q as [q1 q2], P as (_ & hb1 & _ & hn1 & _ & _ & _ & hr).
    destruct r as [|[x|]]; auto.
    destruct (match ma with Some a => negb (Bool.eqb a (test x)) | None => true end) eqn:Eo; [split; [auto|]; intros h; inversion h; subst; auto|].
    destruct hr as [g1 c3].
    assert (c4 : cur w1 (SEq test f ma s1) out).
    { exists (Some x). split; [auto|]. destruct a as [v|]; [|subst; discriminate]. subst ma. simpl in *.
      apply negb_false_iff, eqb_prop in Eo. rewrite <- Eo. auto. }
    pose proof (IHp o (SEq test f ma s1) w1 L out hl hb1 g1 hn1 c4) as Q2. destruct (poll_sig n o (SEq test f ma s1) w1) as [| |[[s2 w2] r]]; auto.
    destruct Q2 as [q3 q4]. split; [eapply keeps_trans; eauto|]. intros h. inversion h; subst. destruct (q2 H0).
  - destruct hg as [g1 g2], hc as [c1 c2]. specialize (IHs o ss w L hl hb g2 hn c1). destruct (poll_slots n o ss w) as [| |[[[ss1 w1] d] c]]; auto.
    destruct IHs as [q1 q2]. destruct c; [destruct (values ss1); auto; split; [auto|]; intros h; inversion h; subst; specialize (q2 H0); discriminate|].
    destruct d; auto.
  - pose proof hg as (g1 & g2 & g3 & g4 & g5). destruct (hb b g3) as (k1 & k2 & k3 & k4).
    assert (A : forall w2 : world V, keeps w w2 -> (quiet w (SKid b i e f) -> b_epoch (w_bc w2 b) = e) ->
      match (let x := w_bc w2 b in
            if b_epoch x =? e then
              if b_live x then Ok (SKid b i e f, set_cw i (arm_cw (Some o) (w_cw w2 i)) w2, Pending)
              else Ok (SKid b i e f, w2, Ready None)
            else match b_value x with
                 | Some v => Ok (SKid b i (b_epoch x) f, w2, Ready (Some (f v)))
                 | None => Panic
                 end) with
      | Ok (_, w', r) => keeps w w' /\ (quiet w (SKid b i e f) -> match r with Ready (Some _) => False | _ => True end)
      | _ => True
      end).
    { intros w2 h1 h2. cbv zeta. destruct (Nat.eqb_spec (b_epoch (w_bc w2 b)) e) as [Ee|Ee]; [destruct (b_live (w_bc w2 b))|destruct (b_value (w_bc w2 b))]; auto.
      split; [|auto]. eapply keeps_trans; [exact h1|]. apply frame; auto. intros j hj h. simpl. unfold fupd. destruct (Nat.eqb_spec j i) as [->|]; auto. }
    assert (same : keeps w (set_bc b (flag_bc false (w_bc w b)) w)).
    { apply frame; [auto|auto|]. intros b0. simpl. unfold fupd. destruct (Nat.eqb_spec b0 b) as [->|]; auto. }
    destruct (b_changed (w_bc w b)) eqn:Ec; [|apply A; [apply keeps_refl|intros h; inversion h; auto]].
    set (w1 := set_bc b (flag_bc false (w_bc w b)) w) in *. cbv zeta. set (x := w_bc w1 b).
    assert (ex : x = flag_bc false (w_bc w b)) by (unfold x, w1; simpl; apply fupd_same).
    destruct (b_live x) eqn:El; 
      [|specialize (A w1 same); cbv zeta in A; fold x in A; rewrite El in A; apply A; intros h; inversion h as [| | | | | |? ? ? ? q1 q2|]; rewrite ex; symmetry; exact q1].
    assert (El0 : b_live (w_bc w b) = true) by (rewrite ex in El; exact El). rewrite El0 in k4. destruct k4 as [k4 _].
    assert (E1 : ev o L (fun _ => False) w w1).
    { constructor; simpl; auto; try (intros; lia).
      - intros b1 j. unfold fupd. destruct (Nat.eqb_spec b1 b) as [->|]; auto.
      - intros b1 j. unfold fupd. destruct (Nat.eqb_spec b1 b) as [->|]; auto.
      - intros b1. unfold fupd. destruct (Nat.eqb_spec b1 b) as [->|]; [apply bc_ev_unchanged|apply bc_ev_refl].
      - intros b1 h. rewrite fupd_other by lia. reflexivity. }
    assert (fr : free (fun _ => False) w (ids (b_signal (w_bc w b)))) by (intros j hj; split; [eapply bc_owner; eauto|auto]).
    assert (L1 : lev (WNote b) b) by (intros b1 h; injection h as <-; auto).
    assert (B1 : below b w1). { intros b1 h. eapply bc_ok_ev; [exact E1| |auto|apply hb; lia]. unfold w1. simpl. rewrite fupd_other by lia. apply same_bc_refl. }
    assert (xs : b_signal x = b_signal (w_bc w b)) by (rewrite ex; reflexivity).
    assert (xv : b_value x = b_value (w_bc w b)) by (rewrite ex; reflexivity).
    assert (G1 : good w1 (WNote b) b (b_signal x)) by (rewrite xs; eapply good_ev1; eauto).
    assert (N1 : NoDup (ids (b_signal x))) by (rewrite xs; auto).
    assert (C1 : cur w1 (b_signal x) (b_value x)) by (rewrite xs, xv; eapply cur_ev1; eauto).
    pose proof (IHd (WNote b) (b_signal x) w1 b false (b_value x) L1 B1 G1 N1 C1) as D. pose proof (proj2 (proj2 (poll_all_ok n)) (WNote b) (b_signal x) w1 b false (b_value x) L1 B1 G1 N1 C1) as P.
    destruct (drain n (WNote b) (b_signal x) false (b_value x) w1) as [| |[[[[s' w2] live'] c] v']]; auto.
    destruct D as (d1 & d2 & _). destruct P as (E2 & p2 & _ & _ & _ & _ & _ & p8).
    assert (fs : fresh w2 s') by (destruct live'; [eapply still_fresh; apply p8|eapply over_fresh; exact p8]).
    apply A.
    + eapply (kid_keeps b w w1 w2 s' live' c v' x); try reflexivity; eauto. destruct live'; [apply p8|exact p8].
    + intros h. inversion h; subst. simpl. rewrite fupd_same. simpl. rewrite d2; [rewrite ex; reflexivity|]. rewrite xs. apply same. auto.
  - change (NoDup (ids s ++ idss ss)) in hn.
    pose proof (switch_first n o f live sel s ss w L out (proj1 (poll_all_ok n)) hl hb hg hn hc) as F. fold (outer n o f live sel s ss w) in F.
    match goal with |- match (match ?x with _ => _ end) with _ => _ end => change x with (outer n o f live sel s ss w) end.
    assert (Q : match outer n o f live sel s ss w with
                | Ok (_, _, _, ss', w') => keeps w w' /\ (quiet w s -> ss' = ss)
                | _ => True end).
    { unfold outer. destruct live; [|split; [apply keeps_refl|auto]]. destruct hg as (a1 & a2 & a3), hc as (b1 & b2 & b3). apply nodup_app_inv in hn as (n1 & _).
      pose proof (IHp o s w L sel hl hb a1 n1 b1) as Q. pose proof (proj1 (poll_all_ok n) o s w L sel hl hb a1 n1 b1) as P.
      destruct (poll_sig n o s w) as [| |[[s1 w1] r]]; auto. destruct Q as [q1 q2]. destruct r as [|[a|]]; auto.
      - destruct (build o (f a) w1) as [inner w2] eqn:Eb. destruct P as (e & hb1 & _). split; [|intros h; destruct (q2 h)].
        destruct (proj1 (build_ok o L hl) (f a) w1 inner w2 (below_epochs _ _ hb1) ltac:(rewrite (ev_nmu e); auto) Eb) as (g & sb & _).
        eapply keeps_trans; [exact q1|]. eapply keeps_trans; [eapply frame_ev; eauto|apply keeps_drop].
      - split; [|auto]. eapply keeps_trans; [exact q1|apply keeps_drop]. }
    destruct (outer n o f live sel s ss w) as [| |[[[[live' sel'] s'] ss'] w']]; auto.
    destruct F as (e & hb' & hi & hn' & _ & _ & _ & hg2 & _ & hc2 & _), Q as [q1 q2]. apply nodup_app_inv in hn' as (_ & hn2 & _).
    specialize (IHs o ss' w' L hl hb' hg2 hn2 hc2). destruct (poll_slots n o ss' w') as [| |[[[ss2 w2] d] c]]; auto. destruct IHs as [s1 s2].
    assert (k : keeps w w2) by (eapply keeps_trans; eauto).
    destruct c; [|destruct (d && negb live'); auto]. destruct (values ss2) as [[|v [|]]|]; auto. split; [auto|]. intros h. inversion h; subst.
    rewrite q2 in s2 by auto. specialize (s2 ltac:(eapply keeps_slots; eauto)). discriminate.
Qed.

Lemma poll_all_q n : poll_q n /\ slots_q n /\ drain_q n.
Proof.
  induction n as [|n (h1 & h2 & h3)].
  - repeat split; intros ? *; simpl; auto.
  - split; [apply poll_q_S; auto|]. split; [apply slots_q_S; auto|apply drain_q_S; auto].
Qed.

(** ** Everything that is not a poll; [M]: the Mutables that are written *)
Record calm (M : nat -> Prop) w w' : Prop := mkCalm {
  ca_ncw : w_ncw w <= w_ncw w';
  ca_flag : forall j, j < w_ncw w -> c_changed (w_cw w' j) = true -> c_changed (w_cw w j) = true \/ exists m, c_src (w_cw w j) = FMut m /\ M m;
  ca_bc : forall b, b < w_nbc w -> b_epoch (w_bc w' b) = b_epoch (w_bc w b) /\ b_live (w_bc w' b) = b_live (w_bc w b) /\ b_signal (w_bc w' b) = b_signal (w_bc w b);
  ca_task : forall t, t < w_nt w -> t_sig (w_task w' t) = t_sig (w_task w t) /\ t_seen (w_task w' t) = t_seen (w_task w t)
    /\ (ended (t_pc (w_task w t)) = true -> ended (t_pc (w_task w' t)) = true) }.

Lemma calm_woke (F M : nat -> Prop) w w0 w' : woke F w0 w' -> w_cw w0 = w_cw w -> w_ncw w0 = w_ncw w -> w_bc w0 = w_bc w -> w_task w0 = w_task w ->
  (forall j, F j -> exists m, c_src (w_cw w j) = FMut m /\ M m) -> calm M w w'.
Proof.
  intros k e1 e2 e3 e4 h. constructor.
  - rewrite (wo_ncw _ _ _ k). lia.
  - intros j _ hj. apply (wo_flag' _ _ _ k) in hj. rewrite e1 in hj. destruct hj; auto.
  - intros b _. destruct (wo_bc _ _ _ k b) as (a1 & a2 & a3 & a4). rewrite e3 in *. auto.
  - intros t _. destruct (wo_task _ _ _ k t) as (a1 & a2 & a3 & a4). rewrite e4 in *. rewrite a2. auto.
Qed.

Lemma calm_task M w t x : t_sig x = t_sig (w_task w t) -> t_seen x = t_seen (w_task w t) -> (ended (t_pc (w_task w t)) = true -> ended (t_pc x) = true) ->
  calm M w (set_task t x w).
Proof.
  intros h1 h2 h3. constructor; auto. intros t' _. simpl. unfold fupd. destruct (Nat.eqb_spec t' t) as [->|]; auto.
Qed.

Definition written (mv : move V) (m : nat) : Prop :=
  match mv with MSet m' _ => m = m' | MSwap m1 m2 => m = m1 \/ m = m2 | _ => False end.

Lemma calm_step w mv w' : inv w -> (forall t n, mv <> MPoll t n) -> step w mv = Some w' -> calm (written mv) w w'.
Proof.
  intros hi hp H. pose proof hi as (hb & ht & hw).
  assert (sr : forall m j, In j (u_signals (w_mu w m)) -> c_src (w_cw w j) = FMut m) by (intros m j h; apply (wf_sig _ hw); auto).
  destruct mv as [v|m|m|m v|m m'|nm nb p h|nm nb p h|t|t|t|t n|t r]; simpl in H.
  - injection H as <-. constructor; simpl; auto.
  - destruct (held m w); [|discriminate]. injection H as <-. constructor; simpl; auto.
  - destruct (held m w); [|discriminate]. destruct (u_senders (w_mu w m) =? 1); [|injection H as <-; constructor; simpl; auto].
    destruct (notify m false _) as [w1|] eqn:E; [|discriminate]. injection H as <-. apply notify_woke in E as [e1 _].
    assert (k : calm (fun _ => False) w w1) by (eapply calm_woke; [exact e1|reflexivity..|]; intros j [? _]; discriminate).
    destruct k. constructor; simpl; auto.
  - destruct (held m w); [|discriminate]. apply notify_woke in H as [e1 _]. eapply calm_woke; [exact e1|reflexivity..|].
    simpl. rewrite fupd_same. simpl. intros j [_ hj]. exists m. auto.
  - destruct (_ && _ && _); [|discriminate]. set (w1 := set_mu m' _ _) in H. destruct (notify m true w1) as [w2|] eqn:E; [|discriminate].
    assert (sg : forall m0, u_signals (w_mu w1 m0) = u_signals (w_mu w m0)).
    { intros m0. unfold w1. simpl. unfold fupd. destruct (Nat.eqb_spec m0 m') as [->|]; auto. destruct (Nat.eqb_spec m0 m) as [->|]; auto. }
    apply notify_woke in E as [e1 _], H as [e3 _]. rewrite sg in e1.
    assert (e5 : woke (fun j => In j (u_signals (w_mu w m)) \/ In j (u_signals (w_mu w m'))) w1 w').
    { eapply woke_trans; [exact e1|exact e3|intros j [_ hj]; auto|]. intros j [_ hj]. right. rewrite <- sg. apply (wo_sigs _ _ _ e1). auto. }
    eapply calm_woke; [exact e5|reflexivity..|]. intros j [hj|hj]; [exists m|exists m']; simpl; auto.
  - destruct (_ && _) eqn:El; [|discriminate]. apply andb_true_iff in El as [l1 l2]. apply Nat.leb_le in l1, l2.
    destruct (build (WNote (w_nbc w)) p w) as [s w1] eqn:E. injection H as <-.
    destruct (proj1 (build_ok (WNote (w_nbc w)) (w_nbc w) ltac:(intros b hb'; injection hb' as <-; auto)) p w s w1 (below_epochs _ _ hb) ltac:(eapply closed_mono1; eauto) E) as (g & sb & _).
    constructor; simpl.
    + apply (ev_ncw g).
    + intros j hj hc. left. apply (ev_flag g); auto.
    + intros b hb'. rewrite (ev_nbc g), fupd_other by lia. destruct (sb b) as (a1 & a2 & a3 & a4 & a5). auto.
    + intros t h'. rewrite (ev_task g). auto.
  - destruct (_ && _) eqn:El; [|discriminate]. apply andb_true_iff in El as [l1 l2]. apply Nat.leb_le in l1, l2.
    destruct (build (WTask (w_nt w)) p w) as [s w1] eqn:E. injection H as <-.
    destruct (proj1 (build_ok (WTask (w_nt w)) (w_nbc w) ltac:(intros b; discriminate)) p w s w1 (below_epochs _ _ hb) ltac:(eapply closed_mono1; eauto) E) as (g & sb & _).
    constructor; simpl.
    + apply (ev_ncw g).
    + intros j hj hc. left. apply (ev_flag g); auto.
    + intros b hb'. destruct (sb b) as (a1 & a2 & a3 & a4 & a5). auto.
    + intros t h'. rewrite (ev_nt g), fupd_other by lia. rewrite (ev_task g). auto.
  - destruct (_ && _) eqn:El; [|discriminate]. injection H as <-. destruct (drop_spec (ids (t_sig (w_task w t))) w) as (_ & _ & d3 & d4 & d5 & _ & d7 & _).
    pose proof (ev_drop (WTask 0) w (ids (t_sig (w_task w t))) 0 (fun _ => True) (fun _ _ => I)) as g.
    constructor; simpl.
    + apply (ev_ncw g).
    + intros j hj hc. left. apply (ev_flag g); auto.
    + intros b hb'. unfold drop_sig; rewrite d5. auto.
    + intros t' h'. unfold fupd. destruct (Nat.eqb_spec t' t) as [->|]; simpl; auto. unfold drop_sig; rewrite (ev_task g). auto.
  - destruct (t <? w_nt w); [|discriminate]. injection H as <-. apply calm_task; auto.
  - destruct (_ && _); [|discriminate]. destruct (t_pc (w_task w t)) eqn:Ep; try discriminate; injection H as <-; apply calm_task; auto; rewrite Ep; simpl; discriminate.
  - destruct (hp t n eq_refl).
  - destruct (t_pc (w_task w t)) eqn:Ep; try discriminate. destruct (t <? w_nt w); [|discriminate]. injection H as <-. apply calm_task; auto. rewrite Ep. discriminate.
Qed.

Lemma quiet_calm (M : nat -> Prop) w w' : calm M w w' -> forall N, N <= w_nbc w -> below N w ->
  (forall s, quiet w s -> forall o L out, L <= N -> good w o L s \/ over w o L s -> cur w s out -> (forall m, reads (inputs w) (pipe_of s) m -> ~ M m) -> quiet w' s)
  /\ (forall ss, quiets w ss -> forall o L, L <= N -> goods w o L ss \/ overs w o L ss -> curs w ss -> (forall m, reads_one (inputs w) (pipes_of ss) m -> ~ M m) -> quiets w' ss).
Proof.
  intros k N hN hb. apply quiet_quiets_ind; simpl; intros.
  - constructor; [pose proof (ca_ncw _ _ _ k); lia|]. destruct (c_changed (w_cw w' i)) eqn:E; auto.
    apply (ca_flag _ _ _ k) in E as [E|(m0 & h1 & h2)]; [congruence| |auto]. exfalso. assert (c_src (w_cw w i) = FMut m) by tauto. rewrite H5 in h1. injection h1 as <-.
    apply (H4 m); auto. constructor.
  - constructor.
  - destruct H3 as (a & c & _). constructor. apply (H0 o L a); auto. intros m h. apply H4. constructor. auto.
  - destruct H3 as (a & c & _). constructor. apply (H0 o L a); auto. intros m h. apply H4. constructor. auto.
  - destruct H3 as (a & c & _). constructor. apply (H0 o L a); auto. intros m h. apply H4. constructor. auto.
  - destruct H3 as [c _]. constructor. apply (H0 o L); auto; [tauto|]. intros m h. apply H4. constructor. auto.
  - assert (hl : b < L) by tauto. destruct (ca_bc _ _ _ k b ltac:(lia)) as (e1 & e2 & e3). constructor; [congruence|]. rewrite e2, e3. intros el.
    destruct (hb b ltac:(lia)) as (_ & c & _ & g). rewrite el in g. eapply (H1 el (WNote b) b); [lia|left; apply g|exact c|]. intros m h. apply H5. constructor. exact h.
  - destruct H5 as (c1 & c2 & c3). constructor.
    + apply (H0 o L sel); auto; [destruct H4 as [(a & _)|(_ & a & _)]; auto; destruct live; auto|]. intros m h. apply H6. constructor. auto.
    + apply (H2 o L); auto; [tauto|]. intros m h. apply H6. unfold inner_of in c3. destruct sel as [a|]; [|destruct c3 as [-> _]; inversion h].
      destruct c3 as [_ c3]. rewrite c3 in h. inversion h as [? ? ? h1|? ? ? h1]; subst; [|inversion h1]. apply (read_inner _ f _ a). auto.
  - constructor.
  - destruct H5 as [c1 c2]. constructor.
    + apply (H0 o L v); auto; [destruct H4 as [(a & _)|(_ & a & _)]; auto; destruct l; auto|]. intros m h. apply H6. constructor. auto.
    + apply (H2 o L); auto; [tauto|]. intros m h. apply H6. apply read_there. auto.
Qed.

(** ** The number of calls *)
Definition calls w t k : Prop :=
  t < w_nt w /\ let x := w_task w t in
  length (t_seen x) < k \/ (length (t_seen x) <= k /\ (ended (t_pc x) = true \/ quiet w (t_sig x))).

Lemma keeps_core w w' : w_cw w' = w_cw w -> w_ncw w' = w_ncw w -> w_bc w' = w_bc w -> keeps w w'.
Proof. intros e1 e2 e3. apply frame; rewrite ?e1, ?e2, ?e3; auto. Qed.

Lemma calls_poll w t n t' w' k : inv w -> step w (MPoll t' n) = Some w' -> calls w t k -> calls w' t k.
Proof.
  intros hi H [hlt hc]. pose proof hi as (h1 & h2 & h3). simpl in H. destruct (t_pc (w_task w t')) eqn:Ep; try discriminate H.
  destruct (Nat.ltb_spec t' (w_nt w)) as [ht|]; [|discriminate H].
  pose proof (h2 t' ht) as ok. unfold task_ok in ok. rewrite Ep in ok. destruct ok as (k1 & k2 & k3 & k4 & _).
  pose proof (proj1 (poll_all_ok n) (WTask t') (t_sig (w_task w t')) w (w_nbc w) _ ltac:(intros b; discriminate) h1 k4 k1 k3) as P.
  pose proof (proj1 (poll_all_q n) (WTask t') (t_sig (w_task w t')) w (w_nbc w) _ ltac:(intros b; discriminate) h1 k4 k1 k3) as Q.
  destruct (poll_sig n (WTask t') (t_sig (w_task w t')) w) as [| |[[s w1] r]]; [discriminate H|destruct P|].
  destruct P as (e & hb & hids & hn & hp & F & _ & hr), Q as [q1 q2].
  assert (fq : quiet w1 s).
  { apply (fresh_quiet w1 (w_nbc w) hb (WTask t')); [|exact F]. destruct r as [|[v|]]; [left|left|right]; apply hr. }
  rewrite (ev_task e) in H. destruct (Nat.eq_dec t t') as [<-|ne].
  - assert (eg : w_nt (drop_sig s w1) = w_nt w1) by (apply (ev_nt (ev_drop (WTask 0) w1 (ids s) 0 (fun _ => True) (fun _ _ => I)))).
    destruct r as [|[v|]]; injection H as <-; (split; [simpl; rewrite ?eg, (ev_nt e); auto|]); cbv zeta; simpl; rewrite fupd_same; simpl.
    + destruct hc as [hc|[hc _]]; [left; exact hc|right; split; [exact hc|]]. right. revert fq. apply keeps_core; reflexivity.
    + rewrite app_length. simpl. right. split.
      * destruct hc as [hc|[hc [h|h]]]; [lia|rewrite Ep in h; discriminate|destruct (q2 h)].
      * right. revert fq. apply keeps_core; reflexivity.
    + destruct hc as [hc|[hc _]]; auto.
  - assert (A : forall x w2, keeps w w2 -> w_task w2 = w_task w -> w_nt w2 = w_nt w -> calls (set_task t' x w2) t k).
    { intros x w2 a1 a2 a3. split; [simpl; lia|]. cbv zeta. simpl. rewrite fupd_other, a2 by auto. destruct hc as [hc|[hc1 [hc2|hc2]]]; auto.
      right. split; [auto|]. right. apply a1 in hc2. revert hc2. apply keeps_core; reflexivity. }
    pose proof (ev_task e) as e1. pose proof (ev_nt e) as e2.
    destruct r as [|[v|]]; injection H as <-; apply A; auto.
    + eapply keeps_trans; [exact q1|apply keeps_drop].
    + pose proof (ev_drop (WTask 0) w1 (ids s) 0 (fun _ => True) (fun _ _ => I)) as g. rewrite <- e1. apply (ev_task g).
    + pose proof (ev_drop (WTask 0) w1 (ids s) 0 (fun _ => True) (fun _ _ => I)) as g. rewrite <- e2. apply (ev_nt g).
Qed.

Lemma calls_step w mv w' t k rel : inv w -> step w mv = Some w' -> (ended (t_pc (w_task w t)) = false -> forall m, reads (inputs w) (t_pipe (w_task w t)) m -> rel m = true) ->
  calls w t k -> calls w' t (k + if writes rel mv then 1 else 0).
Proof.
  intros hi H hr hc. assert (D : (exists t' n, mv = MPoll t' n) \/ forall t' n, mv <> MPoll t' n) by (destruct mv; eauto; right; congruence).
  destruct D as [(t' & n & ->)|D]; [simpl; rewrite Nat.add_0_r; eapply calls_poll; eauto|].
  pose proof (calm_step w mv w' hi D H) as c. destruct hc as [hlt hc]. destruct (ca_task _ _ _ c t hlt) as (c1 & c2 & c3).
  assert (hlt' : t < w_nt w'). { destruct (inv_step w mv w' hi H) as [_ (h & _)]. lia. }
  split; [exact hlt'|]. cbv zeta in *. rewrite c1, c2. destruct (writes rel mv) eqn:E; [destruct hc as [hc|[hc _]]; left; lia|].
  rewrite Nat.add_0_r. destruct hc as [hc|[hc [h|h]]]; auto. right. split; [auto|].
  destruct (ended (t_pc (w_task w t))) eqn:Ee; [auto|]. right.
  pose proof hi as (h1 & h2 & h3). specialize (h2 t hlt). unfold task_ok in h2.
  assert (ok : pipe_of (t_sig (w_task w t)) = t_pipe (w_task w t) /\ cur w (t_sig (w_task w t)) (hd_error (rev (t_seen (w_task w t)))) /\ good w (WTask t) (w_nbc w) (t_sig (w_task w t))).
  { destruct (t_pc (w_task w t)); try discriminate Ee; tauto. }
  destruct ok as (o1 & o2 & o3).
  eapply (proj1 (quiet_calm _ w w' c (w_nbc w) (le_n _) h1)); eauto. rewrite o1. intros m hm hw. apply (hr eq_refl) in hm.
  destruct mv as [v|m'|m'|m' v|m1 m2|nm nb p hh|nm nb p hh|t'|t'|t'|t' n|t' r]; simpl in hw, E; try tauto; [subst; congruence|].
  apply orb_false_iff in E as [E1 E2]. destruct hw; congruence.
Qed.

Scheme reads_mind := Minimality for reads Sort Prop with reads_one_mind := Minimality for reads_one Sort Prop.
Combined Scheme reads_ind2 from reads_mind, reads_one_mind.

(** Broadcasters that did not exist do not matter. *)
Lemma reads_same (d d' : nat -> pipe V) nm N : (forall b, b < N -> d' b = d b /\ closed nm b (d b)) ->
  (forall p m, reads d' p m -> forall n, n <= N -> closed nm n p -> reads d p m) /\
  (forall ps m, reads_one d' ps m -> forall n, n <= N -> closeds nm n ps -> reads_one d ps m).
Proof.
  intros h. apply reads_ind2; simpl; intros; try (constructor; eauto; fail).
  - constructor. eapply H0; eauto. tauto.
  - constructor. destruct (h b ltac:(lia)) as [e c]. rewrite <- e. apply (H0 b); [lia|]. rewrite e. auto.
  - destruct H2. constructor. eauto.
  - destruct H2. eapply read_inner. eauto.
  - destruct H2. constructor. eauto.
  - destruct H2. apply read_there. eauto.
Qed.

Lemma defs_closed w b : inv w -> b < w_nbc w -> closed (w_nmu w) b (inputs w b).
Proof.
  intros (h1 & _) hb. destruct (h1 b hb) as (_ & _ & _ & h). unfold inputs. destruct (b_live (w_bc w b)); [eapply good_closed; apply h|eapply over_closed; eauto].
Qed.

Lemma ended_step w mv w' t : inv w -> step w mv = Some w' -> t < w_nt w -> ended (t_pc (w_task w t)) = true -> ended (t_pc (w_task w' t)) = true.
Proof.
  intros hi H ht he. assert (D : (exists t' n, mv = MPoll t' n) \/ forall t' n, mv <> MPoll t' n) by (destruct mv; eauto; right; congruence).
  destruct D as [(t' & n & ->)|D]; [|apply (ca_task _ _ _ (calm_step w mv w' hi D H) t ht); auto].
  simpl in H. destruct (t_pc (w_task w t')) eqn:Ep; try discriminate H. assert (t <> t') by (intros ->; rewrite Ep in he; discriminate).
  destruct (Nat.ltb_spec t' (w_nt w)) as [ht'|]; [|discriminate H]. pose proof hi as (h1 & h2 & h3).
  pose proof (h2 t' ht') as ok. unfold task_ok in ok. rewrite Ep in ok. destruct ok as (k1 & k2 & k3 & k4 & _).
  pose proof (proj1 (poll_all_ok n) (WTask t') (t_sig (w_task w t')) w (w_nbc w) _ ltac:(intros b; discriminate) h1 k4 k1 k3) as P.
  destruct (poll_sig n (WTask t') (t_sig (w_task w t')) w) as [| |[[s w1] r]]; [discriminate H|destruct P|]. destruct P as (e & _).
  pose proof (ev_drop (WTask 0) w1 (ids s) 0 (fun _ => True) (fun _ _ => I)) as g.
  destruct r as [|[v|]]; injection H as <-; simpl; rewrite fupd_other by auto; [| |pose proof (ev_task g) as eg; unfold drop_sig; rewrite eg]; rewrite (ev_task e); auto.
Qed.

Definition relevant (rel : nat -> bool) w t : Prop := ended (t_pc (w_task w t)) = false -> forall m, reads (inputs w) (t_pipe (w_task w t)) m -> rel m = true.

Lemma relevant_step rel w mv w' t : inv w -> step w mv = Some w' -> t < w_nt w -> relevant rel w t -> relevant rel w' t.
Proof.
  intros hi H ht h he m hm. destruct (ended (t_pc (w_task w t))) eqn:Ee; [rewrite (ended_step w mv w' t) in he; auto; discriminate|].
  destruct (inv_step w mv w' hi H) as [hi' (a1 & a2 & a3 & a4)]. destruct (a3 t ht) as [ep _]. rewrite ep in hm. apply h; [auto|].
  eapply (proj1 (reads_same (inputs w) (inputs w') (w_nmu w) (w_nbc w) (fun b hb => conj (a4 b hb) (defs_closed w b hi hb)))); eauto.
  apply pipe_closed; auto. destruct (t_pc (w_task w t)); auto. discriminate.
Qed.

Lemma calls_run rel mvs : forall w w' t k, inv w -> exec step w mvs = Some w' -> relevant rel w t -> calls w t k ->
  calls w' t (k + length (filter (writes rel) mvs)).
Proof.
  induction mvs as [|mv mvs IH]; simpl; intros w w' t k hi H hr hc; [injection H as <-; rewrite Nat.add_0_r; auto|].
  destruct (step w mv) as [w1|] eqn:E; [|discriminate].
  specialize (IH w1 w' t (k + if writes rel mv then 1 else 0) (proj1 (inv_step _ _ _ hi E)) H ltac:(eapply relevant_step; eauto; apply hc) ltac:(eapply calls_step; eauto)).
  destruct (writes rel mv); simpl; rewrite ?Nat.add_0_r in *; auto. rewrite Nat.add_succ_r. rewrite <- Nat.add_assoc in IH. rewrite <- Nat.add_succ_r. exact IH.
Qed.

Lemma calls_length w t k : calls w t k -> length (t_seen (w_task w t)) <= k.
Proof. intros [_ [h|[h _]]]; lia. Qed.

(** ** The theorems *)
Lemma quiet_calls (v : V) mvs w t rel mvs' w' : exec step (w_init v) mvs = Some w -> t < w_nt w ->
  (forall m, reads (inputs w) (t_pipe (w_task w t)) m -> rel m = true) -> exec step w mvs' = Some w' ->
  length (t_seen (w_task w' t)) <= length (t_seen (w_task w t)) + 1 + length (filter (writes rel) mvs').
Proof.
  intros H ht hr H'. apply calls_length, (calls_run rel _ w); auto; [eapply reach_inv; eauto|intros _; auto|].
  split; [auto|]. left. lia.
Qed.

Lemma quiet_settled (v : V) mvs w t rel mvs' w' : exec step (w_init v) mvs = Some w -> t < w_nt w -> settled w t ->
  (forall m, reads (inputs w) (t_pipe (w_task w t)) m -> rel m = true) -> exec step w mvs' = Some w' ->
  length (t_seen (w_task w' t)) <= length (t_seen (w_task w t)) + length (filter (writes rel) mvs').
Proof.
  intros H ht hs hr H'. pose proof (reach_inv _ _ _ H) as hi. apply calls_length, (calls_run rel _ w); auto; [intros _; auto|].
  split; [auto|]. right. split; [lia|]. pose proof hi as (h1 & h2 & h3). specialize (h2 t ht). unfold settled, task_ok, alert in *.
  destruct (t_pc (w_task w t)); try tauto. right. destruct h2 as (a1 & a2 & a3 & a4 & [a5|a5]); [congruence|].
  apply (fresh_quiet w (w_nbc w) h1 (WTask t)); auto. eapply still_fresh; eauto.
Qed.

Lemma quiet_spawned (v : V) mvs w nm nb p h w1 rel mvs' w' : exec step (w_init v) mvs = Some w -> step w (MSpawn nm nb p h) = Some w1 ->
  (forall m, reads (inputs w) p m -> rel m = true) -> exec step w1 mvs' = Some w' ->
  length (t_seen (w_task w' (w_nt w))) <= 1 + length (filter (writes rel) mvs').
Proof.
  intros H H1 hr H'. pose proof (reach_inv _ _ _ H) as hi. pose proof H1 as H2. cbn [step] in H2.
  destruct ((nm <=? w_nmu w) && (nb <=? w_nbc w)) eqn:El; [|discriminate]. apply andb_true_iff in El as [l1 l2]. apply Nat.leb_le in l1, l2.
  assert (hc : closed (w_nmu w) (w_nbc w) p) by (eapply closed_mono1; eauto).
  destruct (build (WTask (w_nt w)) p w) as [s w2] eqn:E. destruct (proj1 (build_ok (WTask (w_nt w)) (w_nbc w) (lev_task _ _)) p w s w2 (below_epochs _ _ (proj1 hi)) hc E) as (g & _).
  assert (x : t_seen (w_task w1 (w_nt w)) = [] /\ t_pipe (w_task w1 (w_nt w)) = p /\ w_nt w < w_nt w1).
  { injection H2 as <-. simpl. rewrite (ev_nt g), fupd_same. auto. }
  destruct x as (x1 & x2 & x3).
  destruct (inv_step w _ w1 hi H1) as [hi1 (_ & _ & _ & a4)].
  assert (R : relevant rel w1 (w_nt w)).
  { intros _ m hm. apply hr. rewrite x2 in hm.
    exact (proj1 (reads_same (inputs w) (inputs w1) (w_nmu w) (w_nbc w) (fun b hb => conj (a4 b hb) (defs_closed w b hi hb))) p m hm (w_nbc w) (le_n _) hc). }
  assert (C : calls w1 (w_nt w) 1) by (split; [exact x3|left; cbv zeta; rewrite x1; simpl; lia]).
  exact (calls_length _ _ _ (calls_run rel mvs' w1 w' (w_nt w) 1 hi1 H' R C)).
Qed.

(** Nothing relevant is written: nothing is seen. *)
Lemma quiet_same (v : V) mvs w t rel mvs' w' : exec step (w_init v) mvs = Some w -> t < w_nt w -> settled w t ->
  (forall m, reads (inputs w) (t_pipe (w_task w t)) m -> rel m = true) -> exec step w mvs' = Some w' -> existsb (writes rel) mvs' = false ->
  t_seen (w_task w' t) = t_seen (w_task w t).
Proof.
  intros H ht hs hr H' hw. pose proof (quiet_settled v mvs w t rel mvs' w' H ht hs hr H') as L.
  assert (e : filter (writes rel) mvs' = []).
  { clear - hw. induction mvs' as [|mv mvs' IH]; simpl in *; auto. apply orb_false_iff in hw as [-> h]. auto. }
  rewrite e in L. simpl in L. destruct (runs_kept w mvs' w' (reach_inv _ _ _ H) H') as [_ (_ & _ & k & _)]. destruct (k t ht) as (_ & l & el).
  rewrite el in *. rewrite app_length in L. destruct l; [apply app_nil_r|simpl in L; lia].
Qed.
End Quiet.
