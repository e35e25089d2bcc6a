(** Polls terminate, wake-ups terminate, and the executor becomes idle. *)
From Verif Require Import Base Conc Executor ExecutorFacts ExecutorRun.

Section Live.
Context {V : Type}.
Implicit Types (w : world V) (s : sig V) (ss : slots V) (o : wk) (p : pipe V).

(** ** More fuel does not matter *)
Lemma poll_more n : (forall o s w x, poll_sig n o s w = Ok x -> poll_sig (S n) o s w = Ok x) /\
  (forall o ss w x, poll_slots n o ss w = Ok x -> poll_slots (S n) o ss w = Ok x) /\
  (forall o s ch v w x, drain n o s ch v w = Ok x -> drain (S n) o s ch v w = Ok x).
Proof.
  induction n as [|n (IHp & IHs & IHd)]; [repeat split; intros; discriminate|]. split; [|split].
  - intros o s w x H. remember (S n) as k. rewrite Heqk in H. destruct s; cbn [poll_sig] in *; auto.
    + destruct (poll_sig n o s w) as [| |y] eqn:E; try discriminate H. rewrite (IHp _ _ _ _ E). exact H.
    + destruct (poll_sig n o s w) as [| |y] eqn:E; try discriminate H. rewrite (IHp _ _ _ _ E). destruct y as [[s' w'] [|[a|]]]; auto.
      destruct (match old with Some _ => _ | None => _ end); auto.
    + destruct (poll_sig n o s w) as [| |y] eqn:E; try discriminate H. rewrite (IHp _ _ _ _ E). destruct y as [[s' w'] [|[a|]]]; auto.
      destruct (match matches with Some _ => _ | None => _ end); auto.
    + destruct (poll_slots n o ss w) as [| |y] eqn:E; try discriminate H. rewrite (IHs _ _ _ _ E). exact H.
    + destruct (b_changed (w_bc w b)); auto. destruct (b_live _); auto.
      destruct (drain n _ _ _ _ _) as [| |y] eqn:E; try discriminate H. rewrite (IHd _ _ _ _ _ _ E). exact H.
    + destruct live; [destruct (poll_sig n o s w) as [| |[[s' w'] r]] eqn:E; try discriminate H; rewrite (IHp _ _ _ _ E); destruct r as [|[a|]]; [|destruct (build o (f a) w')|]|];
        (match type of H with match poll_slots n o ?x ?y with _ => _ end = _ => destruct (poll_slots n o x y) as [| |z] eqn:Ez; try discriminate H; rewrite (IHs _ _ _ _ Ez); exact H end).
  - intros o ss w x H. remember (S n) as k. rewrite Heqk in H. destruct ss as [|live v s ss]; cbn [poll_slots] in *; auto.
    assert (E : forall y, (if live then match poll_sig n o s w with
                   | Ok (s, w, Ready None) => Ok (LCons false v s LNil, drop_sig s w, true, false)
                   | Ok (s, w, Ready (Some v)) => Ok (LCons true (Some v) s LNil, w, false, true)
                   | Ok (s, w, Pending) => Ok (LCons true v s LNil, w, false, false)
                   | Panic => Panic | OutOfFuel => OutOfFuel
                   end else Ok (LCons false v s LNil, w, true, false)) = Ok y ->
       (if live then match poll_sig k o s w with
                   | Ok (s, w, Ready None) => Ok (LCons false v s LNil, drop_sig s w, true, false)
                   | Ok (s, w, Ready (Some v)) => Ok (LCons true (Some v) s LNil, w, false, true)
                   | Ok (s, w, Pending) => Ok (LCons true v s LNil, w, false, false)
                   | Panic => Panic | OutOfFuel => OutOfFuel
                   end else Ok (LCons false v s LNil, w, true, false)) = Ok y).
    { intros y. destruct live; auto. destruct (poll_sig n o s w) as [| |z] eqn:E; try discriminate. rewrite (IHp _ _ _ _ E). auto. }
    match type of H with match ?a with _ => _ end = _ => destruct a as [| |y] eqn:Ey; try discriminate H end.
    rewrite (E y eq_refl). destruct y as [[[[|live' v' s' ss'] w'] done] ch]; [discriminate H|].
    destruct (poll_slots n o ss w') as [| |z] eqn:Ez; try discriminate H. rewrite (IHs _ _ _ _ Ez). exact H.
  - intros o s ch v w x H. remember (S n) as k. rewrite Heqk in H. cbn [drain] in *.
    destruct (poll_sig n o s w) as [| |y] eqn:E; try discriminate H. rewrite (IHp _ _ _ _ E). destruct y as [[s' w'] [|[a|]]]; auto.
Qed.

Lemma poll_more1 n m o s w x : n <= m -> poll_sig n o s w = Ok x -> poll_sig m o s w = Ok x.
Proof. induction 1; auto. intros h. apply poll_more. auto. Qed.
Lemma poll_more2 n m o ss w x : n <= m -> poll_slots n o ss w = Ok x -> poll_slots m o ss w = Ok x.
Proof. induction 1; auto. intros h. apply poll_more. auto. Qed.
Lemma poll_more3 n m o s ch v w x : n <= m -> drain n o s ch v w = Ok x -> drain m o s ch v w = Ok x.
Proof. induction 1; auto. intros h. apply poll_more. auto. Qed.

(** ** What there is to tell *)
Definition n_of (x : bool) : nat := if x then 1 else 0.
End Live.

(** [fresh], decided *)
Fixpoint freshb {V} (w : world V) (s : sig V) : bool :=
  match s with
  | SMut i _ _ => negb (c_changed (w_cw w i))
  | SAlways _ taken => taken
  | SMap _ s | SDedupe _ _ _ s | SEq _ _ _ s => freshb w s
  | SRef _ ss => freshbs w ss
  | SKid b _ e _ => (e =? b_epoch (w_bc w b)) && (negb (b_changed (w_bc w b)) || negb (b_live (w_bc w b)))
  | SSwitch _ _ _ s ss => freshb w s && freshbs w ss
  end
with freshbs {V} (w : world V) (ss : slots V) : bool :=
  match ss with LNil => true | LCons _ _ s ss => freshb w s && freshbs w ss end.

Section Live2.
Context {V : Type}.
Implicit Types (w : world V) (s : sig V) (ss : slots V) (o : wk) (p : pipe V).

Lemma fresh_dec w : (forall s, freshb w s = true <-> fresh w s) /\ (forall ss, freshbs w ss = true <-> freshs w ss).
Proof.
  apply sig_slots_ind; simpl; intros; auto; try tauto.
  - apply negb_true_iff.
  - rewrite andb_true_iff, orb_true_iff, !negb_true_iff, Nat.eqb_eq. tauto.
  - rewrite andb_true_iff. tauto.
  - rewrite andb_true_iff. tauto.
Qed.

(** ** Polls terminate *)
Definition ends (L : nat) p := forall o s w out, pipe_of s = p -> lev o L -> below L w -> good w o L s -> NoDup (ids s) -> cur w s out ->
  exists n x, poll_sig n o s w = Ok x.
Definition ends' (L : nat) (ps : pipes V) := forall o ss w, pipes_of ss = ps -> lev o L -> below L w -> goods w o L ss -> NoDup (idss ss) -> curs w ss ->
  exists n x, poll_slots n o ss w = Ok x.

(** A signal with something to tell has nothing to tell after one poll. *)
Lemma drain_ends L : (forall p, ends L p) -> forall o s w ch v, lev o L -> below L w -> good w o L s -> NoDup (ids s) -> cur w s v ->
  exists n x, drain n o s ch v w = Ok x.
Proof.
  intros hp.
  assert (K : forall k o s w ch v, (k = 0 -> fresh w s) -> lev o L -> below L w -> good w o L s -> NoDup (ids s) -> cur w s v -> exists n x, drain n o s ch v w = Ok x).
  2: { intros o s w ch v. apply (K 1). discriminate. }
  induction k as [|k IH]; intros o s w ch v hk hl hb hg hn hc;
    (destruct (hp _ o s w v eq_refl hl hb hg hn hc) as (n & [[s' w'] r] & E);
     pose proof (proj1 (poll_all_ok n) o s w L v hl hb hg hn hc) as P; rewrite E in P; destruct P as (_ & hb' & hi & hn' & _ & hf & hf' & hr); destruct r as [|[x|]];
     [exists (S n); eexists; cbn [drain]; rewrite E; reflexivity| |exists (S n); eexists; cbn [drain]; rewrite E; reflexivity]).
  - destruct (hf' (hk eq_refl)).
  - destruct hr as [g1 c1].
    destruct (IH o s' w' true (Some x) (fun _ => hf) hl hb' g1 hn' c1) as (n2 & y & E2).
    exists (S (max n n2)), y. cbn [drain]. rewrite (poll_more1 n (max n n2) _ _ _ _ ltac:(lia) E), (poll_more3 n2 (max n n2) _ _ _ _ _ _ ltac:(lia) E2). reflexivity.
Qed.

Lemma nil_ends L : ends' L PNil.
Proof. intros o ss w hp hl hb hg hn hc. destruct ss; try discriminate hp. exists 1. simpl. eauto. Qed.

Lemma cons_ends L p ps : ends L p -> ends' L ps -> ends' L (PCons p ps).
Proof.
  intros IHp IHs o ss w hp hl hb hg hn hc. destruct ss as [|live v s ss]; try discriminate hp. injection hp as hp1 hp2.
  destruct hg as [g1 g2], hc as [c1 c2]. simpl in hn. apply nodup_app_inv in hn as (n1 & n2 & dis).
  (* the first input *)
  assert (first : exists n s' w' r, (live = true -> poll_sig n o s w = Ok (s', w', r)) /\ exists w2 y, w2 = (if live then match r with Ready None => drop_sig s' w' | _ => w' end else w)
     /\ poll_slots n o ss w2 = Ok y).
  { destruct live.
    - destruct (IHp o s w v hp1 hl hb g1 n1 c1) as (n & [[s' w'] r] & E).
      pose proof (proj1 (poll_all_ok n) o s w L v hl hb g1 n1 c1) as P. rewrite E in P. destruct P as (e & hb' & hi & _ & _ & _ & _ & hr).
      set (w2 := match r with Ready None => drop_sig s' w' | _ => w' end).
      assert (un : free (touch L w (ids s)) w (idss ss)).
      { intros j hj. destruct (good_owner2 w o L ss g2 j hj) as [ho1 ho2]. split; [auto|]. intros [h|(b & h1 & h2 & _)]; [eauto|].
        rewrite h2 in ho2. symmetry in ho2. apply hl in ho2. lia. }
      assert (ev o L (touch L w (ids s)) w w2 /\ below L w2) as [e2 hb2].
      { unfold w2. destruct r as [|[x|]]; auto. destruct hr as [r1 r2]. destruct (end_drop o L w w' s s' v hl hb' e hi r1 r2) as (b1 & b2 & _). auto. }
      destruct (IHs o ss w2 hp2 hl hb2) as (m & y & E2); auto; [eapply good_ev2; eauto|eapply cur_ev2; eauto|].
      exists (max n m), s', w', r. split; [intros _; apply (poll_more1 n); auto; lia|]. exists w2, y. split; [reflexivity|]. apply (poll_more2 m); auto. lia.
    - destruct (IHs o ss w hp2 hl hb g2 n2 c2) as (m & y & E2). exists m, s, w, Pending. split; [discriminate|]. exists w, y. auto. }
  destruct first as (n & s' & w' & r & E1 & w2 & y & -> & E2). exists (S n). cbn [poll_slots].
  destruct live; [rewrite (E1 eq_refl); destruct r as [|[x|]]|]; destruct y as [[[ss' w3] d'] c']; rewrite E2; eauto.
Qed.

(** flatten: the poll of the outer signal *)
Definition outer n o (f : V -> pipe V) (live : bool) (sel : option V) s ss w : res (bool * option V * sig V * slots V * world V) :=
  if live then
    match poll_sig n o s w with
    | Ok (s, w, Ready (Some a)) => let '(inner, w) := build o (f a) w in Ok (true, Some a, s, LCons true None inner LNil, drop_ids (idss ss) w)
    | Ok (s, w, Ready None) => Ok (false, sel, s, ss, drop_sig s w)
    | Ok (s, w, Pending) => Ok (true, sel, s, ss, w)
    | Panic => Panic | OutOfFuel => OutOfFuel
    end
  else Ok (false, sel, s, ss, w).

Lemma outer_more n m o f live sel s ss w x : n <= m -> outer n o f live sel s ss w = Ok x -> outer m o f live sel s ss w = Ok x.
Proof.
  intros h. unfold outer. destruct live; [|auto]. destruct (poll_sig n o s w) as [| |y] eqn:E; try discriminate. rewrite (poll_more1 n m _ _ _ _ h E). auto.
Qed.

Lemma switch_ends L (f : V -> pipe V) p : (forall a, ends L (f a)) -> ends L p -> ends L (PSwitch f p).
Proof.
  intros IHf IHp o s w out hp hl hb hg hn hc. destruct s as [| | | | | | |f0 live sel s ss]; try discriminate hp. injection hp as -> hp.
  assert (first : exists n x, outer n o f live sel s ss w = Ok x).
  { unfold outer. destruct live; [|exists 0; eauto]. destruct hg as (g1 & _), hc as (c1 & _). change (NoDup (ids s ++ idss ss)) in hn. apply nodup_app_inv in hn as (n1 & _).
    destruct (IHp o s w sel hp hl hb g1 n1 c1) as (n & [[s' w'] [|[a|]]] & E); exists n; rewrite E; eauto. destruct (build o (f a) w'). eauto. }
  destruct first as (n & [[[[live' sel'] s'] ss'] w'] & E1).
  pose proof (switch_first n o f live sel s ss w L out (proj1 (poll_all_ok n)) hl hb hg hn hc) as F. fold (outer n o f live sel s ss w) in F. rewrite E1 in F.
  destruct F as (e & hb' & hi & hn' & _ & _ & _ & hg2 & _ & hc2 & hcase). apply nodup_app_inv in hn' as (_ & hn2 & _).
  assert (second : exists m y, poll_slots m o ss' w' = Ok y).
  { assert (en : ends' L (pipes_of ss')).
    { destruct hcase as [(-> & _)|(a & inner & _ & -> & k & _)].
      - destruct hc as (_ & _ & hc3). unfold inner_of in hc3. destruct sel as [a|]; destruct hc3 as [h1 h2]; [rewrite h2; apply cons_ends; auto using nil_ends|subst ss; apply nil_ends].
      - change (ends' L (PCons (pipe_of inner) PNil)). rewrite k. apply cons_ends; auto using nil_ends. }
    apply (en o ss' w'); auto. }
  destruct second as (m & [[[ss2 w2] d] c] & E2).
  set (N := max n m). pose proof (outer_more n N _ _ _ _ _ _ _ _ ltac:(lia) E1) as E1'. pose proof (poll_more2 m N _ _ _ _ ltac:(lia) E2) as E2'.
  pose proof (proj1 (poll_all_ok (S N)) o _ w L out hl hb hg hn hc) as P.
  destruct (poll_sig (S N) o (SSwitch f live sel s ss) w) as [| |x] eqn:E; [exfalso|destruct P|eauto].
  cbn [poll_sig] in E. match type of E with match ?x with _ => _ end = _ => change x with (outer N o f live sel s ss w) in E end. rewrite E1', E2' in E.
  destruct c; [destruct (values ss2) as [[|v [|]]|]|destruct (d && negb live')]; discriminate E.
Qed.

Lemma all_end L : (forall p, ends L p) /\ (forall ps, ends' L ps).
Proof.
  induction L as [L IHL] using lt_wf_ind. apply pipe_pipes_ind.
  - intros m f o s w out hp hl hb hg hn hc. destruct s; try discriminate hp. exists 1. simpl.
    destruct (c_changed (w_cw w i)); [|destruct (u_senders (w_mu w m0) =? 0)]; eauto.
  - intros v o s w out hp hl hb hg hn hc. destruct s; try discriminate hp. exists 1. simpl. eauto.
  - intros f p IH o s w out hp hl hb hg hn hc. destruct s; try discriminate hp. injection hp as _ hp.
    destruct hc as (a & c1 & c2). destruct (IH o s w a hp hl hb hg hn c1) as (n & [[s' w'] [|[x|]]] & E); exists (S n); cbn [poll_sig]; rewrite E; eauto.
  - intros eqb f p IH o s w out hp hl hb hg hn hc.
    assert (K : forall k s w out, (k = 0 -> fresh w s) -> pipe_of s = PDedupe eqb f p -> below L w -> good w o L s -> NoDup (ids s) -> cur w s out -> exists n x, poll_sig n o s w = Ok x).
    2: { eapply (K 1); eauto. discriminate. }
    clear s w out hp hb hg hn hc. induction k as [|k IHk]; intros s w out hk hp hb hg hn hc; (destruct s as [| | |eqb0 f0 old s| | | |]; try discriminate hp; injection hp as -> -> hp;
      destruct hc as (a & c1 & c2); destruct (IH o s w a hp hl hb hg hn c1) as (n & [[s' w'] r] & E);
      pose proof (proj1 (poll_all_ok n) o s w L a hl hb hg hn c1) as P; rewrite E in P; destruct P as (_ & hb' & hi & hn' & hp' & hf & hf' & hr);
      destruct r as [|[x|]]; [exists (S n); cbn [poll_sig]; rewrite E; eauto| |exists (S n); cbn [poll_sig]; rewrite E; eauto]).
    + destruct (hf' (hk eq_refl)).
    + destruct (match old with Some a => negb (eqb a x) | None => true end) eqn:Eo; [exists (S n); cbn [poll_sig]; rewrite E, Eo; eauto|].
      destruct hr as [g1 c3]. destruct (IHk (SDedupe eqb f old s') w' out) as (n2 & y & E2); auto.
      { change (PDedupe eqb f (pipe_of s') = PDedupe eqb f p). congruence. }
      { exists (Some x). split; [auto|]. destruct a as [v|]; [|destruct c2; subst; discriminate].
        destruct c2 as (a0 & d1 & d2 & d3). subst old. apply negb_false_iff in Eo. eauto 10. }
      exists (S (max n n2)), y. cbn [poll_sig]. rewrite (poll_more1 n (max n n2) _ _ _ _ ltac:(lia) E), Eo. apply (poll_more1 n2); auto. lia.
  - intros test f p IH o s w out hp hl hb hg hn hc.
    assert (K : forall k s w out, (k = 0 -> fresh w s) -> pipe_of s = PEq test f p -> below L w -> good w o L s -> NoDup (ids s) -> cur w s out -> exists n x, poll_sig n o s w = Ok x).
    2: { eapply (K 1); eauto. discriminate. }
    clear s w out hp hb hg hn hc. induction k as [|k IHk]; intros s w out hk hp hb hg hn hc; (destruct s as [| | | |test0 f0 ma s| | |]; try discriminate hp; injection hp as -> -> hp;
      destruct hc as (a & c1 & c2 & c2'); destruct (IH o s w a hp hl hb hg hn c1) as (n & [[s' w'] r] & E);
      pose proof (proj1 (poll_all_ok n) o s w L a hl hb hg hn c1) as P; rewrite E in P; destruct P as (_ & hb' & hi & hn' & hp' & hf & hf' & hr);
      destruct r as [|[x|]]; [exists (S n); cbn [poll_sig]; rewrite E; eauto| |exists (S n); cbn [poll_sig]; rewrite E; eauto]).
    + destruct (hf' (hk eq_refl)).
    + destruct (match ma with Some a => negb (Bool.eqb a (test x)) | None => true end) eqn:Eo; [exists (S n); cbn [poll_sig]; rewrite E, Eo; eauto|].
      destruct hr as [g1 c3]. destruct (IHk (SEq test f ma s') w' out) as (n2 & y & E2); auto.
      { change (PEq test f (pipe_of s') = PEq test f p). congruence. }
      { exists (Some x). split; [auto|]. destruct a as [v|]; [|subst; discriminate]. subst ma. simpl in *.
        apply negb_false_iff, eqb_prop in Eo. rewrite <- Eo. auto. }
      exists (S (max n n2)), y. cbn [poll_sig]. rewrite (poll_more1 n (max n n2) _ _ _ _ ltac:(lia) E), Eo. apply (poll_more1 n2); auto. lia.
  - intros f ps IH o s w out hp hl hb hg hn hc. destruct s; try discriminate hp. injection hp as _ hp. destruct hg as [g1 g2], hc as [c1 c2].
    destruct (IH o ss w hp hl hb g2 hn c1) as (n & [[[ss' w'] d] c] & E).
    pose proof (proj1 (proj2 (poll_all_ok n)) o ss w L hl hb g2 hn c1) as P. rewrite E in P. destruct P as (_ & _ & _ & _ & _ & _ & _ & _ & _ & (vs & hv) & _).
    exists (S n). cbn [poll_sig]. rewrite E. destruct c; [rewrite hv; eauto|]. destruct d; eauto.
  - intros b f o s w out hp hl hb hg hn hc. destruct s as [| | | | | |b0 i e f0|]; try discriminate hp. injection hp as -> _.
    pose proof hg as (g1 & g2 & g3 & g4 & g5).
    destruct (hb b g3) as (k1 & k2 & k3 & k4).
    set (w1 := set_bc b (flag_bc false (w_bc w b)) w).
    assert (D : b_live (w_bc w b) = true -> exists n x, drain n (WNote b) (b_signal (w_bc w b)) false (b_value (w_bc w b)) w1 = Ok x).
    { intros El. rewrite El in k4. destruct k4 as [k4 _].
      assert (E1 : ev o L (fun _ => False) w w1).
      { constructor; simpl; auto; try (intros; lia).
        - intros b1 j. unfold fupd. destruct (Nat.eqb_spec b1 b) as [->|]; auto.
        - intros b1 j. unfold fupd. destruct (Nat.eqb_spec b1 b) as [->|]; auto.
        - intros b1. unfold fupd. destruct (Nat.eqb_spec b1 b) as [->|]; [apply bc_ev_unchanged|apply bc_ev_refl].
        - intros b1 h. rewrite fupd_other by lia. reflexivity. }
      assert (fr : free (fun _ => False) w (ids (b_signal (w_bc w b)))) by (intros j hj; split; [eapply bc_owner; eauto|auto]).
      eapply (drain_ends b); [apply IHL; auto| | | | |].
      - intros b1 h. injection h as <-. auto.
      - intros b1 h. eapply bc_ok_ev; [exact E1| |auto|apply hb; lia]. unfold w1. simpl. rewrite fupd_other by lia. apply same_bc_refl.
      - eapply good_ev1; eauto.
      - auto.
      - eapply cur_ev1; eauto. }
    cut (exists m, poll_sig (S m) o (SKid b i e f0) w <> OutOfFuel).
    { intros (m & hm). destruct (poll_sig (S m) o (SKid b i e f0) w) as [| |x] eqn:E; [contradiction| |eauto].
      pose proof (proj1 (poll_all_ok (S m)) o _ w L out hl hb hg hn hc) as P. rewrite E in P. destruct P. }
    assert (T : forall w0 : world V, (let x := w_bc w0 b in
            if b_epoch x =? e then
              if b_live x then Ok (SKid b i e f0, set_cw i (arm_cw (Some o) (w_cw w0 i)) w0, Pending)
              else Ok (SKid b i e f0, w0, Ready None)
            else match b_value x with
                 | Some v => Ok (SKid b i (b_epoch x) f0, w0, Ready (Some (f0 v)))
                 | None => Panic
                 end) <> OutOfFuel).
    { intros w0. cbv zeta. destruct (b_epoch (w_bc w0 b) =? e); [destruct (b_live (w_bc w0 b))|destruct (b_value (w_bc w0 b))]; discriminate. }
    destruct (b_changed (w_bc w b)) eqn:Ec; [|exists 0; cbn [poll_sig]; rewrite Ec; apply T].
    destruct (b_live (w_bc w b)) eqn:El.
    + destruct (D eq_refl) as (m & [[[[s' w'] l] c] v] & E). exists m. cbn [poll_sig]. rewrite Ec. fold w1.
      assert (hb1 : w_bc w1 b = flag_bc false (w_bc w b)) by (unfold w1; simpl; apply fupd_same). cbv zeta. rewrite hb1. cbn [flag_bc b_live b_signal b_value b_epoch]. rewrite El, E. apply T.
    + exists 0. cbn [poll_sig]. rewrite Ec. fold w1.
      assert (hb1 : w_bc w1 b = flag_bc false (w_bc w b)) by (unfold w1; simpl; apply fupd_same). cbv zeta.
      replace (b_live (w_bc w1 b)) with false by (rewrite hb1; simpl; auto). destruct (b_epoch (w_bc w1 b) =? e); [discriminate|]. destruct (b_value (w_bc w1 b)); discriminate.
  - intros f IHf p IHp. apply switch_ends; auto.
  - apply nil_ends.
  - intros p IHp ps IHs. apply cons_ends; auto.
Qed.

(** ** Wake-ups terminate *)
Definition note o : nat := match o with WTask _ => 0 | WNote b => b end.

Lemma wake_can n : forall ch i w, wfw w -> 1 <= n -> (forall b, c_waker (w_cw w i) = Some (WNote b) -> w_nbc w - b < n) -> i < w_ncw w ->
  exists w', wake n ch i w = Some w'.
Proof.
  induction n as [|n IH]; intros ch i w hw hn hb hi; [lia|]. cbn [wake]. cbv zeta. destruct (c_waker (w_cw w i)) as [[t|b]|] eqn:E; [eauto| |eauto].
  set (w2 := set_bc b _ _).
  assert (L : forall l w3, wfw w3 -> w_nbc w3 = w_nbc w -> (forall k, In k l -> k < w_ncw w3 /\ (forall b', c_owner (w_cw w3 k) = WNote b' -> b < b')) ->
     exists w4, each_alive (wake n false) l w3 = Some w4).
  { induction l as [|k l IHl]; intros w3 hw3 hnb hl; simpl; [eauto|].
    assert (exists w4, (if c_alive (w_cw w3 k) then wake n false k w3 else Some w3) = Some w4 /\ exists F, woke F w3 w4) as (w4 & -> & F & hF).
    { destruct (c_alive (w_cw w3 k)); [|exists w3; split; [auto|exists (fun _ => False); apply woke_refl]].
      destruct (hl k (or_introl eq_refl)) as [h1 h2].
      assert (b < w_nbc w) as hbn. { eapply (wf_own _ hw); [exact hi|]. destruct (wf_waker _ hw i hi); congruence. }
      destruct (IH false k w3) as (w4 & h4); auto.
      - specialize (hb b eq_refl). lia.
      - intros b' h. destruct (wf_waker _ hw3 k h1) as [h3|h3]; [congruence|]. assert (b < b') by (apply h2; congruence).
        specialize (hb b eq_refl). lia.
      - exists w4. split; [auto|]. eexists. apply (wake_woke _ _ _ _ _ h4). }
    simpl. apply IHl; [eapply wf_woke; eauto|rewrite (wo_nbc _ _ _ hF); auto|].
    intros k' hk'. destruct (hl k' (or_intror hk')) as [h1 h2]. rewrite (wo_ncw _ _ _ hF), (wo_owner _ _ _ hF). auto. }
  assert (hw2 : wfw w2).
  { destruct hw. constructor; simpl.
    - intros m j h. destruct (wf_sig m j h). unfold fupd. destruct (Nat.eqb_spec j i) as [->|]; [destruct ch|]; auto.
    - intros b0 j h. assert (In j (b_wakers (w_bc w b0))) as h'. { revert h. unfold fupd. destruct (Nat.eqb_spec b0 b) as [->|]; auto. }
      destruct (wf_bw b0 j h') as (a1 & a2 & a3). unfold fupd. destruct (Nat.eqb_spec j i) as [->|]; [destruct ch|]; auto.
    - intros j b0 h. unfold fupd. destruct (Nat.eqb_spec j i) as [->|]; [destruct ch|]; simpl; eauto.
    - intros j b0 h. unfold fupd. destruct (Nat.eqb_spec j i) as [->|]; [destruct ch|]; simpl; eauto.
    - intros j h. unfold fupd. destruct (Nat.eqb_spec j i) as [->|]; [destruct ch|]; simpl; auto. }
  destruct (L (b_wakers (w_bc w2 b)) w2 hw2 eq_refl) as (w4 & h4).
  - intros k hk. destruct (wf_bw _ hw2 b k hk) as (a1 & a2 & a3). auto.
  - rewrite h4. simpl. eauto.
Qed.

Lemma notify_can m ch w : wfw w -> exists w', notify m ch w = Some w'.
Proof.
  intros hw. unfold notify.
  assert (L : forall l w3, wfw w3 -> w_nbc w3 = w_nbc w -> (forall k, In k l -> k < w_ncw w3) -> exists w4, each_alive (wake (S (w_nbc w)) ch) l w3 = Some w4).
  { induction l as [|k l IHl]; intros w3 hw3 hnb hl; [simpl; eauto|]. cbn [each_alive].
    assert (exists w4, (if c_alive (w_cw w3 k) then wake (S (w_nbc w)) ch k w3 else Some w3) = Some w4 /\ exists F, woke F w3 w4) as (w4 & -> & F & hF).
    { destruct (c_alive (w_cw w3 k)); [|exists w3; split; [auto|exists (fun _ => False); apply woke_refl]].
      destruct (wake_can (S (w_nbc w)) ch k w3) as (w4 & h4); auto; [lia|intros; lia|apply hl; simpl; auto|].
      exists w4. split; [auto|]. eexists. apply (wake_woke _ _ _ _ _ h4). }
    apply IHl; [eapply wf_woke; eauto|rewrite (wo_nbc _ _ _ hF); auto|].
    intros k' hk'. rewrite (wo_ncw _ _ _ hF). apply hl. simpl. auto. }
  destruct (L (u_signals (w_mu w m)) w hw eq_refl) as (w4 & h4); [|rewrite h4; eauto].
  intros k hk. apply (wf_sig _ hw m). auto.
Qed.
End Live2.
