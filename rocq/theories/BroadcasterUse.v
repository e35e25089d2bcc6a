(** Broadcaster: what the children answer, and who is woken. *)
From Verif Require Import Base Spec BaseFacts Conc Broadcaster BroadcasterFacts.

Section Answers.
Context {A B : Type}.
Implicit Types (s : bc_st A B) (k : kid A B) (log : list (poll (option A))) (h : list (nat * poll (option B))).

(** The last element. *)
Definition lastv {X} (l : list X) : option X := match rev l with [] => None | a :: _ => Some a end.

Lemma lastv_snoc {X} (l : list X) a : lastv (l ++ [a]) = Some a.
Proof. unfold lastv. rewrite rev_app_distr. reflexivity. Qed.

Lemma yielded_firstn n log : firstn (length (yielded (firstn n log))) (yielded log) = yielded (firstn n log).
Proof.
  rewrite <- (firstn_skipn n log) at 2. rewrite yielded_app, firstn_app, Nat.sub_diag, firstn_all. cbn. apply app_nil_r.
Qed.

Lemma firstn_grow {X} (l : list X) a b : a <= b -> exists q, firstn b l = firstn a l ++ q.
Proof.
  intros L. exists (firstn (b - a) (skipn a l)). rewrite firstn_skipn_comm. replace (a + (b - a)) with b by lia.
  rewrite <- (firstn_skipn a (firstn b l)) at 1. rewrite firstn_firstn. replace (min a b) with a by lia. reflexivity.
Qed.

Lemma yielded_mono a b log : a <= b -> length (yielded (firstn a log)) <= length (yielded (firstn b log)).
Proof. intros L. destruct (firstn_grow log a b L) as [q ->]. rewrite yielded_app, app_length. lia. Qed.

Lemma has_end_mono a b log : a <= b -> has_end (firstn a log) = true -> has_end (firstn b log) = true.
Proof. intros L H. destruct (firstn_grow log a b L) as [q ->]. unfold has_end in *. rewrite existsb_app, H. reflexivity. Qed.

(** Answers that the input gave by the time it had ended are all it gave. *)
Lemma ended_all n log : obeys_end log -> has_end (firstn n log) = true -> firstn n log = log.
Proof.
  intros H E. apply has_end_in in E. apply in_split in E as (a & b & E).
  rewrite <- (firstn_skipn n log) in H. rewrite E, <- app_assoc in H. cbn in H.
  specialize (H a (b ++ skipn n log) eq_refl). apply app_eq_nil in H as [_ H].
  rewrite <- (firstn_skipn n log) at 2. rewrite H. symmetry. apply app_nil_r.
Qed.

Lemma latest_lastv (rs : list (poll (option B))) : latest_of rs = lastv (yielded rs).
Proof. reflexivity. Qed.

Lemma follows_snoc f log (p y : nat) h n r : follows f log p y (h ++ [(n, r)]) ->
  p = n /\ exists p' y', follows f log p' y' h /\ p' <= n <= length log /\ y = length (yielded (firstn n log))
  /\ match r with
     | Ready (Some b) => y' < y /\ exists v, latest_of (firstn n log) = Some v /\ b = f v
     | Pending => y' = y /\ has_end (firstn n log) = false
     | Ready None => y' = y /\ has_end (firstn n log) = true
     end.
Proof.
  intros H. inversion H as [q E1|p' y' h' n' v F L E1 E2 Ea Eb Ec|p' y' h' n' F L E1 E2 Ea Eb Ec|p' y' h' n' F L E1 E2 Ea Eb Ec].
  - destruct h; discriminate.
  - apply app_inj_tail in Ec as [-> Ec]. injection Ec as -> <-. split; [reflexivity|]. exists p', y'. repeat split; auto; try lia. eauto.
  - apply app_inj_tail in Ec as [-> Ec]. injection Ec as -> <-. split; [reflexivity|]. exists p', y. subst. repeat split; auto; try lia.
  - apply app_inj_tail in Ec as [-> Ec]. injection Ec as -> <-. split; [reflexivity|]. exists p', y. subst. repeat split; auto; try lia.
Qed.

Lemma follows_pre f log (p y : nat) h h' : follows f log p y (h ++ h') -> exists p' y', follows f log p' y' h.
Proof.
  revert p y. induction h' as [|[n r] h' IH] using rev_ind; intros p y H.
  - rewrite app_nil_r in H. eauto.
  - rewrite app_assoc in H. apply follows_snoc in H as (_ & p' & y' & H & _). eauto.
Qed.

(** What the child has shown is made from the first [y] values. *)
Lemma follows_shown f log (p y : nat) h : follows f log p y h ->
  lastv (yielded (map snd h)) = option_map f (lastv (firstn y (yielded log)))
  /\ subseq (yielded (map snd h)) (map f (firstn y (yielded log))).
Proof.
  induction 1 as [p|p y h n v H IH L E1 E2|p y h n H IH L E1 E2|p y h n H IH L E1 E2].
  - cbn. split; [reflexivity|apply subseq_nil].
  - rewrite map_app, yielded_app, yielded_firstn. cbn [map snd yielded]. unfold latest_of in E1.
    destruct (yielded (firstn n log)) as [|z t _] eqn:Ey using rev_ind; [discriminate|].
    rewrite rev_app_distr in E1. cbn in E1. injection E1 as ->.
    rewrite !lastv_snoc. split; [reflexivity|]. rewrite map_app. cbn [map]. apply subseq_take_snoc.
    destruct IH as [_ IH]. assert (Ht : firstn y (yielded log) = firstn y t).
    { rewrite <- (yielded_firstn n log) in Ey. rewrite app_length in E2. cbn in E2.
      assert (G : firstn y (firstn (length (yielded (firstn n log))) (yielded log)) = firstn y (t ++ [v])) by now rewrite Ey.
      rewrite firstn_firstn in G. rewrite yielded_firstn in Ey. rewrite Ey, app_length in G. cbn in G.
      replace (min y (length t + 1)) with y in G by lia. rewrite G, firstn_app.
      replace (y - length t) with 0 by lia. cbn. apply app_nil_r. }
    rewrite Ht in IH. clear -IH. rewrite <- (firstn_skipn y t). rewrite map_app.
    induction (map f (skipn y t)) as [|a l IHl] using rev_ind; [now rewrite app_nil_r|rewrite app_assoc; apply subseq_skip_snoc, IHl].
  - rewrite map_app, yielded_app. cbn. rewrite app_nil_r. exact IH.
  - rewrite map_app, yielded_app. cbn. rewrite app_nil_r. exact IH.
Qed.

Lemma follows_latest f log (p y : nat) h n r h' : follows f log p y (h ++ (n, r) :: h') ->
  latest_of (map snd h ++ [r]) = option_map f (latest_of (firstn n log)).
Proof.
  intros H. change ((n, r) :: h') with ([(n, r)] ++ h') in H. rewrite app_assoc in H. apply follows_pre in H as (p1 & y1 & H).
  pose proof (follows_shown _ _ _ _ _ H) as [S1 _]. apply follows_snoc in H as (_ & p' & y' & _ & _ & -> & _).
  rewrite yielded_firstn, map_app in S1. exact S1.
Qed.

Lemma follows_answer f log (p y : nat) h n r h' : follows f log p y (h ++ (n, r) :: h') -> n <= length log /\
  match r with
  | Ready (Some b) => (exists v, latest_of (firstn n log) = Some v /\ b = f v)
      /\ forall h1 n1 b1 h2, h = h1 ++ (n1, Ready (Some b1)) :: h2 -> length (yielded (firstn n1 log)) < length (yielded (firstn n log))
  | Pending => has_end (firstn n log) = false
  | Ready None => has_end (firstn n log) = true
  end.
Proof.
  intros H. change ((n, r) :: h') with ([(n, r)] ++ h') in H. rewrite app_assoc in H. apply follows_pre in H as (p1 & y1 & H).
  apply follows_snoc in H as (_ & p' & y' & F & L & -> & R). split; [lia|]. destruct r as [|[b|]]; [tauto| |tauto].
  destruct R as (R1 & v & R2 & R3). split; [eauto|]. intros h1 n1 b1 h2 ->.
  assert (G : length (yielded (firstn n1 log)) <= y'); [|lia].
  clear -F. revert p' y' F. induction h2 as [|[n2 r2] h2 IH] using rev_ind; intros p' y' F.
  - apply follows_snoc in F as (_ & p2 & y2 & _ & _ & -> & _). lia.
  - rewrite app_comm_cons, app_assoc in F. apply follows_snoc in F as (_ & p2 & y2 & F & _ & _ & R). specialize (IH _ _ F).
    destruct r2 as [|[b|]]; lia.
Qed.

Lemma follows_order f log (p y : nat) h n r h' n' r' h'' : follows f log p y (h ++ (n, r) :: h' ++ (n', r') :: h'') -> n <= n'.
Proof.
  intros H. assert (E : h ++ (n, r) :: h' ++ (n', r') :: h'' = (h ++ [(n, r)] ++ h' ++ [(n', r')]) ++ h'') by (rewrite <- !app_assoc; reflexivity).
  rewrite E in H. apply follows_pre in H as (p1 & y1 & H). rewrite !app_assoc in H.
  apply follows_snoc in H as (-> & p2 & y2 & H & L & _). assert (n <= p2); [|lia]. clear -H.
  revert p2 y2 H. induction h' as [|[n3 r3] h' IH] using rev_ind; intros p2 y2 H.
  - rewrite app_nil_r in H. apply follows_snoc in H as (-> & _). lia.
  - rewrite app_assoc in H. apply follows_snoc in H as (-> & p4 & y4 & H & L & _). specialize (IH _ _ H). lia.
Qed.

(** Once a child has ended it says so for ever. *)
Lemma follows_ended f log (p y : nat) h n h' : obeys_end log -> follows f log p y (h ++ (n, Ready None) :: h') ->
  Forall (fun e => snd e = Ready None) h'.
Proof.
  intros Ho H. apply Forall_forall. intros [n2 r2] Hin. apply in_split in Hin as (a & b & ->). cbn.
  pose proof (follows_order _ _ _ _ _ _ _ _ _ _ _ H) as L.
  pose proof (follows_answer _ _ _ _ _ _ _ _ H) as [_ E1].
  pose proof (ended_all n log Ho E1) as E2.
  rewrite app_comm_cons, app_assoc in H. assert (H' := H).
  pose proof (follows_answer _ _ _ _ _ _ _ _ H) as [_ R].
  assert (E3 : has_end (firstn n2 log) = true) by (eapply has_end_mono; eauto).
  destruct r2 as [|[v|]]; [congruence| |reflexivity]. exfalso.
  change ((n2, Ready (Some v)) :: b) with ([(n2, Ready (Some v))] ++ b) in H'. rewrite app_assoc in H'. apply follows_pre in H' as (p1 & y1 & H').
  apply follows_snoc in H' as (_ & p2 & y2 & F & _ & -> & R2 & _).
  assert (G : length (yielded log) <= y2); [|pose proof (yielded_mono n2 (length log + n2) log ltac:(lia)) as M; rewrite (@firstn_all2 _ (length log + n2) log) in M by lia; lia].
  clear -F E2. revert p2 y2 F. induction a as [|[n3 r3] a IH] using rev_ind; intros p2 y2 F.
  - apply follows_snoc in F as (_ & p3 & y3 & _ & _ & -> & _). now rewrite E2.
  - rewrite app_comm_cons, app_assoc in F. apply follows_snoc in F as (_ & p3 & y3 & F & _ & _ & R). specialize (IH _ _ F).
    destruct r3 as [|[b|]]; lia.
Qed.
End Answers.

Section Use.
Context {A B : Type}.
Implicit Types (s : bc_st A B) (k : kid A B).

(** A call of the waker is not forgotten: if the input has not ended, some poll will ask it. *)
Definition bc_inv7 s : Prop :=
  (b_dirty s = true -> b_live s = true -> b_changed s = true \/ exists j, k_pc (b_kids s j) = KWLock)
  /\ (b_log s = [] -> b_dirty s = true \/ exists j c, k_pc (b_kids s j) = KIn c).

Lemma bc_inv7_step s m s' : bc_inv s -> bc_inv7 s -> bc_step s m = Some s' -> bc_inv7 s'.
Proof.
  intros ((I1 & I2 & I3 & I4 & I5) & (V1 & V2 & V3 & V4 & V5 & V6 & V7 & V8) & (N1 & N2 & N3 & N4) & _) (D1 & D2) E.
  bc_split s E; w_split; unfold bc_inv7; bc_simp.
  all: split.
  all: try (intros _ G; discriminate G). all: try (intros G; discriminate G).
  all: try (intros G; apply app_eq_nil in G as [_ G]; discriminate G).
  all: try assumption.
  all: try (intros G1 G2; left; reflexivity).
  all: try (intros G1 G2; destruct (D1 G1 G2) as [G|[y G]]; [left; congruence|right; exists y; at_kid y; k_simp; congruence]).
  all: try (intros G1; destruct (D2 G1) as [G|(y & c' & G)]; [left; congruence|right; exists y, c'; at_kid y; k_simp; congruence]).
  all: try (intros G1; left; reflexivity).
  - intros G1 G2; destruct (D1 G1 G2) as [G|[y G]]; [left; congruence|]. right; exists y. at_kid y; [|congruence].
    destruct (I1 n (le_n _)) as (J & _). congruence.
  - intros G1; destruct (D2 G1) as [G|(y & c' & G)]; [left; congruence|]. right; exists y, c'. at_kid y; [|congruence].
    destruct (I1 n (le_n _)) as (J & _). congruence.
  - intros G1 G2. right. exists i. at_kid i. rewrite Nat.eqb_refl. reflexivity.
  - intros G1. right. exists i, false. at_kid i. rewrite Nat.eqb_refl. reflexivity.
Qed.

Lemma bc_inv7_init f0 : bc_inv7 (@bc_init A B f0).
Proof. split; cbn; auto. Qed.

Lemma bc_reach7 f0 l s : exec bc_step (bc_init f0) l = Some s -> bc_inv s /\ bc_inv7 s.
Proof.
  intros E. refine (exec_inv bc_step (fun s => bc_inv s /\ bc_inv7 s) _ l _ _ _ E).
  - intros x m x' [H1 H2] E'. split; [eapply bc_inv_step|eapply bc_inv7_step]; eauto.
  - split; [apply bc_inv_init|apply bc_inv7_init].
Qed.

(** *** Values *)

Lemma bc_follows f0 l s i : exec bc_step (bc_init f0) l = Some s ->
  exists n y, follows (k_fn (b_kids s i)) (b_log s) n y (k_hist (b_kids s i)).
Proof.
  intros E. destruct (bc_reach _ _ _ E) as (_ & (_ & _ & _ & _ & _ & V6 & _) & _).
  destruct (V6 i) as (n & y & F & _). eauto.
Qed.

Lemma bc_obeys_end f0 l s : exec bc_step (@bc_init A B f0) l = Some s -> obeys_end (b_log s).
Proof. intros E. destruct (bc_reach _ _ _ E) as (_ & (_ & _ & V3 & _) & _). exact V3. Qed.

Lemma bc_latest f0 l s i h n r h' : exec bc_step (bc_init f0) l = Some s -> k_hist (b_kids s i) = h ++ (n, r) :: h' ->
  latest_of (map snd h ++ [r]) = option_map (k_fn (b_kids s i)) (latest_of (firstn n (b_log s))).
Proof. intros E H. destruct (bc_follows _ _ _ i E) as (p & y & F). rewrite H in F. exact (follows_latest _ _ _ _ _ _ _ _ F). Qed.

Lemma bc_answer f0 l s i h n r h' : exec bc_step (bc_init f0) l = Some s -> k_hist (b_kids s i) = h ++ (n, r) :: h' ->
  n <= length (b_log s) /\
  match r with
  | Ready (Some b) => (exists v, latest_of (firstn n (b_log s)) = Some v /\ b = k_fn (b_kids s i) v)
      /\ forall h1 n1 b1 h2, h = h1 ++ (n1, Ready (Some b1)) :: h2 ->
           length (yielded (firstn n1 (b_log s))) < length (yielded (firstn n (b_log s)))
  | Pending => has_end (firstn n (b_log s)) = false
  | Ready None => has_end (firstn n (b_log s)) = true
  end.
Proof. intros E H. destruct (bc_follows _ _ _ i E) as (p & y & F). rewrite H in F. exact (follows_answer _ _ _ _ _ _ _ _ F). Qed.

Lemma bc_ended f0 l s i h n h' : exec bc_step (bc_init f0) l = Some s -> k_hist (b_kids s i) = h ++ (n, Ready None) :: h' ->
  Forall (fun e => snd e = Ready None) h'.
Proof.
  intros E H. destruct (bc_follows _ _ _ i E) as (p & y & F). rewrite H in F.
  exact (follows_ended _ _ _ _ _ _ _ (bc_obeys_end _ _ _ E) F).
Qed.

Lemma bc_subseq f0 l s i : exec bc_step (bc_init f0) l = Some s ->
  subseq (yielded (k_ans (b_kids s i))) (map (k_fn (b_kids s i)) (yielded (b_log s))).
Proof.
  intros E. destruct (bc_follows _ _ _ i E) as (p & y & F). destruct (follows_shown _ _ _ _ _ F) as [_ H].
  rewrite <- (firstn_skipn y (yielded (b_log s))), map_app. unfold k_ans. revert H.
  generalize (map (k_fn (b_kids s i)) (firstn y (yielded (b_log s)))) as l1. intros l1 H.
  induction (map (k_fn (b_kids s i)) (skipn y (yielded (b_log s)))) as [|a q IH] using rev_ind;
    [now rewrite app_nil_r|rewrite app_assoc; apply subseq_skip_snoc, IH].
Qed.

Lemma bc_no_panic f0 l s i : exec bc_step (bc_init f0) l = Some s -> k_pc (b_kids s i) <> KPanic.
Proof. intros E. destruct (bc_reach _ _ _ E) as (_ & _ & (_ & _ & _ & N4) & _). apply N4. Qed.

(** *** One poll, while no other child is polled *)

Definition in_ask (log0 : list (poll (option A))) i s : Prop :=
  match k_pc (b_kids s i) with
  | KSwap => b_changed s = true /\ b_log s = log0 /\ b_live s = true
  | KWLock => b_log s = log0 /\ b_live s = true
  | KIn _ => exists vs, b_log s = log0 ++ map (fun a => Ready (Some a)) vs
  | KRLock | KPanic => False
  | _ => asks log0 (b_log s)
  end.

Lemma in_ask_step log0 x s m s' : in_ask log0 x s -> of_kid_or_note x m = true -> bc_step s m = Some s' ->
  bc_inv s -> in_ask log0 x s'.
Proof.
  intros H M E ((I1 & I2 & I3 & I4 & I5) & _). unfold in_ask, of_kid_or_note in *.
  bc_split s E; w_split; cbn in M; try discriminate M; try subst x.
  all: unfold fupd; rewrite ?Nat.eqb_refl; k_simp.
  all: try assumption.
  all: try (exfalso; destruct (I5 eq_refl) as [-> ?]; specialize (I4 i); lia).
  all: try match goal with C : k_pc _ = _ |- _ => rewrite C in * end.
  all: try tauto. all: try (destruct H; discriminate). all: try (destruct H as (? & ? & ?); congruence).
  - destruct H as [-> _]. exists []. symmetry. apply app_nil_r.
  - destruct H as [vs ->]. exists vs, Pending. split; [now rewrite app_assoc|auto].
  - destruct H as [vs ->]. exists vs, Pending. split; [now rewrite app_assoc|auto].
  - destruct H as [vs ->]. exists (vs ++ [a]). now rewrite map_app, app_assoc.
  - destruct H as [vs ->]. exists (vs ++ [a]). now rewrite map_app, app_assoc.
  - destruct H as [vs ->]. exists vs, (Ready None). split; [now rewrite app_assoc|auto].
  - destruct H as [vs ->]. exists vs, (Ready None). split; [now rewrite app_assoc|auto].
  - destruct (k_pc (kids x)); intuition.
  - destruct (Nat.eqb_spec x c) as [->|]; k_simp; exact H.
Qed.

Lemma exec_inv_on (P : bc_st A B -> Prop) (Q : bc_move A B -> bool) :
  (forall s m s', P s -> Q m = true -> bc_step s m = Some s' -> P s') ->
  forall l s s', forallb Q l = true -> P s -> exec bc_step s l = Some s' -> P s'.
Proof.
  intros H. induction l as [|m l IH]; cbn; intros s s' F Hp E.
  - injection E as <-. exact Hp.
  - apply andb_true_iff in F as [F1 F2]. destruct (bc_step s m) as [s1|] eqn:E1; [|discriminate]. exact (IH s1 s' F2 (H _ _ _ Hp F1 E1) E).
Qed.

Lemma bc_poll_start s i t s1 : bc_step s (BPoll i t) = Some s1 ->
  s1 = set_kid s i (k_start (b_kids s i) t) /\ i < b_n s /\ k_alive (b_kids s i) = true /\ k_pc (b_kids s i) = KIdle.
Proof.
  unfold bc_step. intros E. destruct ((i <? b_n s) && k_alive (b_kids s i)) eqn:C; [|discriminate].
  apply andb_true_iff in C as [C1 C2]. apply Nat.ltb_lt in C1.
  destruct (k_pc (b_kids s i)) eqn:C3; try discriminate. injection E as <-. auto.
Qed.

Lemma idle_dirty s : bc_inv s -> bc_inv7 s -> bc_idle s -> b_dirty s = true -> b_live s = true -> b_changed s = true.
Proof.
  intros ((I1 & _) & _) (D1 & _) [Hi _] Hd Hl. destruct (D1 Hd Hl) as [|[j J]]; [assumption|]. exfalso.
  destruct (Nat.lt_ge_cases j (b_n s)) as [L|L]; [rewrite (Hi j L) in J|rewrite (proj1 (I1 j L)) in J]; discriminate.
Qed.

Lemma live_end s : bc_inv s -> b_live s = negb (has_end (b_log s)).
Proof. intros (_ & (_ & V2 & _) & _). exact V2. Qed.

Lemma bc_asks f0 l0 s i t l s' : exec bc_step (bc_init f0) l0 = Some s -> bc_idle s ->
  b_dirty s = true -> has_end (b_log s) = false ->
  exec bc_step s (BPoll i t :: l) = Some s' -> forallb (of_kid_or_note i) l = true -> k_pc (b_kids s' i) = KIdle ->
  asks (b_log s) (b_log s').
Proof.
  intros E0 Hi Hd He E F K. destruct (bc_reach7 _ _ _ E0) as [Inv Inv7].
  assert (Hl : b_live s = true) by (rewrite (live_end s Inv), He; reflexivity).
  pose proof (idle_dirty s Inv Inv7 Hi Hd Hl) as Hc.
  cbn [exec] in E. destruct (bc_step s (BPoll i t)) as [s1|] eqn:E1; [|discriminate].
  pose proof (bc_inv_step _ _ _ Inv E1) as Inv1. apply bc_poll_start in E1 as (-> & L & Ha & Hp).
  assert (G : bc_inv s' /\ in_ask (b_log s) i s').
  { refine (exec_inv_on (fun x => bc_inv x /\ in_ask (b_log s) i x) (of_kid_or_note i) _ l _ _ F _ E).
    - intros x m x' [G1 G2] M Em. split; [eapply bc_inv_step; eauto|eapply in_ask_step; eauto].
    - split; [exact Inv1|]. unfold in_ask. destruct s. bc_simp. rewrite fupd_same. k_simp. auto. }
  destruct G as [_ G]. unfold in_ask in G. rewrite K in G. exact G.
Qed.

(** No need to ask. *)
Definition no_ask (log0 : list (poll (option A))) x s : Prop :=
  b_changed s = false /\ b_log s = log0 /\ k_pc (b_kids s x) <> KWLock /\ forall c, k_pc (b_kids s x) <> KIn c.

Lemma no_ask_step log0 x s m s' : no_ask log0 x s -> of_kid x m = true -> bc_step s m = Some s' -> no_ask log0 x s'.
Proof.
  intros (H1 & H2 & H3 & H4) M E. unfold no_ask, of_kid in *.
  bc_split s E; w_split; cbn in M; try discriminate M; try subst x.
  all: unfold fupd; rewrite ?Nat.eqb_refl; k_simp.
  all: try (exfalso; congruence).
  all: try (exfalso; eapply H4; eassumption).
  all: repeat split; try assumption; try congruence.
Qed.

Lemma bc_shared f0 l0 s i t l s' : exec bc_step (bc_init f0) l0 = Some s -> b_changed s = false ->
  exec bc_step s (BPoll i t :: l) = Some s' -> forallb (of_kid i) l = true -> b_log s' = b_log s.
Proof.
  intros E0 Hc E F. cbn [exec] in E. destruct (bc_step s (BPoll i t)) as [s1|] eqn:E1; [|discriminate].
  apply bc_poll_start in E1 as (-> & L & Ha & Hp).
  assert (G : no_ask (b_log s) i s').
  { refine (exec_inv_on (no_ask (b_log s) i) (of_kid i) _ l _ _ F _ E).
    - intros. eapply no_ask_step; eauto.
    - unfold no_ask. destruct s. bc_simp. rewrite fupd_same. k_simp. repeat split; auto; discriminate. }
  apply G.
Qed.

(** The first poll of a child. *)
Definition in_first x s : Prop :=
  match k_pc (b_kids s x) with
  | KSwap => k_hist (b_kids s x) = [] /\ (b_log s = [] -> b_changed s = true /\ b_live s = true)
  | KWLock => k_hist (b_kids s x) = [] /\ (b_log s = [] -> b_live s = true)
  | KIn _ => k_hist (b_kids s x) = []
  | KRLock | KLook _ | KSet _ => k_hist (b_kids s x) = [] /\ b_log s <> []
  | KPanic => False
  | _ => exists n r, k_hist (b_kids s x) = [(n, r)] /\ 0 < n
  end.

Lemma in_first_step x s m s' : in_first x s -> of_kid_or_note x m = true -> bc_step s m = Some s' ->
  bc_inv s -> in_first x s'.
Proof.
  intros H M E ((I1 & I2 & I3 & I4 & I5) & _). unfold in_first, of_kid_or_note in *.
  bc_split s E; w_split; cbn in M; try discriminate M; try subst x.
  all: unfold fupd; rewrite ?Nat.eqb_refl; k_simp.
  all: try assumption.
  all: try (exfalso; destruct (I5 eq_refl) as [-> ?]; specialize (I4 i); lia).
  all: try match goal with C : k_pc _ = _ |- _ => rewrite C in * end.
  all: try tauto.
  all: try (match type of H with _ /\ (_ -> _) => destruct H as [H1 H2] end; split; [exact H1|]; try (destruct log; cbn; congruence); intros G; destruct (H2 G); congruence).
  all: try (match type of H with _ /\ (_ -> _) => destruct H as [H1 H2] end; split; [exact H1|]; intros G; specialize (H2 G); intuition congruence).
  all: try (split; [exact H|]; destruct log; discriminate).
  all: try (destruct H as [-> H2]; cbn; eexists; eexists; split; [reflexivity|]; destruct log; [congruence|cbn; lia]).
  - destruct (k_pc (kids x)); intuition.
  - destruct (Nat.eqb_spec x c) as [->|]; k_simp; exact H.
Qed.

Lemma bc_first f0 l0 s i t l s' : exec bc_step (bc_init f0) l0 = Some s -> bc_idle s -> k_hist (b_kids s i) = [] ->
  exec bc_step s (BPoll i t :: l) = Some s' -> forallb (of_kid_or_note i) l = true -> k_pc (b_kids s' i) = KIdle ->
  has_initial (b_log s') -> has_initial (k_ans (b_kids s' i)).
Proof.
  intros E0 Hi Hh E F K (a & q & HI). destruct (bc_reach7 _ _ _ E0) as [Inv Inv7].
  assert (Er : exec bc_step (bc_init f0) (l0 ++ BPoll i t :: l) = Some s') by (rewrite exec_app, E0; exact E).
  assert (Hc : b_log s = [] -> b_changed s = true /\ b_live s = true).
  { intros G. assert (Hl : b_live s = true) by (rewrite (live_end s Inv), G; reflexivity). split; [|exact Hl].
    apply idle_dirty; auto. destruct Inv7 as [_ D2]. destruct (D2 G) as [|(j & c & J)]; [assumption|]. exfalso.
    destruct Inv as ((I1 & _) & _). destruct Hi as [Hi _].
    destruct (Nat.lt_ge_cases j (b_n s)) as [L|L]; [rewrite (Hi j L) in J|rewrite (proj1 (I1 j L)) in J]; discriminate. }
  cbn [exec] in E. destruct (bc_step s (BPoll i t)) as [s1|] eqn:E1; [|discriminate].
  pose proof (bc_inv_step _ _ _ Inv E1) as Inv1. apply bc_poll_start in E1 as (-> & L & Ha & Hp).
  assert (G : bc_inv s' /\ in_first i s').
  { refine (exec_inv_on (fun x => bc_inv x /\ in_first i x) (of_kid_or_note i) _ l _ _ F _ E).
    - intros x m x' [G1 G2] M Em. split; [eapply bc_inv_step; eauto|eapply in_first_step; eauto].
    - split; [exact Inv1|]. unfold in_first. destruct s. bc_simp. rewrite fupd_same. k_simp. auto. }
  destruct G as [_ G]. unfold in_first in G. rewrite K in G. destruct G as (n & r & G & Ln).
  pose proof (bc_latest f0 _ s' i [] n r [] Er G) as Q. cbn [map app] in Q. rewrite HI in Q.
  destruct n as [|n]; [lia|]. unfold k_ans. rewrite G. cbn [map snd].
  destruct r as [|[b|]]; [exfalso|exists b, []; reflexivity|exfalso]; cbn [firstn] in Q; unfold latest_of in Q; cbn [yielded rev app] in Q;
    destruct (rev (yielded (firstn n q)) ++ [a]) eqn:Z; try discriminate Q; destruct (rev (yielded (firstn n q))); discriminate Z.
Qed.

(** *** Wake-ups *)

(** A call of the waker that starts while the child waits. *)
Definition in_note (j x : nat) s : Prop :=
  k_alive (b_kids s x) = true /\ k_waiting (b_kids s x)
  /\ (k_woken (b_kids s x) = true \/ exists p, nth_error (b_notes s) j = Some p
       /\ (p = NLock \/ p = NStore \/ In x (todo_of p) \/ exists a c b, p = NWake (k_task (b_kids s x)) a c b)).

Lemma waiting_armed k : k_waiting k -> k_armed k.
Proof. intros [H1 H2]. split; auto. Qed.

Lemma in_note_step j0 x s m s' : in_note j0 x s -> not_of x m = true -> bc_step s m = Some s' -> bc_inv s -> in_note j0 x s'.
Proof.
  intros (Ha & Hw & H) M E ((I1 & I2 & I3 & I4 & I5) & _ & (N1 & N2 & N3 & N4) & _ & H4 & _).
  assert (W := H4 x Ha (waiting_armed _ Hw)). clear H4. unfold in_note.
  bc_split s E; w_split; cbn in M; try (apply negb_true_iff, Nat.eqb_neq in M).
  all: try (exfalso; destruct (I5 eq_refl) as [-> ?]; specialize (I4 i); lia).
  (* child x does not move *)
  all: try (unfold fupd; destruct (Nat.eqb_spec x n) as [->|]; [destruct (I1 n (le_n _)) as (_ & J & _); congruence|]; auto; fail).
  all: try (unfold fupd; destruct (Nat.eqb_spec x i) as [->|]; [exfalso; first [congruence | destruct Hw as [Hw _]; congruence]|]; auto; fail).
  all: refine (conj _ (conj _ _)).
  all: try assumption.
  all: try (at_kid x; assumption).
  all: try (unfold k_waiting, k_ans in *; at_kid x; assumption).
  all: destruct H as [H|(p & H1 & H2)]; [left; at_kid x; rewrite ?H; reflexivity|].
  - right. exists p. split; [apply snoc_old, H1|exact H2].
  - destruct (Nat.eq_dec j0 j) as [->|Nj]; [|right; exists p; split; [rewrite lupd_other; auto|exact H2]].
    right. exists NStore. split; [eapply lupd_same; eauto|auto].
  - destruct (Nat.eq_dec j0 j) as [->|Nj]; [|right; exists p; split; [rewrite lupd_other; auto|exact H2]].
    right. exists (NVisit [] wks). split; [eapply lupd_same; eauto|]. cbn [todo_of]. auto.
  - destruct (Nat.eq_dec j0 j) as [->|Nj]; [|right; exists p; split; [rewrite lupd_other; auto|exact H2]].
    exfalso. assert (p = NVisit kept []) as -> by congruence. destruct H2 as [|[|[[]|(a & c & b & H2)]]]; discriminate.
  - destruct (Nat.eq_dec j0 j) as [->|Nj]; [|right; exists p; split; [rewrite lupd_other; auto|exact H2]].
    assert (p = NVisit kept (n1 :: l)) as -> by congruence. destruct H2 as [|[|[H2|(a & c & b & H2)]]]; try discriminate.
    right. exists (NTake kept n1 l). split; [eapply lupd_same; eauto|]. auto.
  - destruct (Nat.eq_dec j0 j) as [->|Nj]; [|right; exists p; split; [rewrite lupd_other; auto|exact H2]].
    assert (p = NVisit kept (n1 :: l)) as -> by congruence. destruct H2 as [|[|[[H2|H2]|(a & c & b & H2)]]]; try discriminate.
    + subst x. congruence.
    + right. exists (NVisit kept l). split; [eapply lupd_same; eauto|]. auto.
  - destruct (Nat.eq_dec j0 j) as [->|Nj]; [|right; exists p; split; [rewrite lupd_other; auto|]; at_kid x; exact H2].
    assert (p = NTake kept c todo) as -> by congruence. destruct H2 as [|[|[[H2|H2]|(a & c' & b & H2)]]]; try discriminate.
    + subst c. unfold fupd. rewrite Nat.eqb_refl. k_simp. destruct (k_woken (kids x)) eqn:Ew; [auto|]. right.
      exists (NWake n1 kept x todo). split; [eapply lupd_same; eauto|]. right; right; right.
      destruct (W eq_refl) as [G|(j' & a & c' & b & G)]; [assert (n1 = k_task (kids x)) as -> by congruence; eauto|].
      assert (j' = j) as -> by (eapply crit_one; eauto). congruence.
    + right. exists (NWake n1 kept c todo). split; [eapply lupd_same; eauto|]. auto.
  - destruct (Nat.eq_dec j0 j) as [->|Nj]; [|right; exists p; split; [rewrite lupd_other; auto|exact H2]].
    assert (p = NTake kept c todo) as -> by congruence. destruct H2 as [|[|[[H2|H2]|(a & c' & b & H2)]]]; try discriminate.
    + subst c. destruct (k_woken (kids x)) eqn:Ew; [auto|]. exfalso.
      destruct (W eq_refl) as [G|(j' & a & c' & b & G)]; [congruence|].
      assert (j' = j) as -> by (eapply crit_one; eauto). congruence.
    + right. exists (NVisit (kept ++ [c]) todo). split; [eapply lupd_same; eauto|]. auto.
  - destruct (Nat.eq_dec j0 j) as [->|Nj]; [|right; exists p; split; [rewrite lupd_other; auto|exact H2]].
    assert (p = NWake t kept c todo) as -> by congruence. destruct H2 as [|[|[H2|(a & c' & b & H2)]]]; try discriminate.
    + right. exists (NVisit (kept ++ [c]) todo). split; [eapply lupd_same; eauto|]. auto.
    + left. injection H2 as -> -> -> ->. rewrite Nat.eqb_refl. apply orb_true_r.
Qed.

Lemma bc_later f0 l0 s i l s' : exec bc_step (bc_init f0) l0 = Some s -> k_alive (b_kids s i) = true -> k_waiting (b_kids s i) ->
  exec bc_step s (BNotify :: l) = Some s' -> forallb (not_of i) l = true ->
  nth_error (b_notes s') (length (b_notes s)) = Some NDone -> k_woken (b_kids s' i) = true.
Proof.
  intros E0 Ha Hw E F D. pose proof (bc_reach _ _ _ E0) as Inv. cbn [exec bc_step] in E.
  assert (Inv1 : bc_inv (set_notes s (b_notes s ++ [NLock]))) by (eapply bc_inv_step; [exact Inv|exact (eq_refl : bc_step s BNotify = _)]).
  assert (G : bc_inv s' /\ in_note (length (b_notes s)) i s').
  { refine (exec_inv_on (fun x => bc_inv x /\ in_note (length (b_notes s)) i x) (not_of i) _ l _ _ F _ E).
    - intros x m x' [G1 G2] M Em. split; [eapply bc_inv_step; eauto|eapply in_note_step; eauto].
    - split; [exact Inv1|]. unfold in_note. destruct s. bc_simp. repeat split; auto; try apply Hw.
      right. exists NLock. split; [apply snoc_new|auto]. }
  destruct G as [_ (_ & _ & [G|(p & G1 & G2)])]; [exact G|]. exfalso. rewrite D in G1. injection G1 as <-.
  destruct G2 as [|[|[[]|(a & c & b & G2)]]]; discriminate.
Qed.

Lemma bc_woken s i : bc_inv s -> bc_inv7 s -> bc_idle s -> k_alive (b_kids s i) = true -> k_waiting (b_kids s i) ->
  k_raced (b_kids s i) = false -> k_woken (b_kids s i) = false ->
  b_dirty s = false /\ has_end (b_log s) = false
  /\ latest_of (k_ans (b_kids s i)) = option_map (k_fn (b_kids s i)) (latest_of (b_log s)).
Proof.
  intros Inv Inv7 Hi Ha Hw Hr Hn. pose proof (idle_dirty s Inv Inv7 Hi) as Hd.
  destruct Inv as ((I1 & _) & (V1 & V2 & V3 & V4 & V5 & V6 & V7 & V8) & _ & _ & _ & _ & W).
  destruct (W i Hr Ha (waiting_armed _ Hw) Hn) as [(Q1 & Q2 & Q3 & Q4)|[(j & p & Q1 & Q2)|(j & a & c & b & Q)]].
  - split; [destruct (b_dirty s); [specialize (Hd eq_refl Q3); congruence|reflexivity]|].
    split; [rewrite V2 in Q3; destruct (has_end (b_log s)); [discriminate|reflexivity]|].
    destruct (V6 i) as (n & y & F & _ & O1 & _).
    assert (M : mid (b_writer s) (b_kids s) = false).
    { unfold mid. destruct (b_writer s) as [w|]; [|reflexivity]. destruct (Q4 w) as [_ G].
      destruct (k_pc (b_kids s w)) as [| | |[|]| | | | |] eqn:Ew; try reflexivity. exfalso. eapply G; reflexivity. }
    specialize (O1 M Q2). pose proof (follows_shown _ _ _ _ _ F) as [G _]. rewrite O1, firstn_all in G. exact G.
  - destruct Hi as [_ Hi]. rewrite (Hi j p Q1) in Q2. destruct Q2.
  - destruct Hi as [_ Hi]. discriminate (Hi _ _ Q).
Qed.

Lemma bc_woken_race f0 l s i : exec bc_step (bc_init f0) l = Some s -> bc_idle s -> k_alive (b_kids s i) = true -> k_waiting (b_kids s i) ->
  k_raced (b_kids s i) = false -> k_woken (b_kids s i) = false ->
  b_dirty s = false /\ has_end (b_log s) = false
  /\ latest_of (k_ans (b_kids s i)) = option_map (k_fn (b_kids s i)) (latest_of (b_log s)).
Proof. intros E. destruct (bc_reach7 _ _ _ E) as [G1 G2]. apply bc_woken; auto. Qed.

(** *** One thing at a time *)

Lemma bc_idleb_spec s : bc_idleb s = true <-> bc_idle s.
Proof.
  unfold bc_idleb, bc_idle. rewrite andb_true_iff, !forallb_forall. split; intros [H1 H2]; split.
  - intros i L. specialize (H1 i ltac:(apply in_seq; lia)). destruct (k_pc (b_kids s i)); congruence.
  - intros j p E. specialize (H2 p (nth_error_In _ _ E)). destruct p; congruence.
  - intros i L. apply in_seq in L. rewrite H1 by lia. reflexivity.
  - intros p L. apply In_nth_error in L as [j E]. rewrite (H2 j p E). reflexivity.
Qed.

Lemma ran_idle (e : option (bc_st A B)) (P : bc_st A B -> Prop) :
  match e with Some s => bc_idleb s = true /\ P s | None => False end -> exists s, e = Some s /\ bc_idle s /\ P s.
Proof. intros H. destruct e as [s|]; [|contradiction]. exists s. rewrite <- bc_idleb_spec. tauto. Qed.

Definition alone s : Prop :=
  (forall x, k_raced (b_kids s x) = false)
  /\ ((forall x, k_pc (b_kids s x) = KIdle)
      \/ ((forall j p, nth_error (b_notes s) j = Some p -> p = NDone) /\ exists y, forall x, x <> y -> k_pc (b_kids s x) = KIdle)).

Lemma no_other_waits s i : (forall x, x <> i -> k_pc (b_kids s x) = KIdle) -> other_waits s i = false.
Proof.
  intros H. destruct (other_waits s i) eqn:E; [|reflexivity]. apply existsb_exists in E as (j & _ & E).
  apply andb_true_iff in E as [E1 E2]. apply negb_true_iff, Nat.eqb_neq in E1. unfold k_waits in E2. rewrite (H j E1) in E2. discriminate.
Qed.

(** Who is active, is the only one. *)
Lemma alone_kid s i : alone s -> k_pc (b_kids s i) <> KIdle ->
  (forall j p, nth_error (b_notes s) j = Some p -> p = NDone) /\ forall x, x <> i -> k_pc (b_kids s x) = KIdle.
Proof.
  intros [_ [H|[H1 [y H2]]]] K; [destruct (K (H i))|]. split; [exact H1|]. intros x N.
  destruct (Nat.eq_dec i y) as [->|Ny]; [auto|destruct (K (H2 i Ny))].
Qed.

Lemma alone_note s j p : alone s -> nth_error (b_notes s) j = Some p -> p <> NDone -> forall x, k_pc (b_kids s x) = KIdle.
Proof. intros [_ [H|[H1 _]]] E N; [exact H|destruct (N (H1 j p E))]. Qed.

Lemma alone_step s m s' : bc_inv s -> alone s -> bc_step_alone s m = Some s' -> alone s'.
Proof.
  intros Inv Al E.
  assert (E' : bc_step s m = Some s') by (unfold bc_step_alone in E; destruct m; try exact E; destruct (bc_idleb s); congruence).
  assert (Hi : match m with BStep _ | BIn _ _ | BNote _ => True | _ => bc_idle s end).
  { unfold bc_step_alone in E. destruct m; auto; destruct (bc_idleb s) eqn:Eb; try discriminate; apply bc_idleb_spec, Eb. }
  clear E. rename E' into E. destruct Inv as ((I1 & I2 & I3 & I4 & I5) & _).
  assert (Hr := proj1 Al). pose proof (alone_kid s) as AK. pose proof (alone_note s) as AN.
  assert (Hk : bc_idle s -> forall x, k_pc (b_kids s x) = KIdle).
  { intros [G _] x. destruct (Nat.lt_ge_cases x (b_n s)) as [L|L]; [auto|apply I1, L]. }
  unfold alone. bc_split s E; w_split.
  all: try specialize (Hk Hi).
  all: try (exfalso; destruct (I5 eq_refl) as [-> ?]; specialize (I4 i); lia).
  (* a step of child i *)
  all: try (destruct (AK i Al ltac:(bc_simp; congruence)) as [K1 K2]; bc_simp; split;
            [intros x; specialize (Hr x); at_kid x; rewrite ?Hr, ?no_other_waits by exact K2; reflexivity || assumption
            |right; split; [exact K1|]; exists i; intros x Nx; at_kid x; [congruence|auto]]).
  (* a step of a call *)
  all: try (assert (K := AN j _ Al C ltac:(discriminate)); bc_simp; split;
            [intros x; specialize (Hr x); at_kid x; unfold k_busy; rewrite ?Hr, ?K; reflexivity || assumption
            |left; intros x; at_kid x; auto]).
  (* the start of something *)
  all: try (split; [intros x; specialize (Hr x); at_kid x; reflexivity || assumption
                   |right; split; [exact (proj2 Hi)|]; exists i; intros x Nx; at_kid x; [congruence|auto]]).
  all: split; [intros x; specialize (Hr x); at_kid x; reflexivity || assumption|left; intros x; at_kid x; auto].
Qed.

Lemma exec_alone l s s' : bc_inv s -> bc_inv7 s -> alone s -> exec bc_step_alone s l = Some s' -> bc_inv s' /\ bc_inv7 s' /\ alone s'.
Proof.
  intros H1 H2 H3 E. refine (exec_inv bc_step_alone (fun s => bc_inv s /\ bc_inv7 s /\ alone s) _ l _ _ (conj H1 (conj H2 H3)) E).
  intros x m x' (G1 & G2 & G3) Em.
  assert (E' : bc_step x m = Some x') by (unfold bc_step_alone in Em; destruct m; try exact Em; destruct (bc_idleb x); congruence).
  split; [|split]; [eapply bc_inv_step|eapply bc_inv7_step|eapply alone_step]; eauto.
Qed.

Lemma bc_woken_alone f0 l s i : exec bc_step_alone (bc_init f0) l = Some s -> bc_idle s -> k_alive (b_kids s i) = true -> k_waiting (b_kids s i) ->
  k_woken (b_kids s i) = false ->
  b_dirty s = false /\ has_end (b_log s) = false
  /\ latest_of (k_ans (b_kids s i)) = option_map (k_fn (b_kids s i)) (latest_of (b_log s)).
Proof.
  intros E Hi Ha Hw Hn. destruct (exec_alone l _ _ (bc_inv_init f0) (bc_inv7_init f0) ltac:(split; [reflexivity|left; reflexivity]) E) as (G1 & G2 & G3 & _).
  apply bc_woken; auto.
Qed.

(** *** No deadlock *)

Lemma note_moves s j p : nth_error (b_notes s) j = Some p -> p <> NDone -> (p = NLock -> b_wlock s = false) ->
  exists s', bc_step s (BNote j) = Some s'.
Proof.
  intros E N H. cbn [bc_step]. unfold note_step. rewrite E. destruct p as [| |a [|c b]|a c b|t a c b|]; eauto; try congruence.
  - rewrite H by reflexivity. eauto.
  - destruct (k_alive (b_kids s c)); eauto.
  - destruct (k_wk (b_kids s c)); eauto.
Qed.

Lemma kid_moves s i : i < b_n s -> k_pc (b_kids s i) <> KIdle -> k_pc (b_kids s i) <> KPanic ->
  (forall c, k_pc (b_kids s i) <> KIn c) -> (k_pc (b_kids s i) = KWLock \/ k_pc (b_kids s i) = KRLock -> b_writer s = None /\ b_readers s = []) ->
  exists s', bc_step s (BStep i) = Some s'.
Proof.
  intros L N1 N2 N3 H. cbn [bc_step]. destruct (Nat.ltb_spec i (b_n s)) as [_|]; [|lia]. unfold kid_step, free_w, free_r.
  destruct (k_pc (b_kids s i)) eqn:E; try congruence.
  - destruct (b_changed s); eauto.
  - destruct (H (or_introl eq_refl)) as [-> ->]. destruct (b_live s); eauto.
  - destruct (H (or_intror eq_refl)) as [-> ->]. eauto.
  - destruct (b_epoch s =? k_epoch (b_kids s i)); [destruct (b_live s); eauto|destruct (b_value s); eauto].
  - eauto.
  - eauto.
Qed.

Lemma bc_progress f0 l s : exec bc_step (bc_init f0) l = Some s -> bc_idle s \/
  exists m s', match m with BStep _ | BIn _ _ | BNote _ => True | _ => False end /\ bc_step s m = Some s'.
Proof.
  intros E. destruct (bc_reach _ _ _ E) as ((I1 & I2 & I3 & _) & _ & (N1 & _ & _ & N4) & _).
  destruct (bc_idleb s) eqn:Eb; [left; apply bc_idleb_spec, Eb|right].
  unfold bc_idleb in Eb. apply andb_false_iff in Eb as [Eb|Eb].
  - (* some child is polled *)
    assert (X : exists i, i < b_n s /\ k_pc (b_kids s i) <> KIdle).
    { clear -Eb. induction (seq 0 (b_n s)) as [|a q IH] eqn:Q using rev_ind; [discriminate|].
      assert (G : forall l, (forall x, In x l -> x < b_n s) ->
        forallb (fun i => match k_pc (b_kids s i) with KIdle => true | _ => false end) l = false -> exists i, i < b_n s /\ k_pc (b_kids s i) <> KIdle).
      { clear. induction l as [|a l IH]; cbn; [discriminate|]. intros H E. apply andb_false_iff in E as [E|E].
        - exists a. split; [apply H; auto|]. intros K. rewrite K in E. discriminate.
        - apply IH; auto. }
      apply (G (q ++ [a])); [|exact Eb]. intros x Hx. rewrite <- Q in Hx. apply in_seq in Hx. lia. }
    destruct X as (i & L & K).
    (* who holds the lock can move *)
    assert (Hold : forall x, holds_w (b_kids s x) = true \/ holds_r (b_kids s x) = true ->
      exists m s', match m with BStep _ | BIn _ _ | BNote _ => True | _ => False end /\ bc_step s m = Some s').
    { intros x Hx. assert (Lx : x < b_n s).
      { destruct (Nat.lt_ge_cases x (b_n s)) as [|G]; [assumption|]. unfold holds_w, holds_r in Hx. rewrite (proj1 (I1 x G)) in Hx. destruct Hx; discriminate. }
      destruct (k_pc (b_kids s x)) eqn:Ex; unfold holds_w, holds_r in Hx; rewrite Ex in Hx; try (destruct Hx; discriminate).
      - exists (BIn x Pending). cbn [bc_step]. destruct (Nat.ltb_spec x (b_n s)) as [_|]; [|lia]. unfold in_step. rewrite Ex. eauto.
      - destruct (kid_moves s x Lx) as [s' G]; rewrite ?Ex; try discriminate; [intros [|]; discriminate|]. exists (BStep x), s'. auto.
      - destruct (kid_moves s x Lx) as [s' G]; rewrite ?Ex; try discriminate; [intros [|]; discriminate|]. exists (BStep x), s'. auto.
      - destruct (kid_moves s x Lx) as [s' G]; rewrite ?Ex; try discriminate; [intros [|]; discriminate|]. exists (BStep x), s'. auto. }
    destruct (b_writer s) as [w|] eqn:Ew; [apply (Hold w); left; apply (I2 w); reflexivity|].
    destruct (b_readers s) as [|x rd] eqn:Er; [|apply (Hold x); right; apply (I2 x); left; reflexivity].
    destruct (kid_moves s i L K (N4 i)) as [s' G]; [|rewrite Ew, Er; auto|exists (BStep i), s'; auto].
    intros c Kc. destruct (I2 i) as [[_ G] _]. unfold holds_w in G. rewrite Kc in G. discriminate (G eq_refl).
  - (* some call of the waker is in progress *)
    destruct (b_wlock s) eqn:Ew.
    + destruct (count_ex crit (b_notes s)) as (j & p & Ej & Cj); [rewrite N1; cbn; lia|].
      destruct (note_moves s j p Ej) as [s' G]; [intros ->; discriminate|intros ->; discriminate|]. exists (BNote j), s'. auto.
    + assert (X : exists j p, nth_error (b_notes s) j = Some p /\ p <> NDone).
      { clear -Eb. induction (b_notes s) as [|p q IH]; cbn in Eb; [discriminate|]. apply andb_false_iff in Eb as [Eb|Eb].
        - exists 0, p. split; [reflexivity|]. intros ->. discriminate.
        - destruct (IH Eb) as (j & p' & G & G'). exists (S j), p'. auto. }
      destruct X as (j & p & Ej & Np). destruct (note_moves s j p Ej Np) as [s' G]; [auto|]. exists (BNote j), s'. auto.
Qed.
End Use.
