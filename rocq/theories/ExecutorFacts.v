(** Facts about polls of whole pipelines (Executor.v). *)
From Verif Require Import Base Conc Executor.

Lemma nodup_app_inv {A} (l l' : list A) : NoDup (l ++ l') -> NoDup l /\ NoDup l' /\ forall j, In j l -> In j l' -> False.
Proof.
  induction l as [|a l IH]; simpl; intros H; [repeat split; auto; constructor|].
  inversion H; subst. destruct (IH H3) as (h1 & h2 & h3). split; [constructor; auto; intros h; apply H2, in_or_app; auto|].
  split; [auto|]. intros j [<-|hj] hj'; [apply H2, in_or_app; auto|eauto].
Qed.

Lemma nodup_app {A} (l l' : list A) : NoDup l -> NoDup l' -> (forall j, In j l -> In j l' -> False) -> NoDup (l ++ l').
Proof.
  intros h1 h2 h3. induction h1 as [|a l hn h1 IH]; simpl in *; auto. constructor; [|apply IH; eauto].
  intros h. apply in_app_or in h as [h|h]; eauto.
Qed.

(** The signal of owner [o] (with Broadcasters below [L] only) has ended. *)
Fixpoint over {V} (w : world V) (o : wk) (L : nat) (s : sig V) : Prop :=
  match s with
  | SMut i m _ => i < w_ncw w /\ c_owner (w_cw w i) = o /\ m < w_nmu w /\ c_changed (w_cw w i) = false /\ u_senders (w_mu w m) = 0 /\ c_src (w_cw w i) = FMut m
  | SAlways _ taken => taken = true
  | SMap _ s | SDedupe _ _ _ s | SEq _ _ _ s => over w o L s
  | SRef _ ss => ss <> LNil /\ overs w o L ss
  | SKid b i e _ => i < w_ncw w /\ c_owner (w_cw w i) = o /\ b < L /\ b_live (w_bc w b) = false /\ e = b_epoch (w_bc w b)
  | SSwitch f live _ s ss => live = false /\ over w o L s /\ overs w o L ss /\ forall a, closed (w_nmu w) L (f a)
  end
with overs {V} (w : world V) (o : wk) (L : nat) (ss : slots V) : Prop :=
  match ss with LNil => True | LCons live _ s ss => live = false /\ over w o L s /\ overs w o L ss end.

(** It has not; what is needed for it to be woken. *)
Fixpoint good {V} (w : world V) (o : wk) (L : nat) (s : sig V) : Prop :=
  match s with
  | SMut i m _ => i < w_ncw w /\ c_owner (w_cw w i) = o /\ m < w_nmu w /\ c_alive (w_cw w i) = true
                  /\ (u_senders (w_mu w m) <> 0 -> In i (u_signals (w_mu w m))) /\ c_src (w_cw w i) = FMut m
  | SAlways _ taken => True
  | SMap _ s | SDedupe _ _ _ s | SEq _ _ _ s => good w o L s
  | SRef _ ss => ss <> LNil /\ goods w o L ss
  | SKid b i e _ => i < w_ncw w /\ c_owner (w_cw w i) = o /\ b < L /\ c_alive (w_cw w i) = true /\ In i (b_wakers (w_bc w b))
  | SSwitch f live _ s ss => (if live then good w o L s else over w o L s) /\ goods w o L ss /\ forall a, closed (w_nmu w) L (f a)
  end
with goods {V} (w : world V) (o : wk) (L : nat) (ss : slots V) : Prop :=
  match ss with LNil => True | LCons live _ s ss => (if live then good w o L s else over w o L s) /\ goods w o L ss end.

Fixpoint some_live {V} (ss : slots V) : Prop :=
  match ss with LNil => False | LCons live _ _ ss => live = true \/ some_live ss end.

(** It has nothing to tell, and [o] will be woken when that changes. *)
Fixpoint still {V} (w : world V) (o : wk) (s : sig V) : Prop :=
  match s with
  | SMut i m _ => c_changed (w_cw w i) = false /\ c_waker (w_cw w i) = Some o /\ u_senders (w_mu w m) <> 0
  | SAlways _ taken => False
  | SMap _ s | SDedupe _ _ _ s | SEq _ _ _ s => still w o s
  | SRef _ ss => stills w o ss /\ some_live ss
  | SKid b i e _ => b_changed (w_bc w b) = false /\ b_live (w_bc w b) = true /\ e = b_epoch (w_bc w b) /\ c_waker (w_cw w i) = Some o
  | SSwitch _ live _ s ss => (live = true -> still w o s) /\ stills w o ss /\ (live = true \/ some_live ss)
  end
with stills {V} (w : world V) (o : wk) (ss : slots V) : Prop :=
  match ss with LNil => True | LCons live _ s ss => (live = true -> still w o s) /\ stills w o ss end.

(** It has nothing to tell. *)
Fixpoint fresh {V} (w : world V) (s : sig V) : Prop :=
  match s with
  | SMut i _ _ => c_changed (w_cw w i) = false
  | SAlways _ taken => taken = true
  | SMap _ s | SDedupe _ _ _ s | SEq _ _ _ s => fresh w s
  | SRef _ ss => freshs w ss
  | SKid b _ e _ => e = b_epoch (w_bc w b) /\ (b_changed (w_bc w b) = false \/ b_live (w_bc w b) = false)
  | SSwitch _ _ _ s ss => fresh w s /\ freshs w ss
  end
with freshs {V} (w : world V) (ss : slots V) : Prop :=
  match ss with LNil => True | LCons _ _ s ss => fresh w s /\ freshs w ss end.

Fixpoint vals {V} (ss : slots V) : list (option V) :=
  match ss with LNil => [] | LCons _ v _ ss => v :: vals ss end.

(** The inner signal of a switch was made from [sel] and its last output is [out]. *)
Definition inner_of {V} (f : V -> pipe V) (sel : option V) (ss : slots V) (out : option V) : Prop :=
  match sel with
  | None => ss = LNil /\ out = None
  | Some a => vals ss = [out] /\ pipes_of ss = PCons (f a) PNil
  end.

(** Its last output is [out]. *)
Fixpoint cur {V} (w : world V) (s : sig V) (out : option V) : Prop :=
  match s with
  | SMut i m f => c_changed (w_cw w i) = false -> out = Some (f (u_value (w_mu w m)))
  | SAlways v taken => out = if taken then Some v else None
  | SMap f s => exists a, cur w s a /\ out = option_map f a
  | SDedupe eqb f old s => exists a, cur w s a /\
      match a with
      | None => old = None /\ out = None
      | Some v => exists a0, (a0 = v \/ eqb (fst (f a0)) v = true) /\ old = Some (fst (f a0)) /\ out = Some (snd (f a0))
      end
  | SEq test f matches s => exists a, cur w s a /\ matches = option_map test a /\ out = option_map (fun v => f (test v)) a
  | SRef f ss => curs w ss /\ ((out = None /\ Forall (fun v => v = None) (vals ss)) \/ exists vs, values ss = Some vs /\ out = Some (f vs))
  | SKid b i e f => e <= b_epoch (w_bc w b) /\ (e = b_epoch (w_bc w b) -> out = option_map f (b_value (w_bc w b)))
  | SSwitch f _ sel s ss => cur w s sel /\ curs w ss /\ inner_of f sel ss out
  end
with curs {V} (w : world V) (ss : slots V) : Prop :=
  match ss with LNil => True | LCons _ v s ss => cur w s v /\ curs w ss end.

Section Facts.
Context {V : Type}.
Implicit Types (w : world V) (s : sig V) (ss : slots V) (o : wk) (p : pipe V).

Scheme sig_mind := Induction for sig Sort Prop with slots_mind := Induction for slots Sort Prop.
Combined Scheme sig_slots_ind from sig_mind, slots_mind.
Scheme pipe_mind := Induction for pipe Sort Prop with pipes_mind := Induction for pipes Sort Prop.
Combined Scheme pipe_pipes_ind from pipe_mind, pipes_mind.

Lemma idss_cons l v s ss : idss (LCons l v s ss) = ids s ++ idss ss. Proof. reflexivity. Qed.
Lemma pipes_cons l v s ss : pipes_of (LCons l v s ss) = PCons (pipe_of s) (pipes_of ss). Proof. reflexivity. Qed.

Lemma closed_mono nm nb nm' nb' : nm <= nm' -> nb <= nb' ->
  (forall p, closed nm nb p -> closed nm' nb' p) /\ (forall ps : pipes V, closeds nm nb ps -> closeds nm' nb' ps).
Proof.
  intros h1 h2. apply pipe_pipes_ind; simpl; intros; auto; try lia; try tauto.
  destruct H1. split; auto.
Qed.
Definition closed_mono1 nm nb nm' nb' h1 h2 := proj1 (closed_mono nm nb nm' nb' h1 h2).

Definition isnone (v : option V) : bool := match v with None => true | Some _ => false end.

Definition bc_ok w (b : nat) : Prop :=
  let x := w_bc w b in
  NoDup (ids (b_signal x)) /\ cur w (b_signal x) (b_value x) /\ isnone (b_value x) = (b_epoch x =? 0) /\
  if b_live x then good w (WNote b) b (b_signal x) /\ (b_changed x = true \/ still w (WNote b) (b_signal x))
  else over w (WNote b) b (b_signal x).

Definition lev o (L : nat) : Prop := forall b, o = WNote b -> L <= b.
Definition below (L : nat) w : Prop := forall b, b < L -> bc_ok w b.

(** ** What a poll can do *)

(** Only the list of the children differs. *)
Definition same_bc (x x' : bc V) : Prop :=
  b_signal x' = b_signal x /\ b_live x' = b_live x /\ b_value x' = b_value x /\ b_epoch x' = b_epoch x /\ b_changed x' = b_changed x.

Definition bc_ev (x x' : bc V) : Prop :=
  pipe_of (b_signal x') = pipe_of (b_signal x) /\ (b_changed x = false -> same_bc x x')
  /\ (b_changed x' = true -> b_changed x = true) /\ b_epoch x <= b_epoch x' /\ (b_epoch x' = b_epoch x -> b_value x' = b_value x)
  /\ (b_live x = false -> b_live x' = false /\ b_epoch x' = b_epoch x /\ b_signal x' = b_signal x).

(** By owner [o], with Broadcasters below [L]; of the old ChangedWakers only those in [T] change. *)
Record ev o (L : nat) (T : nat -> Prop) w w' : Prop := mkEv {
  ev_mu : forall m, u_value (w_mu w' m) = u_value (w_mu w m) /\ u_senders (w_mu w' m) = u_senders (w_mu w m);
  ev_sig : forall m i, In i (u_signals (w_mu w' m)) -> In i (u_signals (w_mu w m)) \/ (w_ncw w <= i < w_ncw w' /\ c_src (w_cw w' i) = FMut m);
  ev_sig' : forall m i, In i (u_signals (w_mu w m)) -> In i (u_signals (w_mu w' m));
  ev_nmu : w_nmu w' = w_nmu w; ev_ncw : w_ncw w <= w_ncw w'; ev_nbc : w_nbc w' = w_nbc w;
  ev_task : w_task w' = w_task w; ev_nt : w_nt w' = w_nt w;
  ev_own : forall j, j < w_ncw w -> c_owner (w_cw w' j) = c_owner (w_cw w j);
  ev_src : forall j, j < w_ncw w -> c_src (w_cw w' j) = c_src (w_cw w j);
  ev_wk : forall j, j < w_ncw w -> c_waker (w_cw w' j) = c_waker (w_cw w j) \/ c_waker (w_cw w' j) = Some (c_owner (w_cw w j));
  ev_flag : forall j, j < w_ncw w -> c_changed (w_cw w' j) = true -> c_changed (w_cw w j) = true;
  ev_cw : forall j, j < w_ncw w -> ~ T j -> w_cw w' j = w_cw w j;
  ev_new : forall j, w_ncw w <= j < w_ncw w' -> (c_owner (w_cw w' j) = o \/ exists b, b < L /\ c_owner (w_cw w' j) = WNote b)
    /\ (c_waker (w_cw w' j) = None \/ c_waker (w_cw w' j) = Some (c_owner (w_cw w' j)));
  ev_bw : forall b i, In i (b_wakers (w_bc w' b)) -> In i (b_wakers (w_bc w b)) \/
    (w_ncw w <= i < w_ncw w' /\ c_src (w_cw w' i) = FBc b /\ forall b', c_owner (w_cw w' i) = WNote b' -> b < b');
  ev_bw' : forall b i, In i (b_wakers (w_bc w b)) -> In i (b_wakers (w_bc w' b));
  ev_bc : forall b, bc_ev (w_bc w b) (w_bc w' b);
  ev_above : forall b, L <= b -> w_bc w' b = w_bc w b }.
Arguments ev_mu {o L T w w'}. Arguments ev_sig {o L T w w'}. Arguments ev_sig' {o L T w w'}. Arguments ev_nmu {o L T w w'}.
Arguments ev_ncw {o L T w w'}. Arguments ev_nbc {o L T w w'}. Arguments ev_task {o L T w w'}. Arguments ev_nt {o L T w w'}.
Arguments ev_own {o L T w w'}. Arguments ev_src {o L T w w'}. Arguments ev_wk {o L T w w'}. Arguments ev_flag {o L T w w'}.
Arguments ev_cw {o L T w w'}. Arguments ev_new {o L T w w'}. Arguments ev_bw {o L T w w'}. Arguments ev_bw' {o L T w w'}.
Arguments ev_bc {o L T w w'}. Arguments ev_above {o L T w w'}.

Definition touch (L : nat) w (l : list nat) (j : nat) : Prop :=
  In j l \/ exists b, b < L /\ c_owner (w_cw w j) = WNote b /\ b_changed (w_bc w b) = true.

Lemma same_bc_refl x : same_bc x x.
Proof. repeat split. Qed.

Lemma same_bc_trans x y z : same_bc x y -> same_bc y z -> same_bc x z.
Proof. intros (a1 & a2 & a3 & a4 & a5) (b1 & b2 & b3 & b4 & b5). repeat split; congruence. Qed.

Lemma same_bc_ev x y : same_bc x y -> bc_ev x y.
Proof.
  intros h. pose proof h as (a1 & a2 & a3 & a4 & a5). unfold bc_ev. split; [congruence|]. split; [auto|]. split; [congruence|]. split; [lia|]. split; [auto|].
  intros h1. repeat split; congruence.
Qed.

Lemma bc_ev_refl x : bc_ev x x.
Proof. apply same_bc_ev, same_bc_refl. Qed.

Lemma bc_ev_trans x y z : bc_ev x y -> bc_ev y z -> bc_ev x z.
Proof.
  unfold bc_ev. intros (a2 & a3 & a4 & a5 & a6 & a7) (b2 & b3 & b4 & b5 & b6 & b7).
  split; [congruence|].
  split. { intros H. pose proof (a3 H) as h. eapply same_bc_trans; [exact h|]. apply b3. destruct h as (_ & _ & _ & _ & ->). auto. }
  split; [auto|]. split; [lia|].
  split. { intros H. rewrite b6, a6 by lia. reflexivity. }
  intros H. destruct (a7 H) as (h1 & h2 & h3). destruct (b7 h1) as (h4 & h5 & h6). repeat split; congruence.
Qed.

Lemma ev_refl o L (T : nat -> Prop) w : ev o L T w w.
Proof. constructor; auto using bc_ev_refl. intros; lia. Qed.

Lemma ev_trans o L (T T1 T2 : nat -> Prop) w w1 w2 : ev o L T1 w w1 -> ev o L T2 w1 w2 ->
  (forall j, j < w_ncw w -> T1 j -> T j) -> (forall j, j < w_ncw w -> T2 j -> T j) -> ev o L T w w2.
Proof.
  intros e1 e2 h1 h2. pose proof (ev_ncw e1) as l1. pose proof (ev_ncw e2) as l2.
  assert (ow : forall j, j < w_ncw w1 -> c_owner (w_cw w2 j) = c_owner (w_cw w1 j)) by apply e2.
  assert (sr : forall j, j < w_ncw w1 -> c_src (w_cw w2 j) = c_src (w_cw w1 j)) by apply e2.
  constructor.
  - intros m. destruct (ev_mu e1 m), (ev_mu e2 m). split; congruence.
  - intros m i h. destruct (ev_sig e2 m i h) as [k|[k1 k2]]; [|right; split; [lia|auto]]. destruct (ev_sig e1 m i k) as [k'|[k1 k2]]; [auto|].
    right. rewrite sr by lia. split; [lia|auto].
  - intros m i h. apply (ev_sig' e2), (ev_sig' e1). auto.
  - rewrite (ev_nmu e2). apply e1.
  - lia.
  - rewrite (ev_nbc e2). apply e1.
  - rewrite (ev_task e2). apply e1.
  - rewrite (ev_nt e2). apply e1.
  - intros j hj. rewrite ow by lia. apply e1. auto.
  - intros j hj. rewrite sr by lia. apply e1. auto.
  - intros j hj. destruct (ev_wk e2 j) as [->| ->]; [lia|apply e1; auto|]. rewrite (ev_own e1) by auto. auto.
  - intros j hj h. apply (ev_flag e1); auto. apply (ev_flag e2); auto. lia.
  - intros j hj h. rewrite (ev_cw e2), (ev_cw e1); auto. lia.
  - intros j hj. destruct (Nat.lt_ge_cases j (w_ncw w1)) as [h|h]; [|apply (ev_new e2); lia].
    destruct (ev_new e1 j) as [k1 k2]; [lia|]. rewrite ow by auto. split; [auto|]. destruct (ev_wk e2 j h) as [->| ->]; auto.
  - intros b i h. destruct (ev_bw e2 b i h) as [k|(k1 & k2 & k3)]; [|right; split; [lia|auto]]. destruct (ev_bw e1 b i k) as [k'|(k1 & k2 & k3)]; [auto|].
    right. rewrite sr, ow by lia. split; [lia|auto].
  - intros b i h. apply (ev_bw' e2), (ev_bw' e1). auto.
  - intros b. eapply bc_ev_trans; [apply e1|apply e2].
  - intros b h. rewrite (ev_above e2), (ev_above e1); auto.
Qed.

Lemma ev_weak o L (T T' : nat -> Prop) w w' : ev o L T w w' -> (forall j, j < w_ncw w -> T j -> T' j) -> ev o L T' w w'.
Proof. intros e h. eapply ev_trans; [exact e|apply (ev_refl _ _ (fun _ => False))|auto|intros ? ? []]. Qed.

(** Another reason why the old ChangedWakers did not change. *)
Lemma ev_only o L (T T' : nat -> Prop) w w' : ev o L T w w' -> (forall j, j < w_ncw w -> ~ T' j -> w_cw w' j = w_cw w j) -> ev o L T' w w'.
Proof. intros e h. destruct e. constructor; auto. Qed.

Lemma touch_after o L T w w' l l' j : ev o L T w w' -> j < w_ncw w -> (In j l' -> In j l) -> touch L w' l' j -> touch L w l j.
Proof.
  intros e hj hl [h|(b & h1 & h2 & h3)]; [left; auto|right]. exists b. rewrite (ev_own e) in h2 by auto.
  destruct (ev_bc e b) as (_ & _ & h4 & _). auto.
Qed.

Lemma touch_mono L w l l' j : (forall i, In i l -> In i l') -> touch L w l j -> touch L w l' j.
Proof. intros h2 [h|(b & h3 & h4 & h5)]; [left; auto|right]. exists b. auto. Qed.

(** ** Frames *)

Lemma over_owner w o L : (forall s, over w o L s -> forall j, In j (ids s) -> j < w_ncw w /\ c_owner (w_cw w j) = o)
  /\ (forall ss, overs w o L ss -> forall j, In j (idss ss) -> j < w_ncw w /\ c_owner (w_cw w j) = o).
Proof.
  apply sig_slots_ind; simpl; intros; auto; try tauto.
  - destruct H0 as [<-|[]]. tauto.
  - destruct H0; eauto.
  - destruct H0 as [<-|[]]. tauto.
  - apply in_app_or in H2. destruct H1 as (a & b & c & d), H2; eauto.
  - apply in_app_or in H2. destruct H1 as (a & b & c), H2; eauto.
Qed.
Definition over_owner1 w o L := proj1 (over_owner w o L).
Definition over_owner2 w o L := proj2 (over_owner w o L).

Lemma good_owner w o L : (forall s, good w o L s -> forall j, In j (ids s) -> j < w_ncw w /\ c_owner (w_cw w j) = o)
  /\ (forall ss, goods w o L ss -> forall j, In j (idss ss) -> j < w_ncw w /\ c_owner (w_cw w j) = o).
Proof.
  apply sig_slots_ind; simpl; intros; auto; try tauto.
  - destruct H0 as [<-|[]]. tauto.
  - destruct H0; eauto.
  - destruct H0 as [<-|[]]. tauto.
  - apply in_app_or in H2. destruct H1 as (a & b & c), H2; eauto.
    destruct live; eauto. eapply over_owner1; eauto.
  - apply in_app_or in H2. destruct H1 as (a & b), H2; eauto.
    destruct live; eauto. eapply over_owner1; eauto.
Qed.
Definition good_owner1 w o L := proj1 (good_owner w o L).
Definition good_owner2 w o L := proj2 (good_owner w o L).

(** The ChangedWakers exist and do not change. *)
Definition free (T : nat -> Prop) w (l : list nat) : Prop := forall j, In j l -> j < w_ncw w /\ ~ T j.

Lemma free_l (T : nat -> Prop) w (l l' : list nat) : free T w (l ++ l') -> free T w l.
Proof. intros h j hj. apply h, in_or_app. auto. Qed.
Lemma free_r (T : nat -> Prop) w (l l' : list nat) : free T w (l ++ l') -> free T w l'.
Proof. intros h j hj. apply h, in_or_app. auto. Qed.

Section Ev.
Context {o0 : wk} {L : nat} {T : nat -> Prop} {w w' : world V}.
Hypothesis (e : ev o0 L T w w').

Lemma over_ev o L0 :
  (forall s, free T w (ids s) -> over w o L0 s -> over w' o L0 s)
  /\ (forall ss, free T w (idss ss) -> overs w o L0 ss -> overs w' o L0 ss).
Proof using e.
  pose proof (ev_ncw e). apply sig_slots_ind; simpl; intros; auto.
  - destruct (H0 i) as [h1 h2]; [simpl; auto|]. rewrite (ev_cw e i h1 h2), (ev_nmu e). destruct (ev_mu e m) as [_ ->]. split; [lia|tauto].
  - destruct H2; split; auto.
  - destruct (H0 i) as [h1 h2]; [simpl; auto|]. rewrite (ev_cw e i h1 h2). destruct (ev_bc e b) as (_ & _ & _ & _ & _ & h).
    destruct H1 as (a1 & a2 & a3 & a4 & a5). destruct (h a4) as (h3 & h4 & _). repeat split; auto; try lia; congruence.
  - destruct H3 as (a1 & a2 & a3 & a4). split; [exact a1|]. rewrite (ev_nmu e). split; [apply H0; auto; eapply free_l; eauto|split; [apply H1; auto; eapply free_r; eauto|exact a4]].
  - destruct H3 as (a1 & a2 & a3). split; [exact a1|]. split; [apply H0; auto; eapply free_l; eauto|apply H1; auto; eapply free_r; eauto].
Qed.
Definition over_ev1 o L0 := proj1 (over_ev o L0).
Definition over_ev2 o L0 := proj2 (over_ev o L0).

Lemma good_ev o L0 :
  (forall s, free T w (ids s) -> good w o L0 s -> good w' o L0 s)
  /\ (forall ss, free T w (idss ss) -> goods w o L0 ss -> goods w' o L0 ss).
Proof using e.
  pose proof (ev_ncw e). apply sig_slots_ind; simpl; intros; auto.
  - destruct (H0 i) as [h1 h2]; [simpl; auto|]. rewrite (ev_cw e i h1 h2), (ev_nmu e). destruct (ev_mu e m) as [_ ->]. split; [lia|].
    destruct H1 as (a1 & a2 & a3 & a4 & a5 & a6). repeat split; auto. intros k. apply (ev_sig' e). auto.
  - destruct H2; split; auto.
  - destruct (H0 i) as [h1 h2]; [simpl; auto|]. rewrite (ev_cw e i h1 h2). destruct H1 as (a1 & a2 & a3 & a4 & a5). repeat split; auto; [lia|]. apply (ev_bw' e). auto.
  - destruct H3 as (a1 & a2 & a3). rewrite (ev_nmu e). split; [|split; [apply H1; auto; eapply free_r; eauto|auto]].
    destruct live; [apply H0|apply over_ev1]; auto; eapply free_l; eauto.
  - destruct H3 as (a1 & a2). split; [|apply H1; auto; eapply free_r; eauto].
    destruct live; [apply H0|apply over_ev1]; auto; eapply free_l; eauto.
Qed.
Definition good_ev1 o L0 := proj1 (good_ev o L0).
Definition good_ev2 o L0 := proj2 (good_ev o L0).

Lemma still_ev o :
  (forall s, free T w (ids s) -> still w o s -> still w' o s)
  /\ (forall ss, free T w (idss ss) -> stills w o ss -> stills w' o ss).
Proof using e.
  apply sig_slots_ind; simpl; intros; auto.
  - destruct (H i) as [h1 h2]; [simpl; auto|]. rewrite (ev_cw e i h1 h2). destruct (ev_mu e m) as [_ ->]. auto.
  - destruct H1. split; auto.
  - destruct (H i) as [h1 h2]; [simpl; auto|]. rewrite (ev_cw e i h1 h2). destruct H0 as (a1 & a2 & a3 & a4).
    destruct (ev_bc e b) as (_ & h & _). destruct (h a1) as (k1 & k2 & k3 & k4 & k5). rewrite k2, k4, k5. auto.
  - destruct H2 as (a1 & a2 & a3). split; [intros h; apply H; auto; eapply free_l; eauto|]. split; [apply H0; auto; eapply free_r; eauto|auto].
  - destruct H2 as (a1 & a2). split; [intros h; apply H; auto; eapply free_l; eauto|apply H0; auto; eapply free_r; eauto].
Qed.
Definition still_ev1 o := proj1 (still_ev o).
Definition still_ev2 o := proj2 (still_ev o).

Lemma cur_ev :
  (forall s out, free T w (ids s) -> cur w s out -> cur w' s out)
  /\ (forall ss, free T w (idss ss) -> curs w ss -> curs w' ss).
Proof using e.
  apply sig_slots_ind; simpl; intros; auto.
  - destruct (H i) as [h1 h2]; [simpl; auto|]. rewrite (ev_cw e i h1 h2) in *. destruct (ev_mu e m) as [-> _]. auto.
  - destruct H1 as (a & h1 & h2). exists a. split; auto.
  - destruct H1 as (a & h1 & h2). exists a. split; auto.
  - destruct H1 as (a & h1 & h2). exists a. split; auto.
  - destruct H1 as (h1 & h2). split; auto.
  - destruct (ev_bc e b) as (_ & _ & _ & h1 & h2 & _). destruct H0 as (a1 & a2). split; [lia|].
    intros ->. rewrite h2 by lia. apply a2. lia.
  - destruct H2 as (a1 & a2 & a3). split; [apply H; auto; eapply free_l; eauto|]. split; [apply H0; auto; eapply free_r; eauto|auto].
  - destruct H2 as (a1 & a2). split; [apply H; auto; eapply free_l; eauto|apply H0; auto; eapply free_r; eauto].
Qed.
Definition cur_ev1 := proj1 cur_ev.
Definition cur_ev2 := proj2 cur_ev.

(** Whatever happens to its ChangedWakers. *)
Lemma fresh_ev :
  (forall s, (forall j, In j (ids s) -> j < w_ncw w) -> fresh w s -> fresh w' s)
  /\ (forall ss, (forall j, In j (idss ss) -> j < w_ncw w) -> freshs w ss -> freshs w' ss).
Proof using e.
  apply sig_slots_ind; simpl; intros; auto.
  - destruct (c_changed (w_cw w' i)) eqn:E; auto. apply (ev_flag e) in E; [congruence|]. apply H. simpl. auto.
  - destruct (ev_bc e b) as (_ & h1 & _ & _ & _ & h2). destruct H0 as [-> [h|h]].
    + destruct (h1 h) as (k1 & k2 & k3 & k4 & k5). rewrite k4, k5. auto.
    + destruct (h2 h) as (k1 & k2 & k3). rewrite k1, k2. auto.
  - destruct H2. split; [apply H; auto; intros; apply H1, in_or_app; auto|apply H0; auto; intros; apply H1, in_or_app; auto].
  - destruct H2. split; [apply H; auto; intros; apply H1, in_or_app; auto|apply H0; auto; intros; apply H1, in_or_app; auto].
Qed.
Definition fresh_ev1 := proj1 fresh_ev.
Definition fresh_ev2 := proj2 fresh_ev.
End Ev.

Lemma bc_owner w b : bc_ok w b -> forall j, In j (ids (b_signal (w_bc w b))) -> j < w_ncw w /\ c_owner (w_cw w j) = WNote b.
Proof.
  intros (h1 & h2 & h3 & h4) j hj. destruct (b_live (w_bc w b)).
  - destruct h4. eapply good_owner1; eauto.
  - eapply over_owner1; eauto.
Qed.

(** A Broadcaster that was not polled. *)
Lemma bc_ok_ev o L T w w' b : ev o L T w w' -> same_bc (w_bc w b) (w_bc w' b) ->
  (forall j, j < w_ncw w -> c_owner (w_cw w j) = WNote b -> ~ T j) -> bc_ok w b -> bc_ok w' b.
Proof.
  intros e (e1 & e2 & e3 & e4 & e5) ht h. pose proof (bc_owner _ _ h) as ho. destruct h as (h1 & h2 & h3 & h4). unfold bc_ok. rewrite e1, e2, e3, e4, e5.
  assert (hu : free T w (ids (b_signal (w_bc w b)))) by (intros j hj; destruct (ho j hj); auto).
  split; [exact h1|]. split; [eapply cur_ev1; eauto|]. split; [exact h3|].
  destruct (b_live (w_bc w b)).
  - destruct h4 as [h4 h5]. split; [eapply good_ev1; eauto|]. destruct h5; [left; auto|right]. eapply still_ev1; eauto.
  - eapply over_ev1; eauto.
Qed.

(** A signal with Broadcasters below [L] does not depend on the others. *)
Lemma low_over w o L b x : L <= b -> (forall s, over w o L s -> over (set_bc b x w) o L s) /\ (forall ss, overs w o L ss -> overs (set_bc b x w) o L ss).
Proof.
  intros hb. apply sig_slots_ind; simpl; intros; auto.
  - destruct H0; auto.
  - rewrite fupd_other by lia. auto.
  - destruct H1 as (a1 & a2 & a3 & a4); auto.
  - destruct H1 as (a1 & a2 & a3); auto.
Qed.

Lemma low_good w o L b x : L <= b -> (forall s, good w o L s -> good (set_bc b x w) o L s) /\ (forall ss, goods w o L ss -> goods (set_bc b x w) o L ss).
Proof.
  intros hb. apply sig_slots_ind; simpl; intros; auto.
  - destruct H0; auto.
  - rewrite fupd_other by lia. auto.
  - destruct H1 as (a1 & a2 & a3). split; auto. destruct live; auto. apply low_over; auto.
  - destruct H1 as (a1 & a2). split; auto. destruct live; auto. apply low_over; auto.
Qed.

Lemma low_still w o L b x : L <= b -> (forall s, good w o L s \/ over w o L s -> still w o s -> still (set_bc b x w) o s)
  /\ (forall ss, goods w o L ss \/ overs w o L ss -> stills w o ss -> stills (set_bc b x w) o ss).
Proof.
  intros hb. apply sig_slots_ind; simpl; intros; auto.
  - destruct H1. split; auto. apply H; tauto.
  - rewrite fupd_other by (destruct H; lia). auto.
  - destruct H2 as (a1 & a2 & a3). destruct H1 as [(b1 & b2 & b3)|(b0 & b1 & b2 & b3)].
    + split; [|auto]. intros ->. auto.
    + split; [intros ->; discriminate|auto].
  - destruct H2 as (a1 & a2). destruct H1 as [(b1 & b2)|(b0 & b1 & b2)].
    + split; auto. intros ->. auto.
    + split; [intros ->; discriminate|auto].
Qed.
Definition low_still1 w o L b x e := proj1 (low_still w o L b x e).

Lemma low_cur w o L b x : L <= b -> (forall s out, good w o L s \/ over w o L s -> cur w s out -> cur (set_bc b x w) s out)
  /\ (forall ss, goods w o L ss \/ overs w o L ss -> curs w ss -> curs (set_bc b x w) ss).
Proof.
  intros hb. apply sig_slots_ind; simpl; intros; auto.
  - destruct H1 as (a & h1 & h2). exists a. split; auto.
  - destruct H1 as (a & h1 & h2). exists a. split; auto.
  - destruct H1 as (a & h1 & h2). exists a. split; auto.
  - destruct H1 as (h1 & h2). split; auto. apply H; tauto.
  - rewrite fupd_other by (destruct H; lia). auto.
  - destruct H2 as (a1 & a2 & a3). destruct H1 as [(b1 & b2 & b3)|(b0 & b1 & b2 & b3)]; (split; [|split; auto]); auto.
    destruct live; auto.
  - destruct H2 as (a1 & a2). destruct H1 as [(b1 & b2)|(b0 & b1 & b2)]; split; auto.
    destruct live; auto.
Qed.
Definition low_cur1 w o L b x e := proj1 (low_cur w o L b x e).

Lemma low_bc_ok w b x b' : b' < b -> bc_ok w b' -> bc_ok (set_bc b x w) b'.
Proof.
  intros hb (h1 & h2 & h3 & h4). unfold bc_ok. simpl. rewrite fupd_other by lia.
  split; [exact h1|]. split. { eapply (low_cur w (WNote b') b'); [lia| |exact h2]. destruct (b_live (w_bc w b')); tauto. }
  split; [exact h3|]. destruct (b_live (w_bc w b')).
  - destruct h4 as [h4 h5]. split; [apply low_good; [lia|auto]|]. destruct h5; auto. right. eapply (low_still w (WNote b') b'); [lia| |auto]; auto.
  - apply low_over; [lia|auto].
Qed.

(** ** What is shown *)

Lemma over_fresh w o L : (forall s, over w o L s -> fresh w s) /\ (forall ss, overs w o L ss -> freshs w ss).
Proof. apply sig_slots_ind; simpl; intros; auto; tauto. Qed.

Lemma still_fresh w o L : (forall s, good w o L s -> still w o s -> fresh w s) /\ (forall ss, goods w o L ss -> stills w o ss -> freshs w ss).
Proof.
  apply sig_slots_ind; simpl; intros; auto; try tauto.
  - destruct H1 as (a1 & a2 & a3), H2 as (b1 & b2 & b3). split; auto. destruct live; auto. eapply over_fresh; eauto.
  - destruct H1 as [a1 a2], H2 as [b1 b2]. split; auto. destruct live; auto. eapply over_fresh; eauto.
Qed.

Lemma good_fresh_low w L b : below L w -> b < L -> fresh w (SKid b 0 (b_epoch (w_bc w b)) (fun v => v)) -> fresh w (b_signal (w_bc w b)).
Proof.
  intros hb h [_ hf]. destruct (hb b h) as (k1 & k2 & k3 & k4). destruct (b_live (w_bc w b)).
  - destruct k4 as [g [k4|k4]]; [destruct hf; congruence|]. eapply still_fresh; eauto.
  - eapply over_fresh; eauto.
Qed.

Lemma shows_fresh w L : below L w -> forall o,
  (forall s out, cur w s out -> good w o L s \/ over w o L s -> fresh w s ->
     exists v, out = Some v /\ shows (contents w) (inputs w) (pipe_of s) v)
  /\ (forall ss, curs w ss -> goods w o L ss \/ overs w o L ss -> freshs w ss ->
     exists vs, values ss = Some vs /\ all_show (contents w) (inputs w) (pipes_of ss) vs).
Proof.
  induction L as [L IHL] using lt_wf_ind. intros hbel o. apply sig_slots_ind; simpl; intros; auto.
  - exists (f (u_value (w_mu w m))). split; [auto|constructor].
  - subst taken. exists v. split; [auto|constructor].
  - destruct H0 as (a & h1 & ->). destruct (H a h1 H1 H2) as (v & -> & hv). exists (f v). split; [auto|constructor; auto].
  - destruct H0 as (a & h1 & h2). destruct (H a h1 H1 H2) as (v & -> & hv). destruct h2 as (a0 & h2 & h3 & h4).
    exists (snd (f a0)). split; [auto|econstructor; eauto].
  - destruct H0 as (a & h1 & h2 & ->). destruct (H a h1 H1 H2) as (v & -> & hv). exists (out (test v)). split; [auto|constructor; auto].
  - destruct H0 as (h1 & h2).
    destruct (H h1) as (vs & hv & hs). { tauto. } { auto. }
    exists (f vs). split; [|constructor; auto].
    destruct h2 as [[_ h2]|(vs' & h2 & ->)]; [|congruence].
    assert (ss <> LNil) by tauto. destruct ss; [congruence|]. simpl in hv, h2. inversion h2; subst. discriminate.
  - destruct H as (h1 & h2). destruct H1 as [he hf].
    assert (hb : b < L) by tauto. specialize (h2 he).
    destruct (hbel b hb) as (k1 & k2 & k3 & k4).
    assert (hX : exists v, b_value (w_bc w b) = Some v /\ shows (contents w) (inputs w) (pipe_of (b_signal (w_bc w b))) v).
    { apply (IHL b hb (fun b' h => hbel b' (Nat.lt_trans _ _ _ h hb)) (WNote b)); [exact k2| |].
      - destruct (b_live (w_bc w b)); tauto.
      - apply (good_fresh_low w L b hbel hb). split; auto. }
    destruct hX as (v & hv & hs). exists (f v). rewrite h2, hv. split; [auto|]. constructor. exact hs.
  - destruct H1 as (h1 & h2 & h3). destruct H3 as (f1 & f2).
    destruct (H sel h1) as (a & -> & ha). { destruct H2 as [(b1 & b2 & b3)|(b0 & b1 & b2)]; auto. destruct live; auto. } { auto. }
    destruct (H0 h2) as (vs & hv & hs). { tauto. } { auto. }
    destruct h3 as [h3 h4]. rewrite h4 in hs. inversion hs as [|q qs v vs' hv1 hv2]; subst. inversion hv2; subst.
    exists v. split; [|econstructor; eauto]. destruct ss as [|l v0 s0 [|]]; try discriminate h3. simpl in h3, hv. injection h3 as ->. destruct out; [congruence|discriminate].
  - exists []. split; [auto|constructor].
  - destruct H1 as (h1 & h2). destruct H3 as (f1 & f2).
    destruct (H value h1) as (v & -> & hv).
    { destruct H2 as [[a b]|[a b]]; [|tauto]. destruct live; tauto. } { auto. }
    destruct (H0 h2) as (vs & -> & hvs). { tauto. } { auto. }
    exists (v :: vs). split; [auto|constructor; auto].
Qed.

(** ** Drops *)

(** Changes of ChangedWakers only. *)
Lemma drop_spec l : forall w, let w' := drop_ids l w in
  w_mu w' = w_mu w /\ w_nmu w' = w_nmu w /\ w_ncw w' = w_ncw w /\ w_nbc w' = w_nbc w /\ w_bc w' = w_bc w /\
  w_task w' = w_task w /\ w_nt w' = w_nt w /\
  (forall j, w_cw w' j = if in_dec Nat.eq_dec j l then kill_cw (w_cw w j) else w_cw w j).
Proof.
  unfold drop_ids. induction l as [|i l IH]; intros w; simpl; [repeat split; auto|].
  specialize (IH (set_cw i (kill_cw (w_cw w i)) w)). simpl in IH. destruct IH as (h1 & h2 & h3 & h4 & h5 & h6 & h7 & h8).
  do 7 (split; [assumption|]). intros j. rewrite h8. unfold fupd.
  destruct (Nat.eq_dec i j) as [<-|n].
  - rewrite Nat.eqb_refl. destruct (in_dec Nat.eq_dec i l); reflexivity.
  - destruct (Nat.eqb_spec j i); [congruence|]. destruct (in_dec Nat.eq_dec j l); reflexivity.
Qed.

(** Only ChangedWakers change. *)
Lemma ev_cws o L (T : nat -> Prop) w w' : w_mu w' = w_mu w -> w_nmu w' = w_nmu w -> w_ncw w' = w_ncw w -> w_nbc w' = w_nbc w -> w_bc w' = w_bc w ->
  w_task w' = w_task w -> w_nt w' = w_nt w ->
  (forall j, j < w_ncw w -> c_owner (w_cw w' j) = c_owner (w_cw w j) /\ c_src (w_cw w' j) = c_src (w_cw w j) /\
    (c_waker (w_cw w' j) = c_waker (w_cw w j) \/ c_waker (w_cw w' j) = Some (c_owner (w_cw w j))) /\
    (c_changed (w_cw w' j) = true -> c_changed (w_cw w j) = true) /\ (~ T j -> w_cw w' j = w_cw w j)) -> ev o L T w w'.
Proof.
  intros h1 h2 h3 h4 h5 h6 h7 h8. constructor; rewrite ?h1, ?h3, ?h5; auto using bc_ev_refl; try (intros j hj; apply h8; auto; fail); intros; lia.
Qed.

Lemma ev_drop o w l L (T : nat -> Prop) : (forall j, In j l -> T j) -> ev o L T w (drop_ids l w).
Proof.
  intros hT. destruct (drop_spec l w) as (h1 & h2 & h3 & h4 & h5 & h6 & h7 & h8).
  apply ev_cws; auto. intros j hj. rewrite h8. destruct (in_dec _ j l); simpl; auto 10. repeat split; auto. intros h. destruct h. auto.
Qed.

Lemma over_drop w o L l : (forall s, over w o L s -> over (drop_ids l w) o L s) /\ (forall ss, overs w o L ss -> overs (drop_ids l w) o L ss).
Proof.
  destruct (drop_spec l w) as (h1 & h2 & h3 & h4 & h5 & h6 & h7 & h8).
  apply sig_slots_ind; simpl; intros; auto.
  - rewrite h1, h2, h3, h8. destruct (in_dec _ i l); exact H.
  - destruct H0; auto.
  - rewrite h3, h5, h8. destruct (in_dec _ i l); exact H.
  - destruct H1 as (a1 & a2 & a3 & a4). rewrite h2. auto.
  - destruct H1 as (a1 & a2 & a3); auto.
Qed.

Lemma cur_drop w l : (forall s out, cur w s out -> cur (drop_ids l w) s out) /\ (forall ss, curs w ss -> curs (drop_ids l w) ss).
Proof.
  destruct (drop_spec l w) as (h1 & h2 & h3 & h4 & h5 & h6 & h7 & h8).
  apply sig_slots_ind; simpl; intros; auto.
  - rewrite h1. apply H. rewrite <- H0, h8. destruct (in_dec _ i l); reflexivity.
  - destruct H0 as (a & k1 & k2). exists a. split; auto.
  - destruct H0 as (a & k1 & k2). exists a. split; auto.
  - destruct H0 as (a & k1 & k2). exists a. split; auto.
  - destruct H0 as (k1 & k2). split; auto.
  - rewrite h5. auto.
  - destruct H1 as (a1 & a2 & a3). auto.
  - destruct H1 as (a1 & a2). auto.
Qed.

Lemma ev_set_cw o w i c L (T : nat -> Prop) : c_owner c = c_owner (w_cw w i) -> c_src c = c_src (w_cw w i) ->
  c_waker c = c_waker (w_cw w i) \/ c_waker c = Some (c_owner (w_cw w i)) -> (c_changed c = true -> c_changed (w_cw w i) = true) -> T i -> ev o L T w (set_cw i c w).
Proof.
  intros h h1 h2 h3 hT. apply ev_cws; auto. intros j hj. simpl. unfold fupd. destruct (Nat.eqb_spec j i) as [->|]; auto 10. repeat split; auto. tauto.
Qed.

(** Broadcasters are not affected if only ChangedWakers of a higher owner change. *)
Lemma below_own L T w w' o : lev o L -> below L w -> ev o L T w w' -> (forall b, b < L -> same_bc (w_bc w b) (w_bc w' b)) ->
  (forall j, j < w_ncw w -> T j -> c_owner (w_cw w j) = o) -> below L w'.
Proof.
  intros hl hb e he ht b h. eapply bc_ok_ev; eauto.
  intros j hj ho hT. apply ht in hT; auto. rewrite hT in ho. apply hl in ho. lia.
Qed.

Lemma below_drop L w o l : lev o L -> below L w -> (forall j, In j l -> c_owner (w_cw w j) = o) -> below L (drop_ids l w).
Proof.
  intros hl hb ho. eapply (below_own L (fun j => In j l)); [exact hl|exact hb|apply ev_drop; auto| |auto].
  intros b _. destruct (drop_spec l w) as (_ & _ & _ & _ & -> & _). apply same_bc_refl.
Qed.

(** ** Making signals *)
Definition new_mut o (m : nat) w : world V :=
  let w1 := new_cw o (FMut m) w in
  if u_senders (w_mu w1 m) =? 0 then w1 else set_mu m (mkMu (u_value (w_mu w1 m)) (u_senders (w_mu w1 m)) (u_signals (w_mu w1 m) ++ [w_ncw w])) w1.

Lemma ev_new_mut o L w m : m < w_nmu w ->
  let w' := new_mut o m w in
  ev o L (fun _ => False) w w' /\ w_ncw w' = S (w_ncw w) /\ w_cw w' = fupd (w_ncw w) (mkCw true None true o (FMut m)) (w_cw w)
      /\ (u_senders (w_mu w' m) <> 0 -> In (w_ncw w) (u_signals (w_mu w' m))) /\ w_bc w' = w_bc w.
Proof.
  intros hm. unfold new_mut. set (w1 := new_cw o (FMut m) w). cbv zeta. set (w' := if _ =? 0 then _ else _).
  assert (h1 : w_ncw w' = S (w_ncw w)) by (unfold w'; destruct (_ =? 0); reflexivity).
  assert (h2 : w_cw w' = fupd (w_ncw w) (mkCw true None true o (FMut m)) (w_cw w)) by (unfold w'; destruct (_ =? 0); reflexivity).
  assert (h3 : w_bc w' = w_bc w) by (unfold w'; destruct (_ =? 0); reflexivity).
  assert (hv : forall m0, u_value (w_mu w' m0) = u_value (w_mu w m0) /\ u_senders (w_mu w' m0) = u_senders (w_mu w m0)).
  { intros m0. unfold w'. destruct (_ =? 0); [auto|]. simpl. unfold fupd. destruct (Nat.eqb_spec m0 m) as [->|]; auto. }
  assert (hs : forall m0 i, In i (u_signals (w_mu w' m0)) -> In i (u_signals (w_mu w m0)) \/ (i = w_ncw w /\ m0 = m)).
  { intros m0 i. unfold w'. destruct (_ =? 0); [auto|]. simpl. unfold fupd. destruct (Nat.eqb_spec m0 m) as [->|]; auto. simpl. intros h. apply in_app_or in h as [h|[<-|[]]]; auto. }
  assert (hs' : forall m0 i, In i (u_signals (w_mu w m0)) -> In i (u_signals (w_mu w' m0))).
  { intros m0 i h. unfold w'. destruct (_ =? 0); [auto|]. simpl. unfold fupd. destruct (Nat.eqb_spec m0 m) as [->|]; auto. simpl. apply in_or_app. auto. }
  split; [|split; [exact h1|split; [exact h2|split; [|exact h3]]]].
  - constructor; rewrite ?h1, ?h2, ?h3; auto using bc_ev_refl; try (unfold w'; destruct (_ =? 0); reflexivity); try (intros j hj; rewrite fupd_other by lia; auto; fail).
    + intros m0 i h. destruct (hs m0 i h) as [|[-> ->]]; auto. right. rewrite fupd_same. split; [lia|auto].
    + intros j hj. assert (j = w_ncw w) as -> by lia. rewrite fupd_same. simpl. auto.
  - unfold w'. destruct (Nat.eqb_spec (u_senders (w_mu w1 m)) 0) as [E|E]; simpl; [intros h; destruct h; auto|]. rewrite fupd_same. simpl. intros _. apply in_or_app. simpl. auto.
Qed.

Lemma ev_new_kid o L w b : b < L -> lev o L ->
  let w1 := new_cw o (FBc b) w in
  ev o L (fun _ => False) w (set_bc b (wakers_bc (b_wakers (w_bc w1 b) ++ [w_ncw w]) (w_bc w1 b)) w1).
Proof.
  intros hb hl w1. constructor; simpl; auto; try (intros j hj; rewrite fupd_other by lia; auto; fail).
  - intros j hj. assert (j = w_ncw w) as -> by lia. rewrite fupd_same. simpl. auto.
  - intros b0 i. unfold fupd at 1. destruct (Nat.eqb_spec b0 b) as [->|]; auto. simpl. intros h. apply in_app_or in h as [h|[<-|[]]]; auto.
    right. rewrite fupd_same. simpl. split; [lia|]. split; [auto|]. intros b' h. apply hl in h. lia.
  - intros b0 i. unfold fupd. destruct (Nat.eqb_spec b0 b) as [->|]; auto. simpl. intros h. apply in_or_app. auto.
  - intros b0. unfold fupd. destruct (Nat.eqb_spec b0 b) as [->|]; [|apply bc_ev_refl]. apply same_bc_ev. repeat split.
Qed.

Definition epochs L w : Prop := forall b, b < L -> isnone (b_value (w_bc w b)) = (b_epoch (w_bc w b) =? 0).

Definition same_bcs w w' : Prop := forall b, same_bc (w_bc w b) (w_bc w' b).

Lemma build_ok o L : lev o L -> (forall p w s w', epochs L w -> closed (w_nmu w) L p -> build o p w = (s, w') ->
    ev o L (fun _ => False) w w' /\ same_bcs w w' /\ NoDup (ids s) /\ (forall j, In j (ids s) -> w_ncw w <= j < w_ncw w') /\ good w' o L s /\ cur w' s None /\ pipe_of s = p)
  /\ (forall ps w ss w', epochs L w -> closeds (w_nmu w) L ps -> builds o ps w = (ss, w') ->
    ev o L (fun _ => False) w w' /\ same_bcs w w' /\ NoDup (idss ss) /\ (forall j, In j (idss ss) -> w_ncw w <= j < w_ncw w') /\ goods w' o L ss /\ curs w' ss /\ pipes_of ss = ps
    /\ Forall (fun v => v = None) (vals ss)).
Proof.
  intros hl. apply pipe_pipes_ind.
  - intros m f w s w' hb hc H. simpl in hc.
    change ((SMut (w_ncw w) m f, new_mut o m w) = (s, w')) in H.
    destruct (ev_new_mut o L w m hc) as (g & h1 & h2 & h3 & h4). injection H as <- E. rewrite E in *.
    split; [exact g|]. split; [intros b; rewrite h4; apply same_bc_refl|]. split; [constructor; [simpl; tauto|constructor]|].
    split; [simpl; intros j [<-|[]]; lia|]. split; [|split; [|reflexivity]]; simpl; rewrite h2, fupd_same; simpl; [|discriminate].
    rewrite (ev_nmu g). repeat split; auto. lia.
  - intros v w s w' hb hc H. simpl in H. injection H as <- <-. split; [apply ev_refl|]. split; [intros b; apply same_bc_refl|]. split; [constructor|]. split; [simpl; tauto|]. simpl. auto.
  - intros f p IH w s w' hb hc H. simpl in H. destruct (build o p w) as [s1 w1] eqn:E. injection H as <- <-.
    destruct (IH _ _ _ hb hc E) as (a1 & a0 & a2 & a3 & a4 & a5 & a6). do 5 (split; [assumption|]). split; [exists None; auto|]. change (PMap f (pipe_of s1) = PMap f p). congruence.
  - intros eqb f p IH w s w' hb hc H. simpl in H. destruct (build o p w) as [s1 w1] eqn:E. injection H as <- <-.
    destruct (IH _ _ _ hb hc E) as (a1 & a0 & a2 & a3 & a4 & a5 & a6). do 5 (split; [assumption|]). split; [exists None; auto|]. change (PDedupe eqb f (pipe_of s1) = PDedupe eqb f p). congruence.
  - intros test f p IH w s w' hb hc H. simpl in H. destruct (build o p w) as [s1 w1] eqn:E. injection H as <- <-.
    destruct (IH _ _ _ hb hc E) as (a1 & a0 & a2 & a3 & a4 & a5 & a6). do 5 (split; [assumption|]). split; [exists None; auto|]. change (PEq test f (pipe_of s1) = PEq test f p). congruence.
  - intros f ps IH w s w' hb hc H. change ((let '(ss, w2) := builds o ps w in (SRef f ss, w2)) = (s, w')) in H.
    destruct (builds o ps w) as [ss w1] eqn:E. injection H as <- <-.
    destruct hc as [hne hc'].
    destruct (IH _ _ _ hb hc' E) as (a1 & a0 & a2 & a3 & a4 & a5 & a6 & a7). do 4 (split; [assumption|]).
    split; [split; [intros ->; subst ps; apply hne; reflexivity|exact a4]|]. split; [split; [exact a5|left; auto]|]. change (PRef f (pipes_of ss) = PRef f ps). congruence.
  - intros b f w s w' hb hc H. simpl in hc. pose proof (ev_new_kid o L w b hc hl) as g. simpl in H, g. injection H as <- <-.
    split; [exact g|]. split. { intros b0. simpl. unfold fupd. destruct (Nat.eqb_spec b0 b) as [->|]; repeat split. } split; [constructor; [simpl; tauto|constructor]|].
    split; [simpl; intros j [<-|[]]; lia|]. split; [|split; [|reflexivity]]; simpl; rewrite ?fupd_same; simpl.
    + repeat split; auto. apply in_or_app. simpl. auto.
    + split; [lia|]. intros he. specialize (hb b hc). rewrite <- he in hb. simpl in hb. destruct (b_value (w_bc w b)); [discriminate hb|reflexivity].
  - intros f hf p IH w s w' hb hc H. simpl in H. destruct (build o p w) as [s1 w1] eqn:E. injection H as <- <-. destruct hc as [hc1 hc2].
    destruct (IH _ _ _ hb hc1 E) as (a1 & a0 & a2 & a3 & a4 & a5 & a6). split; [assumption|]. split; [assumption|].
    change (ids (SSwitch f true None s1 LNil)) with (ids s1 ++ []). rewrite app_nil_r. split; [assumption|]. split; [assumption|].
    split. { simpl. split; [auto|]. split; [exact I|]. intros a. rewrite (ev_nmu a1). auto. }
    split. { simpl. auto. } change (PSwitch f (pipe_of s1) = PSwitch f p). congruence.
  - intros w ss w' hb hc H. simpl in H. injection H as <- <-. split; [apply ev_refl|]. split; [intros b; apply same_bc_refl|]. split; [constructor|]. split; [simpl; tauto|]. simpl. auto.
  - intros p IHp ps IHps w ss w' hb hc H. destruct hc as [hc1 hc2].
    change ((let '(s, w2) := build o p w in let '(ss, w3) := builds o ps w2 in (LCons true None s ss, w3)) = (ss, w')) in H.
    destruct (build o p w) as [s1 w1] eqn:E1. destruct (builds o ps w1) as [ss1 w2] eqn:E2. injection H as <- <-.
    destruct (IHp _ _ _ hb hc1 E1) as (a1 & a0 & a2 & a3 & a4 & a5 & a6).
    destruct (IHps w1 ss1 w2) as (b1 & b0 & b2 & b3 & b4 & b5 & b6 & b7); auto.
    { intros b h. destruct (a0 b) as (c1 & c2 & c3 & c4 & c5). rewrite c3, c4. auto. }
    { rewrite (ev_nmu a1). exact hc2. }
    split; [eapply ev_trans; eauto|]. split; [intros b; eapply same_bc_trans; eauto|]. rewrite idss_cons, pipes_cons.
    pose proof (ev_ncw a1) as l1. pose proof (ev_ncw b1) as l2.
    split. { apply nodup_app; auto. intros j h1 h2. specialize (a3 j h1). specialize (b3 j h2). lia. }
    split. { intros j h. apply in_app_or in h as [h|h]; [specialize (a3 j h)|specialize (b3 j h)]; lia. }
    assert (fr : free (fun _ => False) w1 (ids s1)) by (intros j hj; split; [apply a3; auto|auto]).
    split. { split; [|exact b4]. eapply (good_ev1 b1); auto. }
    split. { split; [|exact b5]. eapply (cur_ev1 b1); auto. }
    split; [congruence|]. constructor; auto.
Qed.

Lemma below_epochs L w : below L w -> epochs L w.
Proof. intros h b hb. apply h. auto. Qed.

(** ** Polls *)

Definition news (w : world V) (l l' : list nat) : Prop := forall j, In j l' -> In j l \/ w_ncw w <= j.

Definition after_poll o L w s out (x : res (sig V * world V * poll (option V))) : Prop :=
  match x with
  | OutOfFuel => True
  | Panic => False
  | Ok (s', w', r) =>
      ev o L (touch L w (ids s)) w w' /\ below L w' /\ news w (ids s) (ids s') /\ NoDup (ids s') /\ pipe_of s' = pipe_of s /\
      fresh w' s' /\ (fresh w s -> match r with Ready (Some _) => False | _ => True end) /\
      match r with
      | Pending => good w' o L s' /\ still w' o s' /\ cur w' s' out
      | Ready (Some v) => good w' o L s' /\ cur w' s' (Some v)
      | Ready None => over w' o L s' /\ cur w' s' out
      end
  end.

Definition after_slots o L w ss (x : res (slots V * world V * bool * bool)) : Prop :=
  match x with
  | OutOfFuel => True
  | Panic => False
  | Ok (ss', w', done, changed) =>
      ev o L (touch L w (idss ss)) w w' /\ below L w' /\ news w (idss ss) (idss ss') /\ NoDup (idss ss') /\ pipes_of ss' = pipes_of ss /\
      freshs w' ss' /\ (freshs w ss -> changed = false) /\
      goods w' o L ss' /\ curs w' ss' /\ (exists vs, values ss' = Some vs) /\
      (changed = false -> stills w' o ss' /\ vals ss' = vals ss) /\ (if done then overs w' o L ss' else some_live ss')
  end.

Definition after_drain o L w s (ch : bool) (v : option V) (x : res (sig V * world V * bool * bool * option V)) : Prop :=
  match x with
  | OutOfFuel => True
  | Panic => False
  | Ok (s', w', live, ch', v') =>
      ev o L (touch L w (ids s)) w w' /\ below L w' /\ news w (ids s) (ids s') /\ NoDup (ids s') /\ pipe_of s' = pipe_of s /\
      cur w' s' v' /\ (ch' = false -> ch = false /\ v' = v) /\
      (if live then good w' o L s' /\ still w' o s' else over w' o L s')
  end.

Lemma values_vals ss ss' : vals ss = vals ss' -> values ss = values ss'.
Proof.
  revert ss'. induction ss as [|l v s ss IH]; intros [|l' v' s' ss']; simpl; intros H; try discriminate; auto.
  injection H as -> H. rewrite (IH _ H). reflexivity.
Qed.

Definition poll_ok n := forall o s w L out, lev o L -> below L w -> good w o L s -> NoDup (ids s) -> cur w s out ->
  after_poll o L w s out (poll_sig n o s w).
Definition slots_ok n := forall o ss w L, lev o L -> below L w -> goods w o L ss -> NoDup (idss ss) -> curs w ss ->
  after_slots o L w ss (poll_slots n o ss w).
Definition drain_ok n := forall o s w L ch v, lev o L -> below L w -> good w o L s -> NoDup (ids s) -> cur w s v ->
  after_drain o L w s ch v (drain n o s ch v w).

(** A second poll after a first one. *)
Lemma ev_seq o L w w1 w2 l l' : ev o L (touch L w l) w w1 -> news w l l' -> ev o L (touch L w1 l') w1 w2 -> ev o L (touch L w l) w w2.
Proof.
  intros e1 hn e2. eapply ev_trans; [exact e1|exact e2|auto|]. intros j hj h. eapply touch_after; [exact e1|exact hj| |exact h].
  intros h'. destruct (hn j h'); [auto|lia].
Qed.

Lemma news_refl w l : news w l l.
Proof. intros j h. auto. Qed.

Lemma news_seq w w1 l l1 l2 : w_ncw w <= w_ncw w1 -> news w l l1 -> news w1 l1 l2 -> news w l l2.
Proof. intros h h1 h2 j hj. destruct (h2 j hj) as [k|k]; [auto|right; lia]. Qed.

Lemma news_app w w1 l l1 k k1 : w_ncw w <= w_ncw w1 -> news w l l1 -> news w1 k k1 -> news w (l ++ k) (l1 ++ k1).
Proof.
  intros h h1 h2 j hj. apply in_app_or in hj as [hj|hj]; [destruct (h1 j hj)|destruct (h2 j hj)]; auto.
  - left. apply in_or_app. auto.
  - left. apply in_or_app. auto.
  - right. lia.
Qed.

(** The end of an input. *)
Lemma end_drop o L w w' s s' out : lev o L -> below L w' -> ev o L (touch L w (ids s)) w w' -> news w (ids s) (ids s') -> over w' o L s' -> cur w' s' out ->
  ev o L (touch L w (ids s)) w (drop_sig s' w') /\ below L (drop_sig s' w') /\ over (drop_sig s' w') o L s' /\ cur (drop_sig s' w') s' out /\ fresh (drop_sig s' w') s'.
Proof.
  intros hl hb e hi a1 a2. unfold drop_sig.
  assert (a3 : over (drop_ids (ids s') w') o L s') by (apply over_drop; auto).
  split. { eapply ev_trans; [exact e|apply (ev_drop o w' (ids s') L (fun j => In j (ids s'))); auto|auto|]. intros j hj h. left. destruct (hi j h); [auto|lia]. }
  split. { eapply below_drop; eauto. intros j hj. eapply over_owner1; eauto. }
  split; [auto|]. split; [apply cur_drop; auto|]. eapply over_fresh; eauto.
Qed.

Lemma drain_ok_S n : poll_ok n -> drain_ok n -> drain_ok (S n).
Proof.
  intros IHp IHd o s w L ch v hl hb hg hn hc. specialize (IHp o s w L v hl hb hg hn hc). simpl.
  destruct (poll_sig n o s w) as [| |[[s' w'] r]]; simpl in *; auto.
  destruct IHp as (e & hb' & hi & hn' & hp & hf & hf' & hr). destruct r as [|[x|]].
  - simpl. destruct hr as (a1 & a2 & a3). repeat (split; [assumption|]). split; [auto|]. auto.
  - destruct hr as (a1 & a2).
    specialize (IHd o s' w' L true (Some x) hl hb' a1 hn' a2).
    destruct (drain n o s' true (Some x) w') as [| |[[[[s2 w2] lv] ch2] v2]]; simpl in *; auto.
    destruct IHd as (e2 & hb2 & hi2 & hn2 & hp2 & hc2 & h3 & h4).
    split; [eapply ev_seq; eauto|]. split; [auto|]. split; [eapply (news_seq w w'); eauto; apply e|]. split; [auto|]. split; [congruence|]. split; [auto|]. split; [|auto].
    intros h. destruct (h3 h). discriminate.
  - simpl. destruct hr as (a1 & a2). destruct (end_drop o L w w' s s' v hl hb' e hi a1 a2) as (b1 & b2 & b3 & b4 & b5).
    split; [auto|]. split; [auto|]. split; [exact hi|]. split; [auto|]. split; [auto|]. split; [auto|]. split; [auto|]. auto.
Qed.

Lemma slots_ok_S n : poll_ok n -> slots_ok n -> slots_ok (S n).
Proof.
  intros IHp IHs o ss w L hl hb hg hn hc. destruct ss as [|live v s ss]; simpl.
  { split; [apply ev_refl|]. split; [auto|]. split; [apply news_refl|]. split; [constructor|]. split; [auto|]. split; [exact I|]. split; [auto|]. split; [exact I|]. split; [exact I|].
    split; [exists []; auto|]. split; [intros _; split; [exact I|auto]|exact I]. }
  simpl in hg, hn, hc. destruct hg as [hg1 hg2]. destruct hc as [hc1 hc2].
  apply nodup_app_inv in hn as (hn1 & hn2 & dis).
  assert (own1 : forall j, In j (ids s) -> j < w_ncw w /\ c_owner (w_cw w j) = o) by (destruct live; [eapply good_owner1|eapply over_owner1]; eauto).
  pose proof (good_owner2 w o L ss hg2) as own2.
  (* the first input *)
  set (first := if live then _ else _).
  assert (F : match first with
    | OutOfFuel => True | Panic => False
    | Ok (LCons live' v' s' LNil, w', done, changed) =>
        ev o L (touch L w (ids s)) w w' /\ below L w' /\ news w (ids s) (ids s') /\ NoDup (ids s') /\ pipe_of s' = pipe_of s /\
        fresh w' s' /\ (fresh w s -> changed = false) /\
        (if live' then good w' o L s' else over w' o L s') /\ cur w' s' v' /\ v' <> None /\
        (changed = false -> v' = v /\ (live' = true -> still w' o s')) /\ live' = negb done
    | _ => False end).
  { unfold first. destruct live.
    - specialize (IHp o s w L v hl hb hg1 hn1 hc1).
      destruct (poll_sig n o s w) as [| |[[s' w'] r]]; simpl in *; auto.
      destruct IHp as (e & hb' & hi & hn' & hp & hf & hf' & hr). destruct r as [|[x|]].
      + destruct hr as (a1 & a2 & a3). repeat (split; [assumption|]). split; [auto|]. split; [auto|]. split; [auto|]. split; [|auto].
        destruct (proj1 (shows_fresh w' L hb' o) s' v a3 (or_introl a1) hf) as (y & -> & _). discriminate.
      + destruct hr as (a1 & a2). repeat (split; [assumption|]). split; [|split; [auto|split; [auto|split; [discriminate|split; [discriminate|auto]]]]]. intros h. destruct (hf' h).
      + destruct hr as (a1 & a2). destruct (end_drop o L w w' s s' v hl hb' e hi a1 a2) as (b1 & b2 & b3 & b4 & b5).
        split; [auto|]. split; [auto|]. split; [exact hi|]. repeat (split; [auto; fail|]). split; [|split; [split; [auto|discriminate]|auto]].
        destruct (proj1 (shows_fresh w' L hb' o) s' v a2 (or_intror a1) hf) as (y & -> & _). discriminate.
    - simpl. pose proof (proj1 (over_fresh w o L) s hg1) as hf. split; [apply ev_refl|]. split; [auto|]. split; [apply news_refl|]. repeat (split; [auto; fail|]). split.
      + destruct (proj1 (shows_fresh w L hb o) s v hc1 (or_intror hg1) hf) as (y & -> & _). discriminate.
      + split; [split; [auto|discriminate]|auto]. }
  destruct first as [| |[[[[|live' v' s' [|]] w'] done] changed]]; simpl in *; auto; try tauto.
  destruct F as (e & hb' & hi & hn1' & hp & hf & hf' & f1 & f2 & f3 & f4 & f5).
  (* the others are not touched by it *)
  assert (un : free (touch L w (ids s)) w (idss ss)).
  { intros j hj. destruct (own2 j hj) as [ho1 ho2]. split; [auto|]. intros [h|(b & h1 & h2 & _)]; [eauto|].
    rewrite h2 in ho2. symmetry in ho2. apply hl in ho2. lia. }
  assert (g2 : goods w' o L ss) by (eapply (good_ev2 e); eauto).
  assert (c2 : curs w' ss) by (eapply (cur_ev2 e); eauto).
  specialize (IHs o ss w' L hl hb' g2 hn2 c2).
  destruct (poll_slots n o ss w') as [| |[[[ss' w2] done'] changed']]; simpl in *; auto.
  destruct IHs as (e2 & hb2 & hi2 & hn2' & hp2 & hfs & hfs' & g3 & c3 & (vs & hv) & h3 & h4).
  assert (own1' : forall j, In j (ids s') -> j < w_ncw w' /\ c_owner (w_cw w' j) = o) by (destruct live'; [eapply good_owner1|eapply over_owner1]; eauto).
  assert (un' : free (touch L w' (idss ss)) w' (ids s')).
  { intros j hj. destruct (own1' j hj) as [ho1 ho2]. split; [auto|]. intros [h|(b & h1 & h2 & _)].
    - destruct (hi j hj) as [k|k]; [eauto|]. apply own2 in h. lia.
    - rewrite h2 in ho2. symmetry in ho2. apply hl in ho2. lia. }
  split. { eapply ev_trans; [exact e|exact e2| |].
    - intros j hj h. eapply touch_mono; [|exact h]. intros; apply in_or_app; auto.
    - intros j hj h. eapply touch_after; [exact e|exact hj| |exact h]. intros; apply in_or_app; auto. }
  split; [auto|]. split; [eapply (news_app w w'); eauto; apply e|].
  split. { apply nodup_app; auto. intros j k1 k2. pose proof (own1' j k1). destruct (hi2 j k2) as [k|k]; [|lia]. destruct (hi j k1) as [k'|k']; [eauto|]. apply own2 in k. lia. }
  split; [congruence|].
  split. { split; [|exact hfs]. apply (fresh_ev1 e2); auto. intros j hj. apply own1'. auto. }
  split. { intros [k1 k2]. rewrite (hf' k1). simpl. apply hfs'. apply (fresh_ev2 e); auto. intros j hj. apply own2. auto. }
  split. { split; [|auto]. destruct live'; [eapply (good_ev1 e2)|eapply (over_ev1 e2)]; eauto. }
  split. { split; [|auto]. eapply (cur_ev1 e2); eauto. }
  split. { destruct v' as [y|]; [|congruence]. rewrite hv. eauto. }
  split.
  - intros hch. apply orb_false_iff in hch as [hch1 hch2]. destruct (f4 hch1) as [-> k]. destruct (h3 hch2) as [k1 k2].
    split; [|congruence]. split; [|auto]. intros hlv. eapply (still_ev1 e2); eauto.
  - subst live'. destruct done; simpl in *; [|auto]. destruct done'; [|auto]. split; [auto|]. split; [|auto]. eapply (over_ev1 e2); eauto.
Qed.

Lemma bc_ev_unchanged x : bc_ev x (flag_bc false x).
Proof.
  unfold bc_ev, same_bc, flag_bc. destruct x; simpl. repeat split; auto; try discriminate.
Qed.

(** The end of a poll of a child, after the Broadcaster was polled. *)
Lemma kid_after o L w w2 b i e f out : lev o L -> below L w2 -> ev o L (touch L w [i]) w w2 ->
  good w2 o L (SKid b i e f) -> cur w2 (SKid b i e f) out -> b_changed (w_bc w2 b) = false -> (fresh w (SKid b i e f) -> b_epoch (w_bc w2 b) = e) ->
  after_poll o L w (SKid b i e f) out
    (let x := w_bc w2 b in
     if b_epoch x =? e then
       if b_live x then Ok (SKid b i e f, set_cw i (arm_cw (Some o) (w_cw w2 i)) w2, Pending)
       else Ok (SKid b i e f, w2, Ready None)
     else match b_value x with
          | Some v => Ok (SKid b i (b_epoch x) f, w2, Ready (Some (f v)))
          | None => Panic
          end).
Proof.
  intros hl hb he hg hc hf hfr. pose proof hg as hg0. destruct hg as (g1 & g2 & g3 & g4 & g5). pose proof hc as hc0. destruct hc as (c1 & c2).
  assert (nd : NoDup [i]) by (constructor; [simpl; tauto|constructor]).
  cbv zeta. destruct (Nat.eqb_spec (b_epoch (w_bc w2 b)) e) as [E|E]; [destruct (b_live (w_bc w2 b)) eqn:El|].
  - assert (e2 : ev o L (fun j => j = i) w2 (set_cw i (arm_cw (Some o) (w_cw w2 i)) w2)) by (apply ev_set_cw; simpl; rewrite ?g2; auto).
    split. { eapply ev_trans; [exact he|exact e2|auto|]. intros j _ ->. left. simpl. auto. }
    split. { eapply below_own; [exact hl|exact hb|exact e2|intros; apply same_bc_refl|]. intros j _ ->. exact g2. }
    split; [apply news_refl|]. split; [exact nd|]. split; [reflexivity|]. split; [simpl; auto|]. split; [auto|]. split; [|split].
    + simpl. rewrite fupd_same. simpl. auto.
    + simpl. rewrite fupd_same. simpl. auto.
    + exact hc0.
  - split; [exact he|]. split; [exact hb|]. split; [apply news_refl|]. split; [exact nd|]. split; [reflexivity|]. split; [simpl; auto|]. split; [auto|]. split; [|exact hc0].
    simpl. auto.
  - destruct (hb b g3) as (_ & _ & h3 & _). destruct (b_value (w_bc w2 b)) as [v|] eqn:Ev.
    + split; [exact he|]. split; [exact hb|]. split; [apply news_refl|]. split; [exact nd|]. split; [reflexivity|]. split; [simpl; auto|]. split; [intros h; destruct E; auto|]. split; [exact hg0|].
      simpl. split; [auto|]. intros _. rewrite Ev. reflexivity.
    + simpl in h3. symmetry in h3. apply Nat.eqb_eq in h3. rewrite h3 in *. lia.
Qed.

(** flatten: the outer signal *)
Lemma switch_first n o f live sel s ss w L out : poll_ok n -> lev o L -> below L w -> good w o L (SSwitch f live sel s ss) -> NoDup (ids s ++ idss ss) ->
  cur w (SSwitch f live sel s ss) out ->
  match (if live then
           match poll_sig n o s w with
           | Ok (s, w, Ready (Some a)) => let '(inner, w) := build o (f a) w in Ok (true, Some a, s, LCons true None inner LNil, drop_ids (idss ss) w)
           | Ok (s, w, Ready None) => Ok (false, sel, s, ss, drop_sig s w)
           | Ok (s, w, Pending) => Ok (true, sel, s, ss, w)
           | Panic => Panic | OutOfFuel => OutOfFuel
           end
         else Ok (false, sel, s, ss, w)) with
  | OutOfFuel => True
  | Panic => False
  | Ok (live', sel', s', ss', w') =>
      ev o L (touch L w (ids s ++ idss ss)) w w' /\ below L w' /\ news w (ids s ++ idss ss) (ids s' ++ idss ss') /\ NoDup (ids s' ++ idss ss') /\
      pipe_of s' = pipe_of s /\ fresh w' s' /\ (if live' then good w' o L s' else over w' o L s') /\ goods w' o L ss' /\ cur w' s' sel' /\ curs w' ss' /\
      ((ss' = ss /\ sel' = sel /\ (live' = true -> still w' o s')) \/
       (exists a inner, sel' = Some a /\ ss' = LCons true None inner LNil /\ pipe_of inner = f a /\ ~ fresh w s))
  end.
Proof.
  intros IHp hl hb hg hn hc. simpl in hg, hc. destruct hg as (hg1 & hg2 & hcl). destruct hc as (hc1 & hc2 & hc3).
  pose proof (good_owner2 w o L ss hg2) as own2. pose proof hn as hn0. apply nodup_app_inv in hn as (hn1 & hn2 & dis).
  destruct live.
  2: { split; [apply ev_refl|]. split; [auto|]. split; [apply news_refl|]. split; [auto|]. split; [auto|]. split; [eapply over_fresh; eauto|]. repeat (split; [auto; fail|]).
       left. split; [auto|]. split; [auto|discriminate]. }
  specialize (IHp o s w L sel hl hb hg1 hn1 hc1).
  destruct (poll_sig n o s w) as [| |[[s1 w1] r]]; simpl in IHp; auto.
  destruct IHp as (e & hb1 & hi & hn1' & hp & hf & hf' & hr).
  assert (un : free (touch L w (ids s)) w (idss ss)).
  { intros j hj. destruct (own2 j hj) as [ho1 ho2]. split; [auto|]. intros [h|(b & h1 & h2 & _)]; [eauto|].
    rewrite h2 in ho2. symmetry in ho2. apply hl in ho2. lia. }
  pose proof (good_ev2 e o L ss un hg2) as g2. pose proof (cur_ev2 e ss un hc2) as c2. pose proof (ev_ncw e) as l1.
  assert (dis1 : forall j, In j (ids s1) -> In j (idss ss) -> False).
  { intros j k1 k2. destruct (hi j k1) as [k|k]; [eauto|]. apply own2 in k2. lia. }
  assert (E : ev o L (touch L w (ids s ++ idss ss)) w w1).
  { eapply ev_weak; [exact e|]. intros j _ h. eapply touch_mono; [|exact h]. intros; apply in_or_app; auto. }
  assert (hi' : news w (ids s ++ idss ss) (ids s1 ++ idss ss)).
  { intros j h. apply in_app_or in h as [h|h]; [destruct (hi j h); auto|]; left; apply in_or_app; auto. }
  destruct r as [|[a|]].
  - destruct hr as (a1 & a2 & a3). split; [auto|]. split; [auto|]. split; [auto|]. split; [apply nodup_app; auto|]. repeat (split; [auto; fail|]). auto.
  - destruct hr as (a1 & a2).
    destruct (build o (f a) w1) as [inner w2] eqn:Eb.
    destruct (proj1 (build_ok o L hl) (f a) w1 inner w2 (below_epochs _ _ hb1) ltac:(rewrite (ev_nmu e); auto) Eb) as (e2 & sb & nd & rg & gi & ci & pi).
    pose proof (ev_ncw e2) as l2.
    assert (own1 : forall j, In j (ids s1) -> j < w_ncw w1 /\ c_owner (w_cw w1 j) = o) by (eapply good_owner1; eauto).
    assert (fr : free (fun _ => False) w1 (ids s1)) by (intros j hj; split; [apply own1; auto|auto]).
    pose proof (ev_drop o w2 (idss ss) L (fun j => In j (idss ss)) (fun j h => h)) as e3.
    assert (hb2 : below L w2). { eapply (below_own L (fun _ => False)); [exact hl|exact hb1|exact e2|intros b _; apply sb|intros j _ []]. }
    assert (fr2 : free (fun j => In j (idss ss)) w2 (ids s1)) by (intros j hj; split; [apply own1 in hj; lia|eauto]).
    assert (fri : free (fun j => In j (idss ss)) w2 (ids inner)).
    { intros j hj. specialize (rg j hj). split; [lia|]. intros h. apply own2 in h. lia. }
    assert (hd : w_ncw (drop_ids (idss ss) w2) = w_ncw w2) by apply drop_spec.
    split. { eapply (ev_trans o L _ (touch L w (ids s ++ idss ss))); [eapply (ev_trans o L (touch L w (ids s ++ idss ss))); [exact E|exact e2|auto|intros ? ? []]|exact e3|auto|]. intros j _ h. left. apply in_or_app. auto. }
    split. { eapply below_drop; eauto. intros j hj. destruct (own2 j hj) as [k1 k2]. rewrite (ev_own e2), (ev_own e) by lia. auto. }
    change (idss (LCons true None inner LNil)) with (ids inner ++ []). rewrite app_nil_r.
    split. { intros j h. apply in_app_or in h as [h|h]; [destruct (hi j h); auto; left; apply in_or_app; auto|]. right. specialize (rg j h). lia. }
    split. { apply nodup_app; auto. intros j k1 k2. apply own1 in k1. specialize (rg j k2). lia. }
    split; [auto|].
    split. { apply (fresh_ev1 e3); [intros j hj; apply own1 in hj; lia|]. apply (fresh_ev1 e2); [intros j hj; apply own1; auto|auto]. }
    split. { eapply (good_ev1 e3); auto. eapply (good_ev1 e2); auto. }
    split. { split; [|exact I]. eapply (good_ev1 e3); auto. }
    split. { eapply (cur_ev1 e3); auto. eapply (cur_ev1 e2); auto. }
    split. { split; [|exact I]. eapply (cur_ev1 e3); auto. }
    right. exists a, inner. auto.
  - destruct hr as (a1 & a2). destruct (end_drop o L w w1 s s1 sel hl hb1 e hi a1 a2) as (b1 & b2 & b3 & b4 & b5).
    assert (fr : free (fun j => In j (ids s1)) w1 (idss ss)).
    { intros j hj. destruct (own2 j hj). split; [lia|]. intros h. eauto. }
    pose proof (ev_drop o w1 (ids s1) L (fun j => In j (ids s1)) (fun j h => h)) as e3. fold (drop_sig s1 w1) in e3.
    split. { eapply ev_weak; [exact b1|]. intros j _ h. eapply touch_mono; [|exact h]. intros; apply in_or_app; auto. }
    split; [auto|]. split; [exact hi'|]. split; [apply nodup_app; auto|]. repeat (split; [auto; fail|]).
    split. { eapply (good_ev2 e3); auto. } split; [auto|]. split. { eapply (cur_ev2 e3); auto. }
    left. split; [auto|]. split; [auto|discriminate].
Qed.

Ltac pz :=
  match goal with
  | |- pipe_of (SMap ?f ?a) = pipe_of (SMap _ ?b) => change (PMap f (pipe_of a) = PMap f (pipe_of b))
  | |- pipe_of (SDedupe ?e ?f _ ?a) = pipe_of (SDedupe _ _ _ ?b) => change (PDedupe e f (pipe_of a) = PDedupe e f (pipe_of b))
  | |- pipe_of (SEq ?e ?f _ ?a) = pipe_of (SEq _ _ _ ?b) => change (PEq e f (pipe_of a) = PEq e f (pipe_of b))
  | |- pipe_of (SRef ?f ?a) = pipe_of (SRef _ ?b) => change (PRef f (pipes_of a) = PRef f (pipes_of b))
  | |- pipe_of (SSwitch ?f _ _ ?a _) = pipe_of (SSwitch _ _ _ ?b _) => change (PSwitch f (pipe_of a) = PSwitch f (pipe_of b))
  end; congruence.

Lemma one_slot ss p : pipes_of ss = PCons p PNil -> exists l v s, ss = LCons l v s LNil.
Proof. destruct ss as [|l v s [|]]; intros h; try discriminate h. eauto. Qed.

Lemma poll_switch n o f live sel s ss w L out : poll_ok n -> slots_ok n -> lev o L -> below L w -> good w o L (SSwitch f live sel s ss) -> NoDup (ids (SSwitch f live sel s ss)) ->
  cur w (SSwitch f live sel s ss) out -> after_poll o L w (SSwitch f live sel s ss) out (poll_sig (S n) o (SSwitch f live sel s ss) w).
Proof.
  intros IHp IHs hl hb hg hn hc. change (NoDup (ids s ++ idss ss)) in hn. pose proof (switch_first n o f live sel s ss w L out IHp hl hb hg hn hc) as F.
  cbn [poll_sig].
  match goal with |- after_poll _ _ _ _ _ (match ?x with _ => _ end) => change x with (if live then
           match poll_sig n o s w with
           | Ok (s, w, Ready (Some a)) => let '(inner, w) := build o (f a) w in Ok (true, Some a, s, LCons true None inner LNil, drop_ids (idss ss) w)
           | Ok (s, w, Ready None) => Ok (false, sel, s, ss, drop_sig s w)
           | Ok (s, w, Pending) => Ok (true, sel, s, ss, w)
           | Panic => Panic | OutOfFuel => OutOfFuel
           end
         else Ok (false, sel, s, ss, w)) end.
  destruct (if live then _ else _) as [| |[[[[live' sel'] s'] ss'] w']]; [exact I|destruct F|].
  destruct F as (e & hb' & hi & hn' & hp & hf & hg1 & hg2 & hc1 & hc2 & hcase).
  pose proof hn' as hn''. apply nodup_app_inv in hn'' as (hn1 & hn2 & dis).
  assert (own1 : forall j, In j (ids s') -> j < w_ncw w' /\ c_owner (w_cw w' j) = o) by (destruct live'; [eapply good_owner1|eapply over_owner1]; eauto).
  pose proof (good_owner2 w' o L ss' hg2) as own2. simpl in hg, hc. destruct hg as (_ & hgs & hcl). destruct hc as (_ & _ & hc3).
  pose proof (good_owner2 w o L ss hgs) as own0.
  assert (hsel : exists a, sel' = Some a /\ pipes_of ss' = PCons (f a) PNil /\ ((ss' = ss /\ sel' = sel /\ (live' = true -> still w' o s')) \/ (vals ss' = [None] /\ ~ fresh w s))).
  { destruct hcase as [(-> & -> & k)|(a & inner & -> & -> & k1 & k2)].
    - destruct (proj1 (shows_fresh w' L hb' o) s' sel hc1) as (a & -> & _); [destruct live'; auto|auto|]. exists a. split; [auto|]. destruct hc3. auto 10.
    - exists a. split; [auto|]. split; [|right; auto]. change (PCons (pipe_of inner) PNil = PCons (f a) PNil). congruence. }
  destruct hsel as (a & -> & hps & hcase').
  specialize (IHs o ss' w' L hl hb' hg2 hn2 hc2).
  match goal with |- after_poll _ _ _ _ _ (match ?x with _ => _ end) => change x with (poll_slots n o ss' w') end.
  destruct (poll_slots n o ss' w') as [| |[[[ss2 w2] done] changed]]; simpl in IHs; [exact I|contradiction|].
  destruct IHs as (e2 & hb2 & hi2 & hn2' & hp2 & hfs & hfs' & g3 & c3 & (vs & hv) & h3 & h4).
  assert (un : free (touch L w' (idss ss')) w' (ids s')).
  { intros j hj. destruct (own1 j hj) as [ho1 ho2]. split; [auto|]. intros [h|(b & h1 & h2 & _)]; [eauto|].
    rewrite h2 in ho2. symmetry in ho2. apply hl in ho2. lia. }
  assert (E : ev o L (touch L w (ids s ++ idss ss)) w w2).
  { eapply ev_trans; [exact e|exact e2|auto|]. intros j hj h. eapply touch_after; [exact e|exact hj| |exact h]. intros h'. destruct (hi j) as [k|k]; [apply in_or_app; auto|auto|lia]. }
  assert (N : news w (ids s ++ idss ss) (ids s' ++ idss ss2)).
  { intros j h. apply in_app_or in h as [h|h]; [apply hi, in_or_app; auto|]. destruct (hi2 j h) as [k|k]; [apply hi, in_or_app; auto|]. right. pose proof (ev_ncw e). lia. }
  assert (ND : NoDup (ids s' ++ idss ss2)).
  { apply nodup_app; auto. intros j k1 k2. destruct (hi2 j k2) as [k|k]; [eauto|]. apply own1 in k1. lia. }
  assert (G1 : if live' then good w2 o L s' else over w2 o L s') by (destruct live'; [eapply (good_ev1 e2)|eapply (over_ev1 e2)]; eauto).
  assert (C1 : cur w2 s' (Some a)) by (eapply (cur_ev1 e2); eauto).
  assert (F2 : fresh w2 s') by (apply (fresh_ev1 e2); auto; intros j hj; apply own1; auto).
  assert (CL : forall a, closed (w_nmu w2) L (f a)) by (intros a0; rewrite (ev_nmu E); auto).
  rewrite hps in hp2. destruct (one_slot _ _ hp2) as (l2 & v2 & s2 & ->). simpl in hv. destruct v2 as [v2|]; [|discriminate hv]. injection hv as <-.
  destruct changed.
  - simpl values. cbv beta iota. split; [exact E|]. split; [auto|]. split; [exact N|]. split; [exact ND|]. split; [pz|]. split; [split; [exact F2|exact hfs]|].
    split. { intros [k1 k2]. destruct hcase' as [(-> & _)|[_ k]]; [|auto]. assert (true = false); [|discriminate]. apply hfs'. apply (fresh_ev2 e); auto. intros j hj. apply own0. auto. }
    split; [|split; [exact C1|split; [exact c3|split; [reflexivity|exact hp2]]]]. split; [exact G1|]. split; [exact g3|exact CL].
  - destruct (h3 eq_refl) as [k1 k2]. destruct hcase' as [(-> & <- & k)|[k _]]; [|rewrite k in k2; discriminate k2].
    destruct hc3 as [hc3 _]. rewrite hc3 in k2. assert (C2 : cur w2 (SSwitch f live' (Some a) s' (LCons l2 (Some v2) s2 LNil)) out) by (split; [exact C1|split; [exact c3|split; [exact k2|exact hp2]]]).
    destruct (done && negb live') eqn:Ed.
    + apply andb_true_iff in Ed as [-> Ed]. apply negb_true_iff in Ed. subst live'.
      split; [exact E|]. split; [auto|]. split; [exact N|]. split; [exact ND|]. split; [pz|]. split; [split; [exact F2|exact hfs]|]. split; [auto|]. split; [|exact C2].
      split; [auto|]. split; [exact G1|]. split; [exact h4|exact CL].
    + split; [exact E|]. split; [auto|]. split; [exact N|]. split; [exact ND|]. split; [pz|]. split; [split; [exact F2|exact hfs]|]. split; [auto|]. split; [|split; [|exact C2]].
      * split; [exact G1|]. split; [exact g3|exact CL].
      * split; [intros h; eapply (still_ev1 e2); eauto|]. split; [exact k1|]. destruct live'; [auto|]. destruct done; [discriminate Ed|]. right. exact h4.
Qed.

Lemma poll_ok_S n : poll_ok n -> slots_ok n -> drain_ok n -> poll_ok (S n).
Proof.
  intros IHp IHs IHd o s w L out hl hb hg hn hc.
  destruct s as [i m f|v taken|f s|eqb f old s|test f ma s|f ss|b i e f|f live sel s ss]; [..|apply poll_switch; auto]; cbn [poll_sig].
  - (* Mutable *)
    pose proof hg as hg0. destruct hg as (g1 & g2 & g3 & g4 & g5 & g6). simpl in hc.
    destruct (c_changed (w_cw w i)) eqn:Ec; [|destruct (Nat.eqb_spec (u_senders (w_mu w m)) 0) as [Es|Es]].
    + assert (e : ev o L (fun j => j = i) w (set_cw i (flag_cw false (w_cw w i)) w)) by (apply ev_set_cw; simpl; rewrite ?g2; auto; discriminate).
      split; [eapply ev_weak; [exact e|]; intros j _ ->; left; simpl; auto|].
      split. { eapply below_own; [exact hl|exact hb|exact e|intros; apply same_bc_refl|intros j _ ->; exact g2]. }
      split; [apply news_refl|]. split; [exact hn|]. split; [reflexivity|]. simpl. rewrite fupd_same. simpl. split; [auto|]. split; [congruence|]. auto 10.
    + split; [apply ev_refl|]. split; [exact hb|]. split; [apply news_refl|]. split; [exact hn|]. split; [reflexivity|]. simpl. auto 10.
    + assert (e : ev o L (fun j => j = i) w (set_cw i (arm_cw (Some o) (w_cw w i)) w)) by (apply ev_set_cw; simpl; rewrite ?g2; auto).
      split; [eapply ev_weak; [exact e|]; intros j _ ->; left; simpl; auto|].
      split. { eapply below_own; [exact hl|exact hb|exact e|intros; apply same_bc_refl|intros j _ ->; exact g2]. }
      split; [apply news_refl|]. split; [exact hn|]. split; [reflexivity|]. simpl. rewrite fupd_same. simpl. auto 10.
  - (* always *)
    simpl in hc. split; [apply ev_refl|]. split; [exact hb|]. split; [apply news_refl|]. split; [exact hn|]. split; [reflexivity|]. split; [reflexivity|].
    destruct taken; simpl; auto. split; [discriminate|auto].
  - (* map *)
    simpl in hg, hc. change (NoDup (ids s)) in hn. destruct hc as (a & c1 & ->). specialize (IHp o s w L a hl hb hg hn c1).
    destruct (poll_sig n o s w) as [| |[[s' w'] r]]; simpl in IHp; auto.
    destruct IHp as (e & hb' & hi & hn' & hp & hf & hf' & hr). destruct r as [|[x|]].
    + destruct hr as (a1 & a2 & a3). do 4 (split; [auto|]). split; [pz|]. split; [auto|]. split; [auto|]. simpl. eauto 10.
    + destruct hr as (a1 & a2). do 4 (split; [auto|]). split; [pz|]. split; [auto|]. split; [auto|]. simpl. split; [auto|]. exists (Some x). auto.
    + destruct hr as (a1 & a2). do 4 (split; [auto|]). split; [pz|]. split; [auto|]. split; [auto|]. simpl. eauto.
  - (* dedupe *)
    simpl in hg, hc. change (NoDup (ids s)) in hn. destruct hc as (a & c1 & c2). pose proof (IHp o s w L a hl hb hg hn c1) as H1.
    destruct (poll_sig n o s w) as [| |[[s' w'] r]]; simpl in H1; auto.
    destruct H1 as (e & hb' & hi & hn' & hp & hf & hf' & hr). destruct r as [|[x|]].
    + destruct hr as (a1 & a2 & a3). do 4 (split; [auto|]). split; [pz|]. split; [auto|]. split; [auto|]. simpl. eauto 10.
    + destruct hr as (a1 & a2). destruct (match old with Some _ => _ | None => _ end) eqn:Eo.
      * do 4 (split; [auto|]). split; [pz|]. split; [auto|]. split; [auto|]. simpl. split; [auto|]. exists (Some x). split; [auto|]. exists x. auto.
      * assert (c3 : cur w' (SDedupe eqb f old s') out).
        { simpl. exists (Some x). split; [auto|]. destruct a as [y|]; [|destruct c2; subst; discriminate].
          destruct c2 as (a0 & d1 & d2 & d3). subst old. apply negb_false_iff in Eo. eauto 10. }
        pose proof (IHp o (SDedupe eqb f old s') w' L out hl hb' a1 hn' c3) as H2.
        destruct (poll_sig n o (SDedupe eqb f old s') w') as [| |[[s2 w2] r]]; auto.
        destruct H2 as (e2 & hb2 & hi2 & hn2 & hp2 & hf2 & _ & hr2). split; [eapply (ev_seq _ _ w w' w2 (ids s) (ids s')); eauto|]. split; [auto|].
        split; [eapply (news_seq w w' _ (ids s')); eauto; apply e|]. split; [auto|]. split; [rewrite hp2; pz|]. split; [auto|]. split; [intros h; destruct (hf' h)|]. exact hr2.
    + destruct hr as (a1 & a2). do 4 (split; [auto|]). split; [pz|]. split; [auto|]. split; [auto|]. simpl. eauto.
  - (* eq *)
    simpl in hg, hc. change (NoDup (ids s)) in hn. destruct hc as (a & c1 & c2 & c3). pose proof (IHp o s w L a hl hb hg hn c1) as H1.
    destruct (poll_sig n o s w) as [| |[[s' w'] r]]; simpl in H1; auto.
    destruct H1 as (e & hb' & hi & hn' & hp & hf & hf' & hr). destruct r as [|[x|]].
    + destruct hr as (a1 & a2 & a3). do 4 (split; [auto|]). split; [pz|]. split; [auto|]. split; [auto|]. simpl. eauto 10.
    + destruct hr as (a1 & a2). destruct (match ma with Some _ => _ | None => _ end) eqn:Eo.
      * do 4 (split; [auto|]). split; [pz|]. split; [auto|]. split; [auto|]. simpl. split; [auto|]. exists (Some x). auto.
      * assert (c4 : cur w' (SEq test f ma s') out).
        { simpl. exists (Some x). split; [auto|]. destruct a as [y|]; [|subst; discriminate]. subst ma. simpl in *.
          apply negb_false_iff, eqb_prop in Eo. rewrite <- Eo. auto. }
        pose proof (IHp o (SEq test f ma s') w' L out hl hb' a1 hn' c4) as H2.
        destruct (poll_sig n o (SEq test f ma s') w') as [| |[[s2 w2] r]]; auto.
        destruct H2 as (e2 & hb2 & hi2 & hn2 & hp2 & hf2 & _ & hr2). split; [eapply (ev_seq _ _ w w' w2 (ids s) (ids s')); eauto|]. split; [auto|].
        split; [eapply (news_seq w w' _ (ids s')); eauto; apply e|]. split; [auto|]. split; [rewrite hp2; pz|]. split; [auto|]. split; [intros h; destruct (hf' h)|]. exact hr2.
    + destruct hr as (a1 & a2). do 4 (split; [auto|]). split; [pz|]. split; [auto|]. split; [auto|]. simpl. eauto 10.
  - (* map_ref *)
    simpl in hg, hc. change (NoDup (idss ss)) in hn. destruct hg as [g1 g2]. destruct hc as [c1 c2]. specialize (IHs o ss w L hl hb g2 hn c1).
    match goal with |- after_poll _ _ _ _ _ (match ?x with _ => _ end) => change x with (poll_slots n o ss w) end.
    destruct (poll_slots n o ss w) as [| |[[[ss' w'] done] changed]]; simpl in IHs; [exact I|contradiction|].
    destruct IHs as (e & hb' & hi & hn' & hp & hf & hf' & h2 & h3 & (vs & h4) & h5 & h6).
    assert (h1 : ss' <> LNil). { intros ->. destruct ss; [auto|discriminate hp]. }
    destruct changed; [rewrite h4|destruct (h5 eq_refl) as (k1 & k2); destruct done].
    + do 4 (split; [auto|]). split; [pz|]. split; [auto|]. split; [intros h; discriminate (hf' h)|]. simpl. split; [auto|]. split; [auto|]. eauto.
    + do 4 (split; [auto|]). split; [pz|]. split; [auto|]. split; [auto|]. simpl. split; [auto|]. split; [auto|]. rewrite k2, (values_vals _ _ k2). auto.
    + do 4 (split; [auto|]). split; [pz|]. split; [auto|]. split; [auto|]. simpl. split; [auto|]. split; [auto|]. split; [auto|]. rewrite k2, (values_vals _ _ k2). auto.
  - (* child *)
    pose proof hg as (g1 & g2 & g3 & g4 & g5). pose proof hc as (c1 & c2).
    destruct (b_changed (w_bc w b)) eqn:Ec; [|apply kid_after; auto using ev_refl; simpl; intuition congruence].
    set (w1 := set_bc b (flag_bc false (w_bc w b)) w).
    assert (hb1 : w_bc w1 b = flag_bc false (w_bc w b)) by (unfold w1; simpl; apply fupd_same).
    assert (hob : forall b0, b0 <> b -> w_bc w1 b0 = w_bc w b0) by (intros; unfold w1; simpl; apply fupd_other; auto).
    assert (E1 : ev o L (fun _ => False) w w1).
    { constructor; simpl; auto; try (intros; lia).
      - intros b0 j. unfold fupd. destruct (Nat.eqb_spec b0 b) as [->|]; auto.
      - intros b0 j. unfold fupd. destruct (Nat.eqb_spec b0 b) as [->|]; auto.
      - intros b0. unfold fupd. destruct (Nat.eqb_spec b0 b) as [->|]; [apply bc_ev_unchanged|apply bc_ev_refl].
      - intros b0 h. rewrite fupd_other by lia. reflexivity. }
    destruct (hb b g3) as (k1 & k2 & k3 & k4). rewrite hb1. simpl.
    assert (frb : free (fun _ => False) w (ids (b_signal (w_bc w b)))) by (intros j hj; split; [eapply bc_owner; eauto|auto]).
    destruct (b_live (w_bc w b)) eqn:El.
    + destruct k4 as [k4 _].
      assert (below b w1).
      { intros b0 h0. eapply bc_ok_ev; [exact E1|rewrite hob by lia; apply same_bc_refl|auto|]. apply hb. lia. }
      assert (G1 : good w1 (WNote b) b (b_signal (w_bc w b))) by (eapply (good_ev1 E1); eauto).
      assert (C1 : cur w1 (b_signal (w_bc w b)) (b_value (w_bc w b))) by (eapply (cur_ev1 E1); eauto).
      assert (lv : lev (WNote b) b) by (intros b0 h0; injection h0 as <-; auto).
      specialize (IHd (WNote b) (b_signal (w_bc w b)) w1 b false (b_value (w_bc w b)) lv H G1 k1 C1).
      fold w1. match goal with |- after_poll _ _ _ _ _ (match ?x with _ => _ end) => change x with (drain n (WNote b) (b_signal (w_bc w b)) false (b_value (w_bc w b)) w1) end.
      destruct (drain n (WNote b) (b_signal (w_bc w b)) false (b_value (w_bc w b)) w1) as [| |[[[[s' w'] live] ch] v']]; simpl in IHd; auto.
      destruct IHd as (e1 & hb' & hi & hn' & hp & d1 & d2 & d3).
      set (x2 := inner_bc s' live v' (if ch then S (b_epoch (w_bc w b)) else b_epoch (w_bc w b)) (w_bc w' b)).
      set (w2 := set_bc b x2 w').
      assert (hbw : w_bc w' b = flag_bc false (w_bc w b)). { rewrite <- hb1. apply (ev_above e1). auto. }
      assert (E2 : ev o L (touch L w [i]) w w2).
      { destruct e1. constructor; simpl; auto.
        - intros j hj hT. rewrite ev_cw0; [reflexivity|exact hj|]. intros [h|(b0 & h0 & h1 & h2)]; apply hT; right.
          + exists b. split; [auto|]. split; [|auto]. eapply good_owner1; eauto.
          + exists b0. split; [lia|]. split; [exact h1|]. rewrite <- hob by lia. auto.
        - intros j hj. destruct (ev_new0 j hj) as [[h|(b0 & h0 & h)] h']; (split; [right|exact h']); [exists b; auto|exists b0; split; [lia|auto]].
        - intros b0 j h. destruct (Nat.eq_dec b0 b) as [->|n0].
          + left. rewrite fupd_same in h. unfold x2 in h. simpl in h. rewrite hbw in h. exact h.
          + rewrite fupd_other in h by auto. destruct (ev_bw0 b0 j h) as [k|k]; [left|right; exact k]. rewrite hob in k by auto. exact k.
        - intros b0 j h. destruct (Nat.eq_dec b0 b) as [->|n0].
          + rewrite fupd_same. unfold x2. simpl. rewrite hbw. exact h.
          + rewrite fupd_other by auto. apply ev_bw'0. rewrite hob by auto. exact h.
        - intros b0. unfold fupd. destruct (Nat.eqb_spec b0 b) as [->|n0].
          + unfold bc_ev, x2, inner_bc. rewrite hbw. simpl. split; [exact hp|]. split; [congruence|]. split; [congruence|]. split; [destruct ch; lia|].
            split; [|congruence]. intros h. destruct ch; [lia|]. destruct (d2 eq_refl); auto.
          + rewrite <- hob by auto. apply ev_bc0.
        - intros b0 h0. rewrite fupd_other by lia. rewrite ev_above0 by lia. apply hob. lia. }
      assert (V2 : exists x, v' = Some x).
      { destruct (proj1 (shows_fresh w' b hb' (WNote b)) s' v' d1) as (x & -> & _); [destruct live; tauto| |eauto].
        destruct live; [|eapply over_fresh; eauto]. destruct d3. eapply still_fresh; eauto. }
      assert (B2 : bc_ok w2 b).
      { unfold bc_ok, w2, x2, inner_bc. simpl. rewrite fupd_same. simpl.
        split; [exact hn'|]. split. { eapply low_cur1 with (o := WNote b) (L := b); [lia|destruct live; tauto|auto]. }
        split. { destruct V2 as (x & ->). simpl. destruct ch; [reflexivity|]. destruct (d2 eq_refl) as [_ d4]. rewrite <- d4 in k3. exact k3. }
        destruct live; [|apply low_over; auto]. destruct d3 as [d3 d4]. split; [apply low_good; auto|]. right. eapply low_still1; [|left; exact d3|auto]; auto. }
      assert (B3 : below L w2).
      { intros b0 h0. destruct (lt_eq_lt_dec b0 b) as [[h| ->]|h]; [|auto|].
        - apply low_bc_ok; auto.
        - eapply (bc_ok_ev o L (fun j => exists b1, b1 <= b /\ c_owner (w_cw w j) = WNote b1) w w2).
          + eapply ev_only; [exact E2|]. intros j hj hT. unfold w2. simpl.
            rewrite (ev_cw e1); [reflexivity|exact hj|]. intros [h1|(b1 & h1 & h2 & h3)]; apply hT.
            * exists b. split; [auto|]. eapply good_owner1; eauto.
            * exists b1. split; [lia|exact h2].
          + unfold w2. simpl. rewrite fupd_other by lia. rewrite (ev_above e1) by lia. rewrite hob by lia. apply same_bc_refl.
          + intros j _ hj (b1 & h1 & h2). rewrite hj in h2. injection h2 as ->. lia.
          + apply hb. auto. }
      assert (T2 : ~ touch b w1 (ids (b_signal (w_bc w b))) i).
      { intros [h|(b0 & h0 & h1 & _)].
        - apply (good_owner1 w _ _ _ k4) in h. destruct h as [_ h]. rewrite g2 in h. apply hl in h. lia.
        - change (c_owner (w_cw w i) = WNote b0) in h1. rewrite g2 in h1. apply hl in h1. lia. }
      refine (kid_after o L w w2 b i e f out hl B3 E2 _ _ _ _).
      * simpl. rewrite (ev_cw e1 i g1 T2), fupd_same. unfold x2. simpl. rewrite hbw. simpl. pose proof (ev_ncw e1) as hle. simpl in hle. repeat split; auto. lia.
      * simpl. rewrite fupd_same. unfold x2. simpl. split; [destruct ch; lia|].
        intros h. destruct ch; [lia|]. destruct (d2 eq_refl) as [_ ->]. auto.
      * unfold w2, x2. simpl. rewrite fupd_same. simpl. rewrite hbw. reflexivity.
      * simpl. intros [_ [h|h]]; congruence.
    + assert (B1 : bc_ok w1 b).
      { unfold bc_ok. rewrite hb1. simpl. rewrite El. split; [auto|]. split; [eapply (cur_ev1 E1); eauto|]. split; [auto|]. eapply (over_ev1 E1); eauto. }
      assert (K : below L w1).
      { intros b0 h0. destruct (Nat.eq_dec b0 b) as [->|n0]; [auto|]. eapply bc_ok_ev; [exact E1|rewrite hob by auto; apply same_bc_refl|auto|]. auto. }
      assert (fri : free (fun _ => False) w [i]) by (intros j [<-|[]]; auto).
      apply (kid_after o L w w1 b i e f out hl) in K; [|eapply ev_weak; [exact E1|intros ? ? []]|eapply (good_ev1 E1 o L (SKid b i e f)); [exact fri|exact hg]
        |eapply (cur_ev1 E1 (SKid b i e f)); [exact fri|exact hc]|rewrite hb1; reflexivity|rewrite hb1; simpl; intuition].
      cbv zeta in K. rewrite hb1 in K. cbn [flag_bc b_epoch b_live b_value] in K. rewrite El in K. exact K.
Qed.

Lemma poll_all_ok n : poll_ok n /\ slots_ok n /\ drain_ok n.
Proof.
  induction n as [|n (h1 & h2 & h3)].
  - repeat split; intros; exact I.
  - split; [apply poll_ok_S; auto|]. split; [apply slots_ok_S; auto|apply drain_ok_S; auto].
Qed.
End Facts.
Arguments ev_mu {V o L T w w'}. Arguments ev_sig {V o L T w w'}. Arguments ev_sig' {V o L T w w'}. Arguments ev_nmu {V o L T w w'}.
Arguments ev_ncw {V o L T w w'}. Arguments ev_nbc {V o L T w w'}. Arguments ev_task {V o L T w w'}. Arguments ev_nt {V o L T w w'}.
Arguments ev_own {V o L T w w'}. Arguments ev_src {V o L T w w'}. Arguments ev_wk {V o L T w w'}. Arguments ev_flag {V o L T w w'}.
Arguments ev_cw {V o L T w w'}. Arguments ev_new {V o L T w w'}. Arguments ev_bw {V o L T w w'}. Arguments ev_bw' {V o L T w w'}.
Arguments ev_bc {V o L T w w'}. Arguments ev_above {V o L T w w'}.
