(** Proofs about cancelable_future. *)
From Verif Require Import Base Conc CancelFuture.

Section Facts.
Context {A : Type}.
Implicit Types (s : cf_st A) (m : cf_move A).

(** ** Lists of events *)

Lemma tv_app (a b : list (cf_ev A)) : task_view (a ++ b) = task_view a ++ task_view b.
Proof. apply filter_app. Qed.

Lemma ip_snoc n (l : list (nat * poll A)) t r :
  inner_polls n (l ++ [(t, r)]) = inner_polls n l ++ [EPoll (n + length l) t; EInner r; ERet (n + length l) r].
Proof.
  revert n. induction l as [|[t' r'] l IH]; intros n; simpl.
  - rewrite Nat.add_0_r. reflexivity.
  - rewrite IH. simpl. rewrite Nat.add_succ_r. reflexivity.
Qed.

Lemma ip_pending n (l : list (nat * poll A)) k r : In (ERet k r) (inner_polls n l) -> n <= k < n + length l.
Proof.
  revert n. induction l as [|[t' r'] l IH]; intros n; simpl; [tauto|].
  intros [H|[H|[H|H]]]; try discriminate.
  - injection H as -> _. lia.
  - apply IH in H. lia.
Qed.

(** ** Steps *)

Ltac cf_cases E :=
  unfold cf_step, cf_fstep, cf_hstep in E;
  repeat match type of E with
  | context [match ?x with _ => _ end] => first [is_var x; destruct x|let e := fresh "E" in destruct x eqn:e]
  end; try discriminate E; injection E as <-.

Ltac cf_simp := unfold cf_emit, cf_goto, cf_hgoto, cf_set_lock, cf_set_waker, cf_cancel, cf_no_inner, cf_no_cb, cf_start in *;
  cbn [f_cancelled f_waker f_lock f_inner f_cb f_pc f_h f_task f_trace f_polls f_raced] in *.

(** ** The lock and the flag *)

Definition cf_inv1 s : Prop :=
  (match f_lock s with
   | LFree => True
   | LPoll => f_pc s = FStore \/ f_pc s = FUnlock
   | LDiscard => f_h s = HStore \/ f_h s = HTake \/ (exists w, f_h s = HUnlockW w) \/ f_h s = HUnlock
   end)
  /\ (match f_pc s with FStore | FUnlock => f_lock s = LPoll | _ => True end)
  /\ (match f_h s with HStore | HTake | HUnlockW _ | HUnlock => f_lock s = LDiscard | _ => True end)
  /\ (match f_h s with
      | HHeld | HUp | HLock | HStore => f_cancelled s = false
      | HTake | HUnlockW _ | HWake _ | HUnlock => f_cancelled s = true
      | HRet => f_cancelled s = true \/ f_pc s = FGone
      end)
  /\ (match f_pc s with FInner | FLock | FStore => f_raced s = false -> f_cancelled s = false | _ => True end)
  /\ (match f_h s with HHeld => ~ In EDiscard (f_trace s) | _ => In EDiscard (f_trace s) end)
  /\ (match f_h s with HRet => In EDiscarded (f_trace s) | _ => ~ In EDiscarded (f_trace s) end)
  /\ (f_raced s = true -> f_cancelled s = true)
  /\ (f_polls s > 0 -> exists a b, f_trace s = a ++ EPoll (f_polls s) (f_task s) :: b /\ existsb is_poll b = false)
  /\ (f_polls s = 0 -> f_pc s = FIdle \/ f_pc s = FGone).

Lemma in_snoc_not (l : list (cf_ev A)) x y : ~ In x l -> y <> x -> ~ In x (l ++ [y]).
Proof. intros H n H'. apply in_app_or in H' as [H'|[H'|[]]]; auto. Qed.

Lemma last_poll_keep s a b e : f_trace s = a ++ EPoll (f_polls s) (f_task s) :: b -> existsb is_poll b = false ->
  existsb is_poll e = false ->
  exists a' b', f_trace s ++ e = a' ++ EPoll (f_polls s) (f_task s) :: b' /\ existsb is_poll b' = false.
Proof.
  intros H Hb He. exists a, (b ++ e). rewrite H, <- app_assoc. split; [reflexivity|].
  rewrite existsb_app, Hb, He. reflexivity.
Qed.

Ltac in_tac := rewrite ?in_app_iff; cbn [In]; intuition discriminate.

(** Splits a step into its cases, with the state taken apart. *)
Ltac cf_split s E :=
  destruct s as [can wk lk inn cb pc h tk tr po ra]; cf_simp;
  match type of E with cf_step _ ?m = _ => destruct m end;
  unfold cf_step, cf_fstep, cf_hstep in E; cf_simp;
  repeat match type of E with
  | context [match ?x with _ => _ end] => is_var x; destruct x; cbn [andb orb negb] in E
  end; try discriminate E; injection E as <-; cf_simp.

Ltac case_hyps :=
  repeat match goal with
  | |- context [match ?x with _ => _ end] => is_var x; destruct x
  end.

Lemma cf_inv1_step s m s' : cf_inv1 s -> cf_step s m = Some s' -> cf_inv1 s'.
Proof.
  unfold cf_inv1. intros (I1 & I2 & I3 & I4 & I5 & I6 & I7 & I8 & I9 & I10) E. cf_split s E.
  all: refine (conj _ (conj _ (conj _ (conj _ (conj _ (conj _ (conj _ (conj _ (conj _ _))))))))).
  all: auto.
  all: try (intros; congruence).
  all: try (case_hyps; auto; fail).
  all: try (case_hyps; rewrite ?in_app_iff; cbn [In]; intuition discriminate).
  all: try (destruct I10 as [I10|I10]; [lia|discriminate I10|discriminate I10]).
  all: try (intros G; destruct (I9 G) as (a1 & b1 & Ha & Hb); rewrite Ha, <- ?app_assoc;
            eexists; eexists; split; [cbn [app]; reflexivity|]; rewrite ?existsb_app, Hb; reflexivity).
  all: try (intros _; exists tr, []; split; reflexivity).
  all: try (case_hyps; auto; firstorder congruence).
  all: try (rewrite orb_true_r; discriminate).
  all: try (rewrite I3; eauto; fail).
Qed.

Lemma cf_inv1_init : cf_inv1 cf_init.
Proof. unfold cf_inv1, cf_init. cf_simp. intuition (try discriminate; try lia). Qed.

Lemma cf_inv1_exec l s : exec cf_step cf_init l = Some s -> cf_inv1 s.
Proof. apply (exec_inv cf_step cf_inv1 cf_inv1_step). apply cf_inv1_init. Qed.

(** ** What the task sees *)

Definition fresh_view s (rs : list (nat * poll A)) (tail : list (cf_ev A)) : Prop :=
  f_inner s = true /\ f_cb s = true /\ task_view (f_trace s) = inner_polls 1 rs ++ tail.
Definition used_view s (rs : list (nat * poll A)) (tail : list (cf_ev A)) : Prop :=
  f_inner s = false /\ f_cb s = false /\ f_cancelled s = true /\ task_view (f_trace s) = inner_polls 1 rs ++ tail.

Definition cf_inv2 s : Prop := exists rs,
  let n := length rs in
  match f_pc s with
  | FIdle => (fresh_view s rs [] /\ f_polls s = n)
             \/ exists t v, used_view s rs (cancelled_poll (S n) t v) /\ f_polls s = S n
  | FLoad => (fresh_view s rs [EPoll (S n) (f_task s)] /\ f_polls s = S n)
             \/ exists t v, used_view s rs (cancelled_poll (S n) t v ++ [EPoll (S (S n)) (f_task s)])
                            /\ f_polls s = S (S n)
  | FCall => used_view s rs [EPoll (S n) (f_task s); EDropInner] /\ f_polls s = S n
  | FInner => fresh_view s rs [EPoll (S n) (f_task s)] /\ f_polls s = S n
  | FLock | FStore | FUnlock => fresh_view s rs [EPoll (S n) (f_task s); EInner Pending] /\ f_polls s = S n
  | FRet r => f_polls s = S n /\
              (fresh_view s rs [EPoll (S n) (f_task s); EInner r]
               \/ exists v, r = Ready v /\ used_view s rs [EPoll (S n) (f_task s); EDropInner; ECall v])
  | FPanicked => exists t v, used_view s rs (cancelled_poll (S n) t v ++
                   [EPoll (S (S n)) (f_task s); EPanic (S (S n))]) /\ f_polls s = S (S n)
  | FGone => task_view (f_trace s) = inner_polls 1 rs ++ [EDropInner; EDropFut]
             \/ (exists t v, f_cancelled s = true /\
                   task_view (f_trace s) = inner_polls 1 rs ++ cancelled_poll (S n) t v ++ [EDropFut])
             \/ (exists t v, f_cancelled s = true /\
                   task_view (f_trace s) = inner_polls 1 rs ++ cancelled_poll (S n) t v ++
                     [EPoll (S (S n)) (f_task s); EPanic (S (S n)); EDropFut])
  end.

Lemma cf_inv2_step s m s' : cf_inv2 s -> cf_step s m = Some s' -> cf_inv2 s'.
Proof.
  unfold cf_inv2, fresh_view, used_view. intros (rs & H) E. cf_split s E.
  all: rewrite ?tv_app; cbn [task_view filter of_task app].
  all: rewrite ?app_nil_r; rewrite ?app_nil_r in H.
  all: repeat match goal with
       | H : _ /\ _ |- _ => destruct H
       | H : exists _, _ |- _ => destruct H
       | H : _ \/ _ |- _ => destruct H
       end; subst; try discriminate.
  (* a poll that polled the inner future returns *)
  all: try match goal with H : task_view _ = inner_polls 1 ?l ++ [EPoll _ ?t; EInner ?r] |- context [ERet _ _] =>
              exists (l ++ [(t, r)]); left; rewrite ip_snoc, app_length; cbn [length Nat.add];
              rewrite H, <- app_assoc; rewrite app_nil_r; repeat split; try reflexivity; lia end.
  all: exists rs; try match goal with H : task_view _ = _ |- _ => rewrite H end.
  all: unfold cancelled_poll in *; rewrite <- ?app_assoc; cbn [app].
  all: rewrite ?app_nil_r.
  all: try (repeat split; auto; fail).
  all: try (left; repeat split; auto; fail).
  all: try (right; eexists; eexists; repeat split; eauto; fail).
  all: try (eexists; eexists; repeat split; eauto; fail).
  all: try (right; right; eexists; eexists; repeat split; eauto; fail).
  all: try (right; left; eexists; eexists; repeat split; eauto; fail).
  all: try (split; [reflexivity|]; right; eexists; repeat split; eauto; fail).
Qed.

Lemma cf_inv2_exec l s : exec cf_step cf_init l = Some s -> cf_inv2 s.
Proof.
  apply (exec_inv cf_step cf_inv2 cf_inv2_step).
  exists []. simpl. left. unfold fresh_view. simpl. auto.
Qed.

Theorem cf_view l s : exec cf_step cf_init l = Some s -> f_pc s = FIdle ->
  exists rs, task_view (f_trace s) = inner_polls 1 rs
  \/ (exists t v, task_view (f_trace s) = inner_polls 1 rs ++ cancelled_poll (S (length rs)) t v
       /\ In EDiscard (f_trace s)).
Proof.
  intros E Hp. pose proof (cf_inv2_exec l s E) as (rs & H). pose proof (cf_inv1_exec l s E) as I.
  unfold cf_inv1 in I. destruct I as (_ & _ & _ & I4 & _ & I6 & _).
  rewrite Hp in H. exists rs. destruct H as [[(_ & _ & H) _]|(t & v & (_ & _ & Hc & H) & _)].
  - left. rewrite H, app_nil_r. reflexivity.
  - right. exists t, v. split; [exact H|]. rewrite Hc in I4. destruct (f_h s); auto; discriminate I4.
Qed.

Lemma count_tv f (l : list (cf_ev A)) : (forall e, f e = true -> of_task e = true) -> count f l = count f (task_view l).
Proof.
  intros H. unfold count, task_view. induction l as [|e l IH]; [reflexivity|]. cbn [filter].
  destruct (of_task e) eqn:O; cbn [filter]; destruct (f e) eqn:F; cbn [length]; rewrite ?IH; auto.
  rewrite (H e F) in O. discriminate O.
Qed.

Lemma count_app {B} f (a b : list B) : count f (a ++ b) = count f a + count f b.
Proof. unfold count. rewrite filter_app, app_length. reflexivity. Qed.

Lemma count_ip f n (rs : list (nat * poll A)) : (forall k t, f (EPoll k t) = false) -> (forall r, f (EInner r) = false) ->
  (forall k r, f (ERet k r) = false) -> count f (inner_polls n rs) = 0.
Proof.
  intros H1 H2 H3. revert n. induction rs as [|[t r] rs IH]; intros n; [reflexivity|].
  unfold count in *. cbn. rewrite H1, H2, H3. apply IH.
Qed.

(** The callback runs at most once, and the inner future is dropped at most once, and exactly once
    when the whole thing was dropped. *)
Theorem cf_once l s : exec cf_step cf_init l = Some s ->
  count is_call (f_trace s) <= 1 /\ count is_dropi (f_trace s) <= 1
  /\ (f_pc s = FGone -> count is_dropi (f_trace s) = 1).
Proof.
  intros E. pose proof (cf_inv2_exec l s E) as (rs & H). cbv zeta in H. unfold fresh_view, used_view, cancelled_poll in H.
  rewrite (count_tv is_call), (count_tv is_dropi) by (intros []; try discriminate; reflexivity).
  assert (G : exists tail, task_view (f_trace s) = inner_polls 1 rs ++ tail /\ count is_call tail <= 1
    /\ count is_dropi tail <= 1 /\ (f_pc s = FGone -> count is_dropi tail = 1)).
  { destruct (f_pc s);
    repeat match goal with
    | H : _ /\ _ |- _ => destruct H
    | H : exists _, _ |- _ => destruct H
    | H : _ \/ _ |- _ => destruct H
    end; eexists; (split; [eassumption|]); cbn; (split; [lia|split; [lia|]]); intros; try discriminate; reflexivity. }
  destruct G as (tail & -> & G1 & G2 & G3).
  rewrite !count_app, !count_ip by reflexivity. auto.
Qed.

(** Nothing polls the inner future after it was dropped. *)
Definition cf_inv3 s : Prop :=
  (f_inner s = true -> ~ In EDropInner (f_trace s)) /\
  (f_pc s = FInner -> f_inner s = true) /\
  forall a b, f_trace s = a ++ b -> In EDropInner a -> existsb is_inner b = false.

Lemma split_snoc {B} (tr a b : list B) e : tr ++ [e] = a ++ b ->
  b = [] \/ exists b', b = b' ++ [e] /\ tr = a ++ b'.
Proof.
  destruct b as [|x b] using rev_ind; [auto|]. right. rewrite app_assoc in H. apply app_inj_tail in H as [-> ->]. eauto.
Qed.

Lemma cf_inv3_snoc tr e :
  (forall a b, tr = a ++ b -> In EDropInner a -> existsb (@is_inner A) b = false) ->
  (is_inner e = true -> ~ In EDropInner tr) ->
  forall a b, tr ++ [e] = a ++ b -> In EDropInner a -> existsb (@is_inner A) b = false.
Proof.
  intros H He a b E Hin. apply split_snoc in E as [->|(b' & -> & ->)]; [reflexivity|].
  rewrite existsb_app, (H a b' eq_refl Hin). cbn. destruct (is_inner e); [|reflexivity].
  exfalso. apply (He eq_refl). apply in_or_app. auto.
Qed.

Lemma cf_inv3_app es : existsb (@is_inner A) es = false -> forall tr,
  (forall a b, tr = a ++ b -> In EDropInner a -> existsb (@is_inner A) b = false) ->
  forall a b, tr ++ es = a ++ b -> In EDropInner a -> existsb (@is_inner A) b = false.
Proof.
  induction es as [|e es IH]; intros He tr H.
  - rewrite app_nil_r. exact H.
  - cbn in He. apply orb_false_iff in He as [He1 He2].
    replace (tr ++ e :: es) with ((tr ++ [e]) ++ es) by (rewrite <- app_assoc; reflexivity).
    apply (IH He2). apply cf_inv3_snoc; [exact H|]. rewrite He1. discriminate.
Qed.

Lemma cf_inv3_step s m s' : cf_inv3 s -> cf_step s m = Some s' -> cf_inv3 s'.
Proof.
  unfold cf_inv3. intros (I1 & I2 & I3) E. cf_split s E.
  all: refine (conj _ (conj _ _)); auto; try discriminate.
  all: rewrite ?app_nil_r; auto.
  all: try (rewrite ?in_app_iff; cbn [In]; intuition discriminate).
  all: try (apply cf_inv3_app; [reflexivity|exact I3]).
  all: try (rewrite <- app_assoc; apply cf_inv3_app; [reflexivity|exact I3]).
  all: try (apply cf_inv3_snoc; [exact I3|]; intros _; apply I1; apply I2; reflexivity).
Qed.

Theorem cf_no_poll_after_drop l s a b : exec cf_step cf_init l = Some s ->
  f_trace s = a ++ EDropInner :: b -> existsb is_inner b = false.
Proof.
  intros E H. assert (I : cf_inv3 s).
  { refine (exec_inv cf_step cf_inv3 cf_inv3_step l _ _ _ E). unfold cf_inv3. cbn.
    repeat split; auto; try discriminate. intros x y Hx Hin. symmetry in Hx. apply app_eq_nil in Hx as [-> ->]. reflexivity. }
  destruct I as (_ & _ & I). apply (I (a ++ [EDropInner]) b).
  - rewrite H, <- app_assoc. reflexivity.
  - apply in_or_app. right. left. reflexivity.
Qed.

(** A poll panics only if the cancellation was returned before. *)
Theorem cf_no_panic l s : exec cf_step cf_init l = Some s -> f_pc s = FPanicked ->
  exists n v, In (ECall v) (f_trace s) /\ In (ERet n (Ready v)) (f_trace s).
Proof.
  intros E Hp. pose proof (cf_inv2_exec l s E) as (rs & H). cbv zeta in H. rewrite Hp in H.
  destruct H as (t & v & (_ & _ & _ & H) & _). exists (S (length rs)), v.
  assert (G : forall e, In e (cancelled_poll (S (length rs)) t v) -> In e (f_trace s)).
  { intros e He. assert (In e (task_view (f_trace s))) as G.
    { rewrite H. apply in_or_app. right. apply in_or_app. left. exact He. }
    apply filter_In in G. apply G. }
  split; apply G; unfold cancelled_poll; cbn; auto.
Qed.

(** ** After discard *)

Definition cf_after s1 s : Prop := exists t,
  f_trace s = f_trace s1 ++ t /\ f_cancelled s = true /\ f_h s = HRet /\ existsb is_inner t = false
  /\ (forall n r, In (ERet n r) t -> exists v, r = Ready v /\ In (ECall v) t)
  /\ existsb is_wake t = false
  /\ match f_pc s with
     | FIdle | FLoad | FCall | FGone | FPanicked => True
     | FRet r => exists v, r = Ready v /\ In (ECall v) t
     | _ => False
     end.

Lemma cf_after_step s1 s m s' : cf_after s1 s -> cf_step s m = Some s' -> cf_after s1 s'.
Proof.
  unfold cf_after. intros (t1 & H1 & H2 & H3 & H4 & H5 & H6 & H7) E. cf_split s E.
  all: try discriminate; try (destruct H7; fail).
  all: rewrite H1, <- ?app_assoc.
  all: eexists; refine (conj eq_refl (conj _ (conj _ (conj _ (conj _ (conj _ _)))))); auto.
  all: try (rewrite existsb_app, ?H4, ?H6; reflexivity).
  all: try (intros k r0 G; rewrite ?in_app_iff in G; cbn [In app] in G;
            destruct G as [G|G]; [destruct (H5 k r0 G) as (v0 & ? & ?); exists v0; split; [assumption|apply in_or_app; auto]
            | repeat match goal with H : _ \/ _ |- _ => destruct H | H : False |- _ => destruct H end;
              try discriminate; subst ]).
  - injection H as <- <-. destruct H7 as (v0 & ? & ?). exists v0. split; [assumption|]. apply in_or_app. auto.
  - exists v. split; [reflexivity|]. apply in_or_app. right. left. reflexivity.
Qed.

Theorem cf_cancelled l1 s1 l2 s2 : exec cf_step cf_init l1 = Some s1 -> f_h s1 = HRet -> f_pc s1 = FIdle ->
  exec cf_step s1 l2 = Some s2 ->
  exists t, f_trace s2 = f_trace s1 ++ t /\ existsb is_inner t = false
    /\ (forall n r, In (ERet n r) t -> exists v, r = Ready v /\ In (ECall v) t)
    /\ existsb is_wake t = false.
Proof.
  intros E1 Hh Hp E2. pose proof (cf_inv1_exec l1 s1 E1) as I. destruct I as (_ & _ & _ & I4 & _).
  rewrite Hh, Hp in I4. destruct I4 as [I4|I4]; [|discriminate I4].
  assert (cf_after s1 s2) as (t & H1 & _ & _ & H4 & H5 & H6 & _).
  { refine (exec_inv cf_step (cf_after s1) (cf_after_step s1) l2 _ _ _ E2).
    exists []. rewrite app_nil_r, Hp. cbn. repeat split; auto. intros n r []. }
  eauto.
Qed.

Theorem cf_next_poll l s t v : exec cf_step cf_init l = Some s -> f_h s = HRet -> f_pc s = FIdle ->
  existsb is_call (f_trace s) = false ->
  exists s', exec cf_step s [MfPoll t; MfStep; MfCall v; MfStep] = Some s' /\ f_pc s' = FIdle
    /\ f_trace s' = f_trace s ++ cancelled_poll (S (f_polls s)) t v.
Proof.
  intros E Hh Hp Hc. pose proof (cf_inv1_exec l s E) as I. destruct I as (_ & _ & _ & I4 & _).
  rewrite Hh, Hp in I4. destruct I4 as [I4|I4]; [|discriminate I4].
  pose proof (cf_inv2_exec l s E) as (rs & H). cbv zeta in H. rewrite Hp in H.
  destruct H as [[(H1 & H2 & H3) _]|(t' & v' & (_ & _ & _ & H3) & _)].
  - destruct s as [can wk lk inn cb pc h tk tr po ra]. cf_simp. subst.
    eexists. split; [cbn; reflexivity|]. cbn. split; [reflexivity|].
    rewrite <- !app_assoc. reflexivity.
  - exfalso. assert (existsb is_call (f_trace s) = true); [|congruence].
    apply existsb_exists. exists (ECall v'). split; [|reflexivity].
    assert (In (ECall v') (task_view (f_trace s))) as G.
    { rewrite H3. apply in_or_app. right. unfold cancelled_poll. cbn. auto. }
    apply filter_In in G. apply G.
Qed.

(** As long as discard was not called, the answers are those of the inner future. *)
Theorem cf_transparent l s : exec cf_step cf_init l = Some s -> ~ In EDiscard (f_trace s) -> f_pc s = FIdle ->
  exists rs, task_view (f_trace s) = inner_polls 1 rs.
Proof.
  intros E Hn Hp. destruct (cf_view l s E Hp) as (rs & [H|(t & v & _ & H)]); [eauto|contradiction].
Qed.

Lemma cf_through_alone wk tk tr po ra t (r : poll A) : exists k s',
  exec cf_step (mkCf false wk LFree true true FIdle HHeld tk tr po ra) ([MfPoll t; MfStep; MfInner r] ++ repeat MfStep k) = Some s'
  /\ f_pc s' = FIdle /\ f_trace s' = tr ++ [EPoll (S po) t; EInner r; ERet (S po) r].
Proof.
  destruct r.
  - exists 4, (mkCf false (Some t) LFree true true FIdle HHeld t (((tr ++ [EPoll (S po) t]) ++ [EInner Pending]) ++ [ERet (S po) Pending]) (S po) false).
    split; [vm_compute; reflexivity|]. split; [reflexivity|]. cbn [f_trace]. rewrite <- !app_assoc. reflexivity.
  - exists 1, (mkCf false wk LFree true true FIdle HHeld t (((tr ++ [EPoll (S po) t]) ++ [EInner (Ready a)]) ++ [ERet (S po) (Ready a)]) (S po) false).
    split; [vm_compute; reflexivity|]. split; [reflexivity|]. cbn [f_trace]. rewrite <- !app_assoc. reflexivity.
Qed.

(** A poll made alone before discard is called is a poll of the inner future. *)
Theorem cf_poll_through l s t r : exec cf_step cf_init l = Some s -> ~ In EDiscard (f_trace s) -> f_pc s = FIdle ->
  exists k s', exec cf_step s ([MfPoll t; MfStep; MfInner r] ++ repeat MfStep k) = Some s' /\ f_pc s' = FIdle
    /\ f_trace s' = f_trace s ++ [EPoll (S (f_polls s)) t; EInner r; ERet (S (f_polls s)) r].
Proof.
  intros E Hn Hp. pose proof (cf_inv1_exec l s E) as I. destruct I as (I1 & _ & _ & I4 & _ & I6 & _).
  pose proof (cf_inv2_exec l s E) as (rs & H). cbv zeta in H. rewrite Hp in H.
  assert (Hh : f_h s = HHeld) by (destruct (f_h s); auto; contradiction).
  rewrite Hh in I4. rewrite Hh, Hp in I1.
  assert (Hl : f_lock s = LFree).
  { clear - I1. destruct (f_lock s); [reflexivity| |].
    - destruct I1 as [I1|I1]; discriminate I1.
    - destruct I1 as [I1|[I1|[(w & I1)|I1]]]; discriminate I1. }
  destruct H as [[(H1 & H2 & H3) _]|(t' & v' & (_ & _ & Hc & H3) & _)]; [|congruence].
  clear - H1 H2 Hh I4 Hl Hp. destruct s as [can wk lk inn cb pc h tk tr po ra]. cf_simp. subst.
  apply cf_through_alone.
Qed.

(** ** Waking *)

(** The last poll returned Pending, or is about to and has stored its waker. *)
Definition cf_waits s : Prop :=
  match f_pc s with
  | FUnlock | FRet Pending => True
  | FIdle => In (ERet (f_polls s) Pending) (f_trace s)
  | _ => False
  end.

Definition cf_inv4 s : Prop := cf_waits s -> f_raced s = false ->
  match f_h s with
  | HHeld | HUp | HLock | HStore | HTake => f_waker s = Some (f_task s)
  | HUnlockW w | HWake w => w = f_task s
  | HUnlock => False
  | HRet => woken_since (f_task s) (f_trace s)
  end.

Lemma woken_since_app t (tr e : list (cf_ev A)) : woken_since t tr -> existsb is_poll e = false -> woken_since t (tr ++ e).
Proof.
  intros (a & n & t' & b & -> & Hb & Hin) He. exists a, n, t', (b ++ e).
  rewrite <- app_assoc. split; [reflexivity|]. split; [rewrite existsb_app, Hb, He; reflexivity|].
  apply in_or_app. auto.
Qed.

(** The poll in progress has not returned. *)
Lemma cf_ret_bound s n r r' : cf_inv2 s -> In (ERet n r) (f_trace s) -> f_pc s = FRet r' -> n < f_polls s.
Proof.
  intros (rs & H) Hin Hp. cbv zeta in H. unfold fresh_view, used_view, cancelled_poll in H. rewrite Hp in H.
  assert (G : In (ERet n r) (task_view (f_trace s))) by (apply filter_In; auto).
  assert (B : In (ERet n r) (inner_polls 1 rs) -> n <= length rs) by (intros X; apply ip_pending in X; lia).
  destruct H as [-> [(_ & _ & H)|(v & _ & _ & _ & _ & H)]]; rewrite H in G; apply in_app_or in G as [G|G];
    try (apply B in G; lia); cbn [In] in G;
    repeat match goal with H : _ \/ _ |- _ => destruct H | H : False |- _ => destruct H end; discriminate.
Qed.

Definition cf_inv124 s : Prop := cf_inv1 s /\ cf_inv2 s /\ cf_inv4 s.

Lemma woken_last s t : cf_inv1 s -> f_polls s > 0 -> woken_since t (f_trace s ++ [EWake t; EDiscarded]).
Proof.
  intros (_ & _ & _ & _ & _ & _ & _ & _ & I9 & _) G. destruct (I9 G) as (a & b & H & Hb).
  exists a, (f_polls s), (f_task s), (b ++ [EWake t; EDiscarded]). rewrite H, <- app_assoc.
  split; [reflexivity|]. split; [rewrite existsb_app, Hb; reflexivity|]. apply in_or_app. right. left. reflexivity.
Qed.

Lemma cf_inv4_step s m s' : cf_inv1 s -> cf_inv2 s -> cf_inv4 s -> cf_step s m = Some s' -> cf_inv4 s'.
Proof.
  intros I1 I2 I4 E.
  pose proof (fun n r r' => cf_ret_bound s n r r' I2) as B.
  pose proof (woken_last s) as W. specialize (W (f_task s) I1).
  assert (P : cf_waits s -> f_polls s > 0).
  { intros Hw. destruct I1 as (_ & _ & _ & _ & _ & _ & _ & _ & _ & I10). destruct (Nat.eq_dec (f_polls s) 0) as [z|]; [|lia].
    destruct (I10 z) as [G|G]; unfold cf_waits in Hw; rewrite G in Hw; [|destruct Hw].
    destruct I2 as (rs & H2). cbv zeta in H2. rewrite G in H2.
    destruct H2 as [[(_ & _ & H2) H3]|(t & v & _ & H3)]; [|lia].
    assert (In (ERet (f_polls s) Pending) (task_view (f_trace s))) as X by (apply filter_In; auto).
    rewrite H2, app_nil_r in X. apply ip_pending in X. lia. }
  destruct I1 as (J1 & J2 & J3 & J4 & J5 & _).
  unfold cf_inv4, cf_waits in *. cf_split s E; intros Hw Hr.
  all: try (destruct Hw; fail).
  - rewrite (J5 Hr) in J4. rewrite J2 in J3. destruct h; auto; try discriminate J4; try discriminate J3.
    destruct J4 as [J4|J4]; discriminate J4.
  - exact (I4 I Hr).
  - apply in_app_or in Hw as [Hw|[Hw|[]]].
    + pose proof (B _ _ _ Hw eq_refl). lia.
    + injection Hw as ->. specialize (I4 I Hr). destruct h; auto. apply woken_since_app; auto.
  - assert (Hw' : match pc with FUnlock | FRet Pending => True | FIdle => In (ERet po Pending) tr | _ => False end).
    { destruct pc; auto. apply in_app_or in Hw as [Hw|[Hw|[]]]; [exact Hw|discriminate Hw]. }
    exact (I4 Hw' Hr).
  - exact (I4 Hw Hr).
  - exact (I4 Hw Hr).
  - exact (I4 Hw Hr).
  - exact (I4 Hw Hr).
  - rewrite orb_false_r in Hr. exact (I4 Hw Hr).
  - rewrite orb_false_r in Hr. exact (I4 Hw Hr).
  - rewrite orb_false_r in Hr. exact (I4 Hw Hr).
  - specialize (I4 Hw Hr). congruence.
  - specialize (I4 Hw Hr). discriminate I4.
  - exact (I4 Hw Hr).
  - assert (Hw' : match pc with FUnlock | FRet Pending => True | FIdle => In (ERet po Pending) tr | _ => False end).
    { destruct pc; auto. apply in_app_or in Hw as [Hw|[Hw|[Hw|[]]]]; [exact Hw|discriminate Hw|discriminate Hw]. }
    rewrite (I4 Hw' Hr). auto.
  - assert (Hw' : match pc with FUnlock | FRet Pending => True | FIdle => In (ERet po Pending) tr | _ => False end).
    { destruct pc; auto. apply in_app_or in Hw as [Hw|[Hw|[]]]; [exact Hw|discriminate Hw]. }
    destruct (I4 Hw' Hr).
Qed.

Lemma cf_inv4_exec l s : exec cf_step cf_init l = Some s -> cf_inv4 s.
Proof.
  intros E. assert (H : cf_inv124 s); [|apply H].
  refine (exec_inv cf_step cf_inv124 _ l _ _ _ E).
  - intros x m x' (H1 & H2 & H4) Ex. split; [eapply cf_inv1_step; eauto|]. split; [eapply cf_inv2_step; eauto|].
    exact (cf_inv4_step x m x' H1 H2 H4 Ex).
  - split; [apply cf_inv1_init|]. split; [apply (cf_inv2_exec []); reflexivity|].
    unfold cf_inv4, cf_waits. cbn. tauto.
Qed.

Theorem cf_woken l s : exec cf_step cf_init l = Some s ->
  f_pc s = FIdle -> In (ERet (f_polls s) Pending) (f_trace s) -> f_h s = HRet -> f_raced s = false ->
  woken_since (f_task s) (f_trace s).
Proof.
  intros E Hp Hw Hh Hr. pose proof (cf_inv4_exec l s E) as I. unfold cf_inv4, cf_waits in I.
  rewrite Hp, Hh in I. auto.
Qed.

(** At most one wake-up, and only by discard. *)
Theorem cf_wakes l s : exec cf_step cf_init l = Some s ->
  count is_wake (f_trace s) <= 1 /\ (existsb is_wake (f_trace s) = true -> In EDiscard (f_trace s) /\ f_h s = HRet).
Proof.
  intros E.
  assert (H : (count is_wake (f_trace s) <= 1 /\ (f_h s <> HRet -> count is_wake (f_trace s) = 0)) /\ cf_inv1 s).
  { refine (exec_inv cf_step (fun s => (count is_wake (f_trace s) <= 1 /\ (f_h s <> HRet -> count is_wake (f_trace s) = 0)) /\ cf_inv1 s) _ l _ _ _ E).
    - intros x m x' [[H1 H2] H3] Ex. split; [|eapply cf_inv1_step; eauto]. clear H3.
      cf_split x Ex; rewrite ?count_app; cbn; try (destruct h); try (split; [try lia|intros; try congruence; try lia]);
        try (rewrite H2 by discriminate; cbn; lia); try (rewrite H2 by discriminate; reflexivity);
        try (specialize (H2 ltac:(discriminate)); lia); auto.
    - split; [cbn; auto|apply cf_inv1_init]. }
  destruct H as [[H1 H2] H3]. split; [exact H1|]. intros Hx.
  assert (Hh : f_h s = HRet).
  { assert (C : 0 < count is_wake (f_trace s)).
    { apply existsb_exists in Hx as (e & He & Hf). apply In_nth_error in He as (i & He). exact (count_pos _ _ _ _ He Hf). }
    destruct (f_h s); auto; rewrite H2 in C by discriminate; lia. }
  split; [|exact Hh]. destruct H3 as (_ & _ & _ & _ & _ & H6 & _). rewrite Hh in H6. exact H6.
Qed.

(** ** One task: an earlier Pending poll left a waker that wakes it even in a race *)

Definition by_task (t : nat) (tr : list (cf_ev A)) : Prop := forall n t', In (EPoll n t') tr -> t' = t.

(** The last poll found the future not cancelled, and has not returned Ready. *)
Definition cf_looked s : Prop :=
  match f_pc s with
  | FInner | FLock | FStore | FUnlock | FRet Pending => True
  | FIdle => In (ERet (f_polls s) Pending) (f_trace s)
  | _ => False
  end.

Definition cf_inv5 t s : Prop := by_task t (f_trace s) ->
  (((exists n, In (ERet n Pending) (f_trace s)) \/ match f_pc s with FUnlock | FRet Pending => True | _ => False end) ->
   match f_h s with HHeld | HUp | HLock | HStore | HTake => f_waker s = Some t | _ => True end)
  /\ ((exists n, n < f_polls s /\ In (ERet n Pending) (f_trace s)) -> cf_looked s ->
      match f_h s with
      | HUnlockW w | HWake w => w = t
      | HUnlock => False
      | HRet => woken_since t (f_trace s)
      | _ => True
      end).

Lemma by_task_app t tr e : by_task t (tr ++ e) -> by_task t tr.
Proof. intros H n t' Hin. apply (H n t'). apply in_or_app. auto. Qed.

Lemma ex_ret_app (P : nat -> Prop) (tr e : list (cf_ev A)) : (forall n, ~ In (ERet n Pending) e) ->
  (exists n, P n /\ In (ERet n Pending) (tr ++ e)) -> exists n, P n /\ In (ERet n Pending) tr.
Proof.
  intros H (n & Hn & Hin). apply in_app_or in Hin as [Hin|Hin]; [eauto|]. destruct (H n Hin).
Qed.

Lemma cf_inv5_step t s m s' : cf_inv1 s -> cf_inv2 s -> cf_inv5 t s -> cf_step s m = Some s' -> cf_inv5 t s'.
Proof.
  intros I1 I2 I5 E.
  pose proof (fun n r r' => cf_ret_bound s n r r' I2) as B.
  assert (W : f_polls s > 0 -> woken_since t (f_trace s ++ [EWake t; EDiscarded])) by exact (woken_last s t I1).
  destruct I1 as (J1 & J2 & J3 & J4 & J5 & _ & _ & _ & J9 & _).
  assert (T : by_task t (f_trace s) -> f_polls s > 0 -> f_task s = t).
  { intros Hb Hp. destruct (J9 Hp) as (a & b & H & _). apply (Hb (f_polls s)). rewrite H. apply in_or_app. right. left. reflexivity. }
  assert (P0 : f_polls s = 0 -> f_pc s = FIdle \/ f_pc s = FGone).
  { intros z. destruct I2 as (rs & H2). cbv zeta in H2. destruct (f_pc s); auto;
    repeat match goal with
    | H : _ /\ _ |- _ => destruct H
    | H : exists _, _ |- _ => destruct H
    | H : _ \/ _ |- _ => destruct H
    end; congruence. }
  unfold cf_inv5, cf_looked in *. clear I2 J9. cf_split s E; intros Hb.
  all: try rewrite app_nil_r in Hb; try rewrite app_nil_r.
  all: try specialize (I5 Hb).
  all: try specialize (I5 (by_task_app _ _ _ Hb)).
  all: try specialize (I5 (by_task_app _ _ _ (by_task_app _ _ _ Hb))).
  all: destruct I5 as [K1 K2].
  all: split; [intros [(n1 & Hn)|Hx]|intros (n1 & Hlt & Hn) Hx].
  all: try (destruct Hx; fail); try exact I.
  all: try (rewrite !in_app_iff in Hn; cbn [In] in Hn); try (rewrite !in_app_iff in Hx; cbn [In] in Hx);
       repeat match goal with
       | H : _ \/ _ |- _ => destruct H
       | H : False |- _ => destruct H
       | H : @eq (cf_ev A) _ _ |- _ => first [discriminate H | injection H; intros; subst; clear H]
       end.
  all: try exact I.
  all: try (apply K1; left; eexists; eassumption).
  all: try (apply K1; right; assumption).
  - destruct h; auto; try discriminate J4. destruct J4 as [J4|J4]; discriminate J4.
  - exact (K2 (ex_intro _ n1 (conj Hlt Hn)) I).
  - destruct h; auto; f_equal; apply (T Hb); destruct (Nat.eq_dec po 0) as [z|]; try lia;
      destruct (P0 z) as [z'|z']; discriminate z'.
  - destruct h; auto; f_equal; apply (T Hb); destruct (Nat.eq_dec po 0) as [z|]; try lia;
      destruct (P0 z) as [z'|z']; discriminate z'.
  - exact (K2 (ex_intro _ n1 (conj Hlt Hn)) I).
  - exact (K2 (ex_intro _ n1 (conj Hlt Hn)) I).
  - match goal with H : In (ERet po Pending) tr |- _ => pose proof (B _ _ _ H eq_refl) end. lia.
  - lia.
  - match goal with H : In (ERet n1 Pending) tr |- _ => specialize (K2 (ex_intro _ n1 (conj Hlt H)) I) end. destruct h; auto. apply woken_since_app; auto.
  - lia.
  - match goal with H : In (ERet n1 Pending) tr |- _ => specialize (K2 (ex_intro _ n1 (conj Hlt H)) I) end. destruct h; auto. apply woken_since_app; auto.
  - specialize (K1 (or_introl (ex_intro _ n1 Hn))). congruence.
  - specialize (K1 (or_introl (ex_intro _ n1 Hn))). discriminate K1.
  - exact (K2 (ex_intro _ n1 (conj Hlt Hn)) Hx).
  - assert (Hx' : match pc with FInner | FLock | FStore | FUnlock | FRet Pending => True | FIdle => In (ERet po Pending) tr | _ => False end).
    { destruct pc; auto. apply in_app_or in Hx as [Hx|[Hx|[Hx|[]]]]; [exact Hx|discriminate Hx|discriminate Hx]. }
    match goal with H : In (ERet n1 Pending) tr |- _ => rewrite (K2 (ex_intro _ n1 (conj Hlt H)) Hx') end. apply W. lia.
  - assert (Hx' : match pc with FInner | FLock | FStore | FUnlock | FRet Pending => True | FIdle => In (ERet po Pending) tr | _ => False end).
    { destruct pc; auto. apply in_app_or in Hx as [Hx|[Hx|[]]]; [exact Hx|discriminate Hx]. }
    match goal with H : In (ERet n1 Pending) tr |- _ => destruct (K2 (ex_intro _ n1 (conj Hlt H)) Hx') end.
Qed.

Theorem cf_woken_again t l s : exec cf_step cf_init l = Some s ->
  (forall n t', In (EPoll n t') (f_trace s) -> t' = t) ->
  f_pc s = FIdle -> In (ERet (f_polls s) Pending) (f_trace s) -> f_h s = HRet ->
  (exists n, n < f_polls s /\ In (ERet n Pending) (f_trace s)) ->
  woken_since t (f_trace s).
Proof.
  intros E Hb Hp Hw Hh Hn.
  assert (H : cf_inv1 s /\ cf_inv2 s /\ cf_inv5 t s).
  { refine (exec_inv cf_step (fun s => cf_inv1 s /\ cf_inv2 s /\ cf_inv5 t s) _ l _ _ _ E).
    - intros x m x' (H1 & H2 & H5) Ex. split; [eapply cf_inv1_step; eauto|]. split; [eapply cf_inv2_step; eauto|].
      exact (cf_inv5_step t x m x' H1 H2 H5 Ex).
    - split; [apply cf_inv1_init|]. split; [apply (cf_inv2_exec []); reflexivity|].
      unfold cf_inv5, cf_looked. cbn. intros _. split; [intros [(n & [])|[]]|intros (n & _ & [])]. }
  destruct H as (_ & _ & H). destruct (H Hb) as [_ K]. unfold cf_looked in K. rewrite Hp, Hh in K. auto.
Qed.

(** ** discard always finishes: it waits only for a poll that is storing its waker, which takes two steps *)
Theorem cf_discard_finishes l s : exec cf_step cf_init l = Some s -> f_h s <> HHeld -> exists k1 k2 s',
  k1 <= 2 /\ k2 <= 6 /\ exec cf_step s (repeat MfStep k1 ++ repeat MfHStep k2) = Some s' /\ f_h s' = HRet.
Proof.
  intros E Hh. pose proof (cf_inv1_exec l s E) as (J1 & J2 & J3 & _). clear E.
  assert (G : forall s, f_lock s <> LPoll -> (f_lock s = LDiscard -> match f_h s with HUp | HLock => False | _ => True end) ->
    f_h s <> HHeld -> exists k2 s', k2 <= 6 /\ exec cf_step s (repeat MfHStep k2) = Some s' /\ f_h s' = HRet).
  { clear. intros s. destruct s as [can wk lk inn cb pc h tk tr po ra]. cf_simp. intros Hl Hd Hh.
    assert (step1 : forall k s x x', cf_step s MfHStep = Some x -> exec cf_step x (repeat MfHStep k) = Some x' ->
              exec cf_step s (repeat (@MfHStep A) (S k)) = Some x').
    { intros k s x x' H1 H2. cbn [repeat exec]. rewrite H1. exact H2. }
    destruct h; try congruence.
    - destruct pc eqn:Ep; try (destruct lk; try congruence; try (destruct (Hd eq_refl)));
        try (exists 1; eexists; split; [lia|]; split; [reflexivity|reflexivity]);
        (destruct wk; [exists 6|exists 5]; eexists; (split; [lia|]);
         (split; [repeat (eapply step1; [cbv; reflexivity|]); reflexivity|reflexivity])).
    - destruct lk; try congruence; try (destruct (Hd eq_refl));
        (destruct wk; [exists 5|exists 4]; eexists; (split; [lia|]);
         (split; [repeat (eapply step1; [cbv; reflexivity|]); reflexivity|reflexivity])).
    - destruct wk; [exists 4|exists 3]; eexists; (split; [lia|]);
         (split; [repeat (eapply step1; [cbv; reflexivity|]); reflexivity|reflexivity]).
    - destruct wk; [exists 3|exists 2]; eexists; (split; [lia|]);
         (split; [repeat (eapply step1; [cbv; reflexivity|]); reflexivity|reflexivity]).
    - exists 2; eexists; (split; [lia|]); (split; [repeat (eapply step1; [cbv; reflexivity|]); reflexivity|reflexivity]).
    - exists 1; eexists; (split; [lia|]); (split; [repeat (eapply step1; [cbv; reflexivity|]); reflexivity|reflexivity]).
    - exists 1; eexists; (split; [lia|]); (split; [repeat (eapply step1; [cbv; reflexivity|]); reflexivity|reflexivity]).
    - exists 0; eexists; (split; [lia|]); split; reflexivity. }
  destruct (f_lock s) eqn:El.
  - destruct (G s) as (k & s' & H1 & H2 & H3); try congruence. exists 0, k, s'. cbn [repeat app]. auto with arith.
  - set (k1 := match f_pc s with FStore => 2 | _ => 1 end).
    assert (X : exists s1, exec cf_step s (repeat MfStep k1) = Some s1 /\ f_lock s1 = LFree /\ f_h s1 = f_h s).
    { subst k1. destruct s as [can wk lk inn cb pc h tk tr po ra]. cf_simp. clear G.
      destruct J1 as [->| ->]; eexists; (split; [cbv; reflexivity|split; reflexivity]). }
    destruct X as (s1 & X1 & X2 & X3).
    destruct (G s1) as (k & s' & H1 & H2 & H3); try congruence.
    exists k1, k, s'. split; [subst k1; destruct (f_pc s); lia|]. split; [exact H1|]. rewrite exec_app, X1. auto.
  - destruct (G s) as (k & s' & H1 & H2 & H3); try congruence.
    { intros _. destruct J1 as [->|[->|[(w & ->)| ->]]]; exact I. }
    exists 0, k, s'. cbn [repeat app]. auto with arith.
Qed.
End Facts.
