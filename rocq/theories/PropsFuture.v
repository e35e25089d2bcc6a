(** Properties of cancelable_future (C55), for every interleaving, every inner future and every
    moment of discarding. *)
From Verif Require Import Base Conc CancelFuture CancelFutureFacts.

Ltac run_cf := repeat (split; [vm_compute; reflexivity|]); vm_compute; repeat split; discriminate || reflexivity.

(** Two polls by task 7, both Pending, the handle discarded during the second, then the cancelling poll. *)
Definition ex_cf_moves : list (cf_move nat) :=
  [MfPoll 7; MfStep; MfInner Pending; MfStep; MfStep; MfStep; MfStep;
   MfPoll 7; MfStep; MfDiscard; MfHStep; MfHStep; MfInner Pending; MfHStep; MfHStep; MfHStep; MfStep; MfStep; MfStep; MfStep;
   MfHStep; MfPoll 7; MfStep; MfCall 3; MfStep].

(** Everything the task sees: polls of the inner future whose results are passed on, and after them at
    most one poll that drops the inner future, calls the callback and returns its result; the latter
    only if discard was called. *)
Theorem C55_view : forall A l (s : cf_st A), exec cf_step cf_init l = Some s -> f_pc s = FIdle ->
  exists rs, task_view (f_trace s) = inner_polls 1 rs
  \/ (exists t v, task_view (f_trace s) = inner_polls 1 rs ++ cancelled_poll (S (length rs)) t v
       /\ In EDiscard (f_trace s)).
Proof. exact @cf_view. Qed.
Print Assumptions C55_view.

Example C55_view_ex : exists s, exec cf_step cf_init ex_cf_moves = Some s /\ f_pc s = FIdle
  /\ task_view (f_trace s) = inner_polls 1 [(7, Pending); (7, Pending)] ++ cancelled_poll 3 7 3.
Proof. eexists. run_cf. Qed.

(** Until discard is called the future is the inner future: what it did is a list of inner polls, and
    a poll is a poll of the inner future. *)
Theorem C55_transparent : forall A l (s : cf_st A), exec cf_step cf_init l = Some s -> ~ In EDiscard (f_trace s) ->
  f_pc s = FIdle -> exists rs, task_view (f_trace s) = inner_polls 1 rs.
Proof. exact @cf_transparent. Qed.
Print Assumptions C55_transparent.

Theorem C55_poll_through : forall A l (s : cf_st A) t r, exec cf_step cf_init l = Some s -> ~ In EDiscard (f_trace s) ->
  f_pc s = FIdle -> exists k s',
  exec cf_step s ([MfPoll t; MfStep; MfInner r] ++ repeat MfStep k) = Some s' /\ f_pc s' = FIdle
  /\ f_trace s' = f_trace s ++ [EPoll (S (f_polls s)) t; EInner r; ERet (S (f_polls s)) r].
Proof. exact @cf_poll_through. Qed.
Print Assumptions C55_poll_through.

Example C55_transparent_ex : exists s, exec cf_step cf_init (firstn 7 ex_cf_moves) = Some s
  /\ f_pc s = FIdle /\ f_trace s = [EPoll 1 7; EInner Pending; ERet 1 Pending].
Proof. eexists. run_cf. Qed.

(** Once discard has returned (and no poll was in progress then): the inner future is never polled
    again, every answer is one that the callback gave, nobody is woken any more. *)
Theorem C55_cancelled : forall A l1 (s1 : cf_st A) l2 s2,
  exec cf_step cf_init l1 = Some s1 -> f_h s1 = HRet -> f_pc s1 = FIdle -> exec cf_step s1 l2 = Some s2 ->
  exists t, f_trace s2 = f_trace s1 ++ t /\ existsb is_inner t = false
    /\ (forall n r, In (ERet n r) t -> exists v, r = Ready v /\ In (ECall v) t)
    /\ existsb is_wake t = false.
Proof. exact @cf_cancelled. Qed.
Print Assumptions C55_cancelled.

(** ... and the next poll drops the inner future, calls the callback and returns its result. *)
Theorem C55_next_poll : forall A l (s : cf_st A) t v,
  exec cf_step cf_init l = Some s -> f_h s = HRet -> f_pc s = FIdle -> existsb is_call (f_trace s) = false ->
  exists s', exec cf_step s [MfPoll t; MfStep; MfCall v; MfStep] = Some s' /\ f_pc s' = FIdle
    /\ f_trace s' = f_trace s ++ cancelled_poll (S (f_polls s)) t v.
Proof. exact @cf_next_poll. Qed.
Print Assumptions C55_next_poll.

Example C55_cancelled_ex : exists s1 s2, exec cf_step cf_init (firstn 21 ex_cf_moves) = Some s1
  /\ exec cf_step s1 (skipn 21 ex_cf_moves) = Some s2
  /\ f_h s1 = HRet /\ f_pc s1 = FIdle /\ existsb is_call (f_trace s1) = false
  /\ skipn (length (f_trace s1)) (f_trace s2) = cancelled_poll 3 7 3.
Proof. do 2 eexists. run_cf. Qed.

(** The callback runs at most once; the inner future is dropped at most once, and when the whole
    future is dropped it was dropped exactly once. *)
Theorem C55_once : forall A l (s : cf_st A), exec cf_step cf_init l = Some s ->
  count is_call (f_trace s) <= 1 /\ count is_dropi (f_trace s) <= 1
  /\ (f_pc s = FGone -> count is_dropi (f_trace s) = 1).
Proof. exact @cf_once. Qed.
Print Assumptions C55_once.

Example C55_once_ex : exists s, exec cf_step cf_init (ex_cf_moves ++ [MfDrop]) = Some s
  /\ f_pc s = FGone /\ count is_call (f_trace s) = 1 /\ count is_dropi (f_trace s) = 1.
Proof. eexists. run_cf. Qed.

(** The inner future is not polled after it was dropped. *)
Theorem C55_no_poll_after_drop : forall A l (s : cf_st A) a b, exec cf_step cf_init l = Some s ->
  f_trace s = a ++ EDropInner :: b -> existsb is_inner b = false.
Proof. exact @cf_no_poll_after_drop. Qed.
Print Assumptions C55_no_poll_after_drop.

Example C55_no_poll_after_drop_ex : exists s, exec cf_step cf_init ex_cf_moves = Some s
  /\ f_trace s = firstn 10 (f_trace s) ++ EDropInner :: skipn 11 (f_trace s).
Proof. eexists. run_cf. Qed.

(** A poll panics only when the future had already returned the cancellation. *)
Theorem C55_no_panic : forall A l (s : cf_st A), exec cf_step cf_init l = Some s -> f_pc s = FPanicked ->
  exists n v, In (ECall v) (f_trace s) /\ In (ERet n (Ready v)) (f_trace s).
Proof. exact @cf_no_panic. Qed.
Print Assumptions C55_no_panic.

Example C55_no_panic_ex : exists s, exec cf_step cf_init (ex_cf_moves ++ [MfPoll 7; MfStep]) = Some s /\ f_pc s = FPanicked.
Proof. eexists. run_cf. Qed.

(** discard returns: it waits at most for a poll that is storing its waker. *)
Theorem C55_discard_finishes : forall A l (s : cf_st A), exec cf_step cf_init l = Some s -> f_h s <> HHeld ->
  exists k1 k2 s', k1 <= 2 /\ k2 <= 6
  /\ exec cf_step s (repeat MfStep k1 ++ repeat MfHStep k2) = Some s' /\ f_h s' = HRet.
Proof. exact @cf_discard_finishes. Qed.
Print Assumptions C55_discard_finishes.

Example C55_discard_finishes_ex : exists s,
  exec cf_step (@cf_init nat) [MfPoll 7; MfStep; MfInner Pending; MfStep; MfDiscard; MfHStep] = Some s
  /\ f_h s = HLock /\ cf_step s MfHStep = None.
Proof. eexists. run_cf. Qed.

(** It wakes at most one task, once; only discard wakes. *)
Theorem C55_wakes_once : forall A l (s : cf_st A), exec cf_step cf_init l = Some s ->
  count is_wake (f_trace s) <= 1 /\ (existsb is_wake (f_trace s) = true -> In EDiscard (f_trace s) /\ f_h s = HRet).
Proof. exact @cf_wakes. Qed.
Print Assumptions C55_wakes_once.

(** *** Waking *)

(** A wake-up counts for a poll if it comes after the start of that poll. *)
Example C55_woken_since_ex :
  woken_since 7 [EPoll 1 7; ERet 1 (@Pending nat); EPoll 2 7; EWake 7; ERet 2 Pending]
  /\ ~ woken_since 7 [EPoll 1 7; EWake 7; ERet 1 (@Pending nat); EPoll 2 7; ERet 2 Pending].
Proof.
  split.
  - exists [EPoll 1 7; ERet 1 Pending], 2, 7, [EWake 7; ERet 2 Pending]. repeat split. left. reflexivity.
  - intros (a & n & t & b & H & Hp & Hw).
    do 5 (destruct a as [|? a]; [injection H; intros; subst; cbn in Hp, Hw; intuition discriminate|injection H; intros Ht _; clear H; rename Ht into H]).
    destruct a; discriminate H.
Qed.

(** Refuted: a task that waits is not always woken by discard. The poll has found the future not
    cancelled, and is polling the inner future; the whole discard takes place and finds no waker;
    the inner future returns Pending, the poll stores its waker and returns Pending. One thread is
    enough: the inner future may own the handle and drop it. *)
Definition ex_cf_lost : list (cf_move nat) :=
  [MfPoll 7; MfStep; MfDiscard; MfHStep; MfHStep; MfHStep; MfHStep; MfHStep; MfInner Pending; MfStep; MfStep; MfStep; MfStep].

Theorem C55_woken_refuted : ~ (forall l (s : cf_st nat), exec cf_step cf_init l = Some s ->
  f_pc s = FIdle -> In (ERet (f_polls s) Pending) (f_trace s) -> f_h s = HRet ->
  woken_since (f_task s) (f_trace s)).
Proof.
  intros H. destruct (exec cf_step cf_init ex_cf_lost) as [s|] eqn:E; [|vm_compute in E; discriminate E].
  specialize (H _ _ E). vm_compute in E. injection E as <-. cbn in H.
  destruct H as (a & n & t & b & Ht & _ & Hin); auto 10.
  assert (G : In (EWake 7) (a ++ EPoll n t :: b)) by (apply in_or_app; right; right; exact Hin).
  rewrite <- Ht in G. cbn in G. repeat (destruct G as [G|G]; [discriminate G|]). exact G.
Qed.
Print Assumptions C55_woken_refuted.

(** What holds: if discard did not set the flag between the last poll's look at it and that poll's
    storing of its waker, the task is woken. *)
Theorem C55_woken_partial : forall A l (s : cf_st A), exec cf_step cf_init l = Some s ->
  f_pc s = FIdle -> In (ERet (f_polls s) Pending) (f_trace s) -> f_h s = HRet -> f_raced s = false ->
  woken_since (f_task s) (f_trace s).
Proof. exact @cf_woken. Qed.
Print Assumptions C55_woken_partial.

Example C55_woken_partial_ex : exists s, exec cf_step cf_init
    (firstn 7 ex_cf_moves ++ [MfDiscard; MfHStep; MfHStep; MfHStep; MfHStep; MfHStep; MfHStep]) = Some s
  /\ f_pc s = FIdle /\ f_h s = HRet /\ f_raced s = false
  /\ f_trace s = [EPoll 1 7; EInner Pending; ERet 1 Pending; EDiscard; EWake 7; EDiscarded].
Proof. eexists. run_cf. Qed.

(** ... and even in that race, if all polls were made by the same task and an earlier one had
    returned Pending: discard then wakes through the waker of the earlier poll. *)
Theorem C55_woken_again_partial : forall A t l (s : cf_st A), exec cf_step cf_init l = Some s ->
  (forall n t', In (EPoll n t') (f_trace s) -> t' = t) ->
  f_pc s = FIdle -> In (ERet (f_polls s) Pending) (f_trace s) -> f_h s = HRet ->
  (exists n, n < f_polls s /\ In (ERet n Pending) (f_trace s)) ->
  woken_since t (f_trace s).
Proof. exact @cf_woken_again. Qed.
Print Assumptions C55_woken_again_partial.

Example C55_woken_again_partial_ex : exists s, exec cf_step cf_init (firstn 21 ex_cf_moves) = Some s
  /\ f_pc s = FIdle /\ f_h s = HRet /\ f_raced s = true /\ f_polls s = 2
  /\ f_trace s = [EPoll 1 7; EInner Pending; ERet 1 Pending; EPoll 2 7; EDiscard; EInner Pending; ERet 2 Pending;
                  EWake 7; EDiscarded].
Proof. eexists. run_cf. Qed.
