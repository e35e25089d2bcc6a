(** C76. See DESIGN.md for what is modelled and what the theorems rest on. *)
From Verif Require Import Base Spec Conc PoisonFacts BroadPanic BroadPanicFacts.

(** ** C76: what is left of a Broadcaster when user code panics *)

(** Whatever has panicked: every value that the closure of a child is given is the newest one that the input has yielded by then, and newer than all
    that it was given before; when the child answers Pending or the end, its closure has been given the newest value (and perhaps panicked on it). *)
Theorem C76_latest : forall A l (s : bx_st A) k h1 n a h2, exec bx_step bx_init l = Some s -> x_hist (x_kids s k) = h1 ++ (n, a) :: h2 ->
  n <= length (x_log s) /\
  match a with
  | XGave v | XThrew v => bx_newest (firstn n (x_log s)) = Some v /\ forall m b u, In (m, b) h1 -> b = XGave u \/ b = XThrew u -> m < n
  | XPending => bx_newest (bx_given h1) = bx_newest (firstn n (x_log s))
  | XEnd => bx_newest (bx_given h1) = bx_newest (firstn n (x_log s)) /\ x_done s = true /\ n = length (x_log s)
  | XPanic => True
  end.
Proof. exact @bx_latest. Qed.
Print Assumptions C76_latest.

(** No value is given twice or out of order. *)
Theorem C76_once : forall A l (s : bx_st A) k, exec bx_step bx_init l = Some s -> subseq (bx_given (x_hist (x_kids s k))) (x_log s).
Proof. exact @bx_once. Qed.
Print Assumptions C76_once.

(** A poll polls the input if it is the first after a notification (or the first of all). *)
Theorem C76_asks : forall A (s : bx_st A) k s', bx_step s (XPoll k) = Some s' ->
  x_changed s' = false /\ x_pc (x_kids s' k) = (if x_changed s then XWrite else XRead) /\ x_hist (x_kids s' k) = x_hist (x_kids s k)
  /\ x_log s' = x_log s /\ x_bad s' = x_bad s.
Proof. exact @bx_asks. Qed.
Print Assumptions C76_asks.

(** Every poll comes to an end. The library panics only if the lock is poisoned or the input panics; the lock gets poisoned exactly by a panic of
    the input, or of the closure of the child that has just polled it. After Pending the input has not ended and the waker is stored. *)
Theorem C76_poisons : forall A l (s : bx_st A) k vs e ok, exec bx_step bx_init l = Some s -> x_pc (x_kids s k) <> XIdle ->
  exists s' a, bx_step s (XRun k vs e ok) = Some s' /\ x_hist (x_kids s' k) = x_hist (x_kids s k) ++ [(length (x_log s'), a)]
    /\ x_pc (x_kids s' k) = XIdle
    /\ (a = XPanic <-> x_bad s = true \/ (x_pc (x_kids s k) = XWrite /\ x_done s = false /\ e = InPanic))
    /\ (x_bad s' = true <-> x_bad s = true \/ (x_pc (x_kids s k) = XWrite /\ (x_done s = false /\ e = InPanic \/ exists v, a = XThrew v)))
    /\ (a = XPending -> x_done s' = false /\ x_waker (x_kids s' k) = true)
    /\ x_log s' = (if negb (x_bad s) && negb (x_done s) then match x_pc (x_kids s k) with XWrite => x_log s ++ vs | _ => x_log s end else x_log s).
Proof. exact @bx_runs. Qed.
Print Assumptions C76_poisons.

Theorem C76_poisons_only : forall A (s : bx_st A) m s', bx_step s m = Some s' -> (forall k vs e ok, m <> XRun k vs e ok) ->
  x_bad s' = x_bad s /\ x_log s' = x_log s /\ forall k, x_alive (x_kids s k) = true -> k < x_nkid s -> x_hist (x_kids s' k) = x_hist (x_kids s k).
Proof. exact @bx_others. Qed.
Print Assumptions C76_poisons_only.

(** Then every poll of every child panics, and the input is never polled again. *)
Theorem C76_poisoned : forall A l0 (s : bx_st A) l s', exec bx_step bx_init l0 = Some s -> x_bad s = true -> exec bx_step s l = Some s' ->
  x_bad s' = true /\ x_log s' = x_log s /\ forall k, exists h, x_hist (x_kids s' k) = x_hist (x_kids s k) ++ h /\ Forall (fun e => snd e = XPanic) h.
Proof. exact @bx_dead. Qed.
Print Assumptions C76_poisoned.

(** A child that has not polled the input changes nothing for others, also if its closure panics. Missing: the child
    that has polled the input. *)
Theorem C76_alone_partial : forall A (s : bx_st A) k vs e ok s', x_pc (x_kids s k) = XRead -> bx_step s (XRun k vs e ok) = Some s' ->
  x_log s' = x_log s /\ x_done s' = x_done s /\ x_value s' = x_value s /\ x_top s' = x_top s /\ x_bad s' = x_bad s /\ x_changed s' = x_changed s
  /\ x_wbad s' = x_wbad s /\ x_list s' = x_list s /\ forall j, j <> k -> x_kids s' j = x_kids s j.
Proof. exact @bx_reader. Qed.
Print Assumptions C76_alone_partial.

(** While the lock is not poisoned the next value gets through, whatever panicked before. *)
Theorem C76_next : forall A l (s : bx_st A) k vs v e, exec bx_step bx_init l = Some s -> x_bad s = false -> x_done s = false ->
  x_pc (x_kids s k) = XWrite -> e <> InPanic ->
  exists s', bx_step s (XRun k (vs ++ [v]) e true) = Some s' /\ x_bad s' = false /\ x_log s' = x_log s ++ vs ++ [v]
    /\ x_hist (x_kids s' k) = x_hist (x_kids s k) ++ [(length (x_log s'), XGave v)].
Proof. exact @bx_next. Qed.
Print Assumptions C76_next.

(** A call of the notifier panics exactly if it gets to a waker that panics. If not, every child that waits is woken; either way the next
    poll of any child polls the input. Missing: wakers that panic. *)
Theorem C76_woken_partial : forall A l (s : bx_st A) n s', exec bx_step bx_init l = Some s -> x_wbad s = false -> bx_step s (XNotify n) = Some s' ->
  x_changed s' = true
  /\ (x_wbad s' = true <-> exists i, n = Some i /\ i < length (bx_sleepers s))
  /\ x_threw s' = x_threw s ++ [x_wbad s']
  /\ (x_wbad s' = false -> forall k, x_alive (x_kids s k) = true -> x_waker (x_kids s k) = true -> x_woken (x_kids s' k) = true).
Proof. exact @bx_notify. Qed.
Print Assumptions C76_woken_partial.

(** After such a panic every call of the notifier and of signal() panics and does nothing; polls go on. *)
Theorem C76_wakers : forall A (s : bx_st A) m s', x_wbad s = true -> bx_step s m = Some s' -> x_wbad s' = true /\
  match m with
  | XNew | XNotify _ => s' = mkX (x_log s) (x_done s) (x_value s) (x_top s) (x_bad s) (x_changed s) true (x_kids s) (x_nkid s) (x_list s) (x_threw s ++ [true])
  | _ => x_threw s' = x_threw s
  end.
Proof. exact @bx_wbad_dead. Qed.
Print Assumptions C76_wakers.

Theorem C76_wakers_only : forall A (s : bx_st A) m s', bx_step s m = Some s' -> x_wbad s = false -> (forall n, m <> XNotify n) -> x_wbad s' = false.
Proof. exact @bx_wbad_only. Qed.
Print Assumptions C76_wakers_only.

(** *** Cases *)
Definition ex_two : list (bx_mv nat) := [XNew; XNew; XPoll 0; XRun 0 [4] InPending true; XPoll 1; XRun 1 [] InPending true; XPoll 0; XRun 0 [] InPending true; XPoll 1; XRun 1 [] InPending true].
(** Child 1 panics on value 5 under the read lock, and goes on with 6. *)
Definition ex_read : list (bx_mv nat) := ex_two ++ [XNotify None; XPoll 0; XRun 0 [5] InPending true; XPoll 1; XRun 1 [] InPending false;
  XPoll 1; XRun 1 [] InPending true; XNotify None; XPoll 1; XRun 1 [6] InEnd true; XPoll 0; XRun 0 [] InPending true; XPoll 0; XRun 0 [] InPending true].
Example C76_latest_ex : exists s, exec bx_step bx_init ex_read = Some s /\ (x_log s = [4; 5; 6] /\ x_bad s = false /\
  x_hist (x_kids s 0) = [(1, XGave 4); (1, XPending); (2, XGave 5); (3, XGave 6); (3, XEnd)] /\
  x_hist (x_kids s 1) = [(1, XGave 4); (1, XPending); (2, XThrew 5); (2, XPending); (3, XGave 6)]).
Proof. apply ex_run. vm_compute. repeat split. Qed.

(** Child 0, which polls the input, panics on value 5: child 1 never sees it. *)
Definition ex_write : list (bx_mv nat) := ex_two ++ [XNotify None; XPoll 0; XRun 0 [5] InPending false].
Example C76_poisons_ex : exists s, exec bx_step bx_init (removelast ex_write) = Some s /\ (x_pc (x_kids s 0) = XWrite /\ x_bad s = false).
Proof. apply ex_run. vm_compute. repeat split. Qed.
Example C76_asks_ex : exists s s', exec bx_step bx_init (removelast (removelast ex_write)) = Some s /\ bx_step s (XPoll 0) = Some s'
  /\ (x_changed s = true /\ x_pc (x_kids s' 0) = XWrite).
Proof. apply (ex_run_twice _ (fun s => bx_step s (XPoll 0))). vm_compute. repeat split. Qed.
Example C76_poisoned_ex : exists s s', exec bx_step bx_init ex_write = Some s
  /\ exec bx_step s [XPoll 0; XPoll 1; XRun 1 [9] InPending true; XNotify None; XRun 0 [] InPending true] = Some s'
  /\ (x_bad s = true /\ x_hist (x_kids s' 0) = [(1, XGave 4); (1, XPending); (2, XThrew 5); (2, XPanic)] /\ x_hist (x_kids s' 1) = [(1, XGave 4); (1, XPending); (2, XPanic)]).
Proof. apply (ex_run_twice _ (fun s => exec bx_step s _)). vm_compute. repeat split. Qed.
Example C76_alone_partial_ex : exists s s', exec bx_step bx_init (firstn 14 ex_read) = Some s /\ bx_step s (XRun 1 [] InPending false) = Some s'
  /\ (x_pc (x_kids s 1) = XRead /\ x_bad s' = false /\ x_hist (x_kids s' 1) = [(1, XGave 4); (1, XPending); (2, XThrew 5)]).
Proof. apply (ex_run_twice _ (fun s => bx_step s (XRun 1 [] InPending false))). vm_compute. repeat split. Qed.
Example C76_next_ex : exists s, exec bx_step bx_init (firstn 19 ex_read) = Some s /\ (x_bad s = false /\ x_done s = false /\ x_pc (x_kids s 1) = XWrite
  /\ x_hist (x_kids s 1) = [(1, XGave 4); (1, XPending); (2, XThrew 5); (2, XPending)]).
Proof. apply ex_run. vm_compute. repeat split. Qed.
Example C76_woken_partial_ex : exists s s', exec bx_step bx_init ex_two = Some s /\ bx_step s (XNotify (Some 2)) = Some s'
  /\ (x_wbad s = false /\ bx_sleepers s = [0; 1] /\ x_wbad s' = false /\ x_woken (x_kids s' 0) = true /\ x_woken (x_kids s' 1) = true).
Proof. apply (ex_run_twice _ (fun s => bx_step s (XNotify (Some 2)))). vm_compute. repeat split. Qed.

(** *** What fails: a panic of the closure of one child is not the matter of this child alone *)
Theorem C76_sibling_refuted : exists l (s : bx_st nat), exec bx_step bx_init l = Some s
  /\ (Forall (fun e => match snd e with XThrew _ => False | _ => True end) (x_hist (x_kids s 1)) /\ x_done s = false
  /\ x_bad s = true /\ x_hist (x_kids s 1) = [(1, XGave 4); (1, XPending); (2, XPanic)] /\ x_log s = [4; 5]).
Proof. exists (ex_write ++ [XPoll 1; XRun 1 [] InPending true]). apply ex_run. vm_compute. repeat split. repeat constructor. Qed.
Print Assumptions C76_sibling_refuted.

(** A value on which the closure panicked is lost for the child, which then waits for another one. *)
Theorem C76_lost_refuted : exists l (s : bx_st nat), exec bx_step bx_init l = Some s
  /\ (x_bad s = false /\ x_log s = [4; 5] /\ x_hist (x_kids s 1) = [(1, XGave 4); (1, XPending); (2, XThrew 5); (2, XPending)]).
Proof. exists (firstn 17 ex_read). apply ex_run. vm_compute. repeat split. Qed.
Print Assumptions C76_lost_refuted.

(** A waker that panics keeps its siblings from being woken, now and at all later changes, and makes whoever changes the input panic. *)
Theorem C76_unwoken_refuted : exists l (s : bx_st nat), exec bx_step bx_init l = Some s
  /\ (x_changed s = true /\ x_bad s = false /\ x_alive (x_kids s 1) = true /\ x_waker (x_kids s 1) = true /\ x_woken (x_kids s 1) = false
  /\ x_threw s = [false; false; true; true; true]).
Proof. exists (ex_two ++ [XNotify (Some 0); XNotify None; XNew]). apply ex_run. vm_compute. repeat split. Qed.
Print Assumptions C76_unwoken_refuted.
