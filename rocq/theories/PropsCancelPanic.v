(** C79. See DESIGN.md for what is modelled and what the theorems rest on. *)
From Verif Require Import Base Conc CancelPanic CancelPanicFacts.

(** ** C79: a CancelableFuture when the inner future, the callback or a waker panics *)

(** Two panics, a discard in another thread, and the cancellation: the inner future panics at the first poll and is pending at the second; the handle is
    discarded; the Drop of the inner future panics at the third poll; the fourth one calls the callback. *)
Definition ex_cp : list (cp_move nat) :=
  [MPoll 1; MGo; MAns None; MPoll 2; MGo; MAns (Some Pending); MCloned true; MGo; MOld true; MGo; MGo] ++
  [MDiscard; MH; MH; MH; MH; MH; MWoke true] ++ [MPoll 3; MGo; MDropped false].
Definition ex_cp_end : list (cp_move nat) := [MPoll 3; MGo; MGo; MCall (Some 9); MGo].

(** Whatever panics: the callback is called at most once, the inner future is dropped at most once, and it is not polled after that. *)
Theorem C79_once : forall A l (s : cp_st A), exec cp_step cp_init l = Some s ->
  count v_call (p_trace s) <= 1 /\ count v_drop (p_trace s) <= 1 /\ forall a b, p_trace s = a ++ VDropInner :: b -> existsb v_inner b = false.
Proof. exact @cp_once. Qed.
Print Assumptions C79_once.
Example C79_once_ex : exists s, exec cp_step cp_init (ex_cp ++ ex_cp_end) = Some s
  /\ p_trace s = [VPoll 1; VInner None; VPanic; VPoll 2; VInner (Some Pending); VRet 2 Pending; VDiscard; VWake 2; VDiscarded; VPoll 3; VDropInner; VPanic;
                  VPoll 3; VCall; VRet 3 (Ready 9)].
Proof. eexists. split; reflexivity. Qed.

(** Until the cancellation a poll polls the inner future, also when it has panicked before, and returns its result. *)
Theorem C79_through : forall A l (s : cp_st A) t a, exec cp_step cp_init l = Some s -> p_cancelled s = false -> p_pc s = PIdle ->
  exists s', exec cp_step s [MPoll t; MGo; MAns a] = Some s' /\ firstn (length (p_trace s) + 2) (p_trace s') = p_trace s ++ [VPoll t; VInner a]
    /\ (forall v, a = Some (Ready v) -> exists s2, cp_step s' MGo = Some s2 /\ p_trace s2 = p_trace s ++ [VPoll t; VInner a; VRet t (Ready v)]).
Proof. exact @cp_through. Qed.
Print Assumptions C79_through.
Example C79_through_ex : exists s, exec cp_step cp_init (firstn 3 ex_cp) = Some s /\ p_cancelled s = false /\ p_pc s = PIdle /\ p_trace s = [VPoll 1; VInner None; VPanic].
Proof. eexists. split; [vm_compute; reflexivity|]. repeat split. Qed.

(** A poll that starts after the cancellation neither polls the inner future nor returns Pending. *)
Theorem C79_cancelled : forall A l1 (s1 : cp_st A) l2 s2, exec cp_step cp_init l1 = Some s1 -> p_cancelled s1 = true -> p_pc s1 = PIdle -> exec cp_step s1 l2 = Some s2 ->
  exists tr, p_trace s2 = p_trace s1 ++ tr /\ existsb v_inner tr = false /\ existsb v_pending tr = false.
Proof. exact @cp_cancelled. Qed.
Print Assumptions C79_cancelled.
Example C79_cancelled_ex : exists s1 s2, exec cp_step cp_init ex_cp = Some s1 /\ p_cancelled s1 = true /\ p_pc s1 = PIdle /\ exec cp_step s1 ex_cp_end = Some s2.
Proof. do 2 eexists. split; [vm_compute; reflexivity|]. repeat split. Qed.

(** As long as the callback has not been called, the next poll calls it and returns what it returns, whatever has panicked before (also the Drop of the
    inner future in an earlier poll that was to call it). *)
Theorem C79_next_poll : forall A l (s : cp_st A) t v, exec cp_step cp_init l = Some s -> p_cancelled s = true -> p_pc s = PIdle -> ~ In VCall (p_trace s) ->
  let dropped := existsb v_drop (p_trace s) in
  exists s', exec cp_step s ([MPoll t; MGo] ++ (if dropped then [] else [MDropped true]) ++ [MGo; MCall (Some v); MGo]) = Some s'
    /\ p_trace s' = p_trace s ++ [VPoll t] ++ (if dropped then [] else [VDropInner]) ++ [VCall; VRet t (Ready v)] /\ p_pc s' = PIdle.
Proof. exact @cp_next. Qed.
Print Assumptions C79_next_poll.
Example C79_next_poll_ex : exists s, exec cp_step cp_init ex_cp = Some s /\ p_cancelled s = true /\ p_pc s = PIdle /\ ~ In VCall (p_trace s) /\ existsb v_drop (p_trace s) = true.
Proof. eexists. split; [vm_compute; reflexivity|]. repeat split. cbn. intuition discriminate. Qed.

(** Once it has been called, and has returned or panicked, no poll returns again. *)
Theorem C79_gone : forall A l1 (s1 : cp_st A) l2 s2, exec cp_step cp_init l1 = Some s1 -> In VCall (p_trace s1) -> p_pc s1 = PIdle -> exec cp_step s1 l2 = Some s2 ->
  exists tr, p_trace s2 = p_trace s1 ++ tr /\ existsb v_ret tr = false.
Proof. exact @cp_gone. Qed.
Print Assumptions C79_gone.
Example C79_gone_ex : exists s1 s2, exec cp_step cp_init (ex_cp ++ [MPoll 3; MGo; MGo; MCall None]) = Some s1 /\ In VCall (p_trace s1) /\ p_pc s1 = PIdle
  /\ exec cp_step s1 [MPoll 4; MGo; MGo] = Some s2 /\ p_trace s2 = p_trace s1 ++ [VPoll 4; VPanic].
Proof. do 2 eexists. split; [vm_compute; reflexivity|]. repeat split. cbn. tauto. Qed.

(** Unless the Drop of a waker panics: when discard is over, also by a panic, the future is cancelled or gone; and discard panics only if the waker that it calls does. Missing: the
    Drop of a waker that panics (C79_discard_refuted). *)
Theorem C79_discard_partial : forall A l (s : cp_st A), exec cp_step cp_init l = Some s -> ~ In VBadDrop (p_trace s) ->
  (p_h s = DDone -> p_cancelled s = true \/ In VDropFut (p_trace s)) /\ (In VDiscardPanic (p_trace s) -> exists t, In (VWake t) (p_trace s)).
Proof. exact @cp_discards. Qed.
Print Assumptions C79_discard_partial.
Example C79_discard_partial_ex : exists s, exec cp_step cp_init (firstn 17 ex_cp ++ [MWoke false]) = Some s /\ ~ In VBadDrop (p_trace s) /\ p_h s = DDone /\ In VDiscardPanic (p_trace s)
  /\ p_cancelled s = true.
Proof. eexists. split; [vm_compute; reflexivity|]. repeat split; cbn; intuition discriminate. Qed.

(** And discard wakes the task of the last poll that returned Pending, also when later polls panicked. *)
Theorem C79_wakes_partial : forall A l (s : cp_st A) t, exec cp_step cp_init l = Some s -> ~ In VBadDrop (p_trace s) -> p_pc s = PIdle -> ~ In VDiscard (p_trace s) ->
  last_pending (p_trace s) = Some t ->
  exists s', exec cp_step s [MDiscard; MH; MH; MH; MH; MH; MWoke true] = Some s' /\ p_trace s' = p_trace s ++ [VDiscard; VWake t; VDiscarded] /\ p_cancelled s' = true.
Proof. exact @cp_wakes. Qed.
Print Assumptions C79_wakes_partial.
Example C79_wakes_partial_ex : exists s, exec cp_step cp_init (firstn 11 ex_cp ++ [MPoll 4; MGo; MAns (Some Pending); MCloned false]) = Some s
  /\ ~ In VBadDrop (p_trace s) /\ p_pc s = PIdle /\ ~ In VDiscard (p_trace s) /\ last_pending (p_trace s) = Some 2.
Proof. eexists. split; [vm_compute; reflexivity|]. repeat split; cbn; intuition discriminate. Qed.

(** No panic leaves the other thread waiting: whoever is in a poll or in discard can go on, and is out of both after 13 steps at the most. *)
Theorem C79_live : forall A l (s : cp_st A), exec cp_step cp_init l = Some s -> (p_pc s <> PIdle /\ p_pc s <> PGone) \/ (p_h s <> DHeld /\ p_h s <> DDone) ->
  exists m s', goes_on m = true /\ cp_step s m = Some s'.
Proof. exact @cp_live. Qed.
Print Assumptions C79_live.
Theorem C79_bounded : forall A l (s s' : cp_st A), forallb goes_on l = true -> exec cp_step s l = Some s' -> length l <= 13.
Proof. exact @cp_bounded. Qed.
Print Assumptions C79_bounded.
Example C79_live_ex : exists s s' : cp_st nat, exec cp_step cp_init [MPoll 1; MGo; MAns (Some Pending); MCloned true; MGo; MDiscard; MH] = Some s /\ p_pc s = PStore /\ p_h s = DLock
  /\ cp_step s MH = None /\ exec cp_step s [MOld true; MGo; MH; MH; MH; MH; MGo; MWoke true] = Some s' /\ p_pc s' = PIdle /\ p_h s' = DDone.
Proof. do 2 eexists. split; [vm_compute; reflexivity|]. repeat split. Qed.

(** *** What goes wrong *)
(** The Drop of the waker of task 1 panics when a second poll replaces it: the mutex is poisoned, discard panics before it has stored anything, and the future goes on
    as if nothing had happened, up to its end. *)
Theorem C79_discard_refuted : exists s, let poll1 := [MPoll 1; MGo; MAns (Some Pending); MCloned true; MGo; MOld true; MGo; MGo] in
  exec cp_step cp_init (poll1 ++ [MPoll 2; MGo; MAns (Some Pending); MCloned true; MGo; MOld false] ++ [MDiscard; MH; MH] ++ [MPoll 2; MGo; MAns (Some (Ready 5)); MGo]) = Some s
  /\ p_trace s = [VPoll 1; VInner (Some Pending); VRet 1 Pending; VPoll 2; VInner (Some Pending); VBadDrop; VPanic; VDiscard; VDiscardPanic; VPoll 2; VInner (Some (Ready 5)); VRet 2 (Ready 5)]
  /\ p_h s = DDone /\ p_cancelled s = false.
Proof. eexists. split; [vm_compute; reflexivity|]. repeat split. Qed.
Print Assumptions C79_discard_refuted.

(** The callback panics once: a later poll does not call it again, it panics (on an unwrap in the library). *)
Theorem C79_again_refuted : exists s, exec cp_step cp_init ([MDiscard; MH; MH; MH; MH; MH] ++ [MPoll 1; MGo; MDropped true; MGo; MCall None] ++ [MPoll 1; MGo; MGo] : list (cp_move nat)) = Some s
  /\ p_trace s = [VDiscard; VDiscarded; VPoll 1; VDropInner; VCall; VPanic; VPoll 1; VPanic].
Proof. eexists. split; [vm_compute; reflexivity|]. reflexivity. Qed.
Print Assumptions C79_again_refuted.
