(** C74. See DESIGN.md for what is modelled and what the theorems rest on. *)
From Verif Require Import Base Spec Conc Poison PoisonFacts PoisonFacts2.

(** ** C74: what is left of a Mutable when user code panics *)

(** Nobody sees what a call that panicked has left: every value that is returned is the one that the latest write left, and the
    lock was not poisoned by then. *)
Theorem C74_sees : forall A (d : A) l s l1 v l2, exec po_step (po_init d) l = Some s -> o_log s = l1 ++ ESee v :: l2 ->
  written d l1 = v /\ ~ In EPoison l1.
Proof. exact @po_sees. Qed.
Print Assumptions C74_sees.

(** The same for what signals yield. *)
Theorem C74_signals_see : forall A (d : A) l s k v, exec po_step (po_init d) l = Some s ->
  In (Some (Ready (Some v))) (q_ans (o_sig s k)) -> In (ESee v) (o_log s).
Proof. exact @po_seen. Qed.
Print Assumptions C74_signals_see.

(** Once the lock is poisoned nothing but panics happens. *)
Theorem C74_poisoned : forall A (d : A) l s l1 e l2, exec po_step (po_init d) l = Some s -> o_log s = l1 ++ e :: l2 -> In EPoison l1 -> e = EPanic.
Proof. exact @po_dead. Qed.
Print Assumptions C74_poisoned.

(** While nobody has dropped the last handle, every call that needs the lock then comes back, with a panic. *)
Theorem C74_calls : forall A (d : A) l s m, exec po_step (po_init d) l = Some s -> o_poisoned s = true -> o_aborted s = false ->
  (exists w, m = NWrite w) \/ (exists ok, m = NGet ok) \/ m = NSignal -> 1 <= o_senders s ->
  exists s', po_step s m = Some s' /\ o_log s' = o_log s ++ [EPanic] /\ o_value s' = o_value s /\ o_sig s' = o_sig s.
Proof. exact @po_calls. Qed.
Print Assumptions C74_calls.

(** A closure that panics under the write lock poisons it, and nobody is notified of what it has left. *)
Theorem C74_closure : forall A (s : po_st A) w x s', o_poisoned s = false ->
  (exists f, w = WWith f /\ f (o_value s) = (x, None)) \/ (exists v f, w = WIf v f /\ f (o_value s) v = None /\ x = o_value s) ->
  po_step s (NWrite w) = Some s' ->
  o_poisoned s' = true /\ o_log s' = o_log s ++ [EWrite x; EPoison; EPanic] /\ o_woken s' = o_woken s /\ o_sig s' = o_sig s /\ o_job s' = None.
Proof. exact @po_closure. Qed.
Print Assumptions C74_closure.

(** Nothing of the library panics of itself: if clone, the users of guards and the closures of signals do not panic, then a writer's
    panic has come before any other. *)
Theorem C74_panics : forall A (d : A) l s l1 l2, exec po_step (po_init d) l = Some s -> (forall m, In m l -> m <> NGet false /\ forall k, m <> NRead k false) ->
  o_aborted s = false -> o_log s = l1 ++ EPanic :: l2 -> In EPoison l1.
Proof. exact @po_marked. Qed.
Print Assumptions C74_panics.

(** A panic of somebody who reads (of clone, of the user of a lock_ref, of the closure of a signal_ref) changes nothing, except for that
    one signal. *)
Theorem C74_reader : forall A (s : po_st A) m s', o_poisoned s = false -> (m = NGet false \/ exists k, m = NRead k false) -> po_step s m = Some s' ->
  o_value s' = o_value s /\ o_poisoned s' = false /\ o_aborted s' = false /\ o_senders s' = o_senders s /\ o_signals s' = o_signals s /\ o_nsig s' = o_nsig s
  /\ o_job s' = o_job s /\ o_drops s' = o_drops s /\ o_woken s' = o_woken s /\ o_log s' = o_log s ++ [EPanic]
  /\ forall i, m = NRead i false \/ o_sig s' i = o_sig s i.
Proof. exact @po_reader. Qed.
Print Assumptions C74_reader.

(** As long as no writer panics, a signal which did not panic itself and which has no change pending has yielded the present value, whatever
    the other readers and signals do. Missing: signals whose closure panicked (C74_callback_refuted); all after a writer
    panicked (C74_asleep_refuted, C74_waker_refuted). *)
Theorem C74_current_partial : forall A (d : A) l s k, exec po_step (po_init d) l = Some s -> ~ In EPoison (o_log s) -> o_job s = None ->
  q_alive (o_sig s k) = true -> q_pc (o_sig s k) = QIdle -> q_changed (o_sig s k) = false -> ~ In None (q_ans (o_sig s k)) ->
  latest_of (said (q_ans (o_sig s k))) = Some (o_value s).
Proof. exact @po_current. Qed.
Print Assumptions C74_current_partial.

(** Whoever panics: a signal that answered Pending has been woken once there is a change for it, and once all handles are gone and the
    lock is not poisoned. Missing: notifications that come in the middle of a poll (C74_race_refuted); the end after a poisoning (C74_asleep_refuted). *)
Theorem C74_woken_partial : forall A (d : A) l s k, exec po_step (po_init d) l = Some s ->
  (forall l1 ok l2 s1 j, l = l1 ++ NNotify ok :: l2 -> exec po_step (po_init d) l1 = Some s1 -> o_job s1 = Some j -> hd_error (j_todo j) = Some k ->
     q_pc (o_sig s1 k) = QIdle \/ q_pc (o_sig s1 k) = QRead) ->
  q_alive (o_sig s k) = true -> q_pc (o_sig s k) = QIdle -> (exists p, q_ans (o_sig s k) = p ++ [Some Pending]) ->
  q_changed (o_sig s k) = true \/ (o_senders s = 0 /\ po_quiet s /\ ~ In EPoison (o_log s)) -> In (k, q_polls (o_sig s k)) (o_woken s).
Proof. exact @po_woken. Qed.
Print Assumptions C74_woken_partial.

(** The program is aborted only if a thread that is panicking already drops a handle or a lock_mut guard. *)
Theorem C74_no_abort_partial : forall A (d : A) l s, exec po_step (po_init d) l = Some s -> (forall m, In m l -> ~ unwinds m) -> o_aborted s = false.
Proof. exact @po_no_abort. Qed.
Print Assumptions C74_no_abort_partial.

(** *** What goes wrong *)
Definition ex_wait k : list (po_move nat) := [NPoll k; NRead k true; NPoll k; NSend k; NWait k].

(** Nobody panics, but a set notifies between the two steps of a poll: the signal sleeps on a change. *)
Theorem C74_race_refuted : exists l s, exec po_step (po_init 7) l = Some s /\ o_log s = [ESee 7; EWrite 8] /\ po_quiet s /\ o_senders s = 1
  /\ q_alive (o_sig s 0) = true /\ q_pc (o_sig s 0) = QIdle /\ q_ans (o_sig s 0) = [Some (Ready (Some 7)); Some Pending]
  /\ q_changed (o_sig s 0) = true /\ o_woken s = [].
Proof.
  exists [NSignal; NPoll 0; NRead 0 true; NPoll 0; NSend 0; NWrite (WSet 8); NNotify true; NRelease; NWait 0]. apply ex_run. vm_compute. repeat split.
Qed.
Print Assumptions C74_race_refuted.

(** The closure of a signal_ref panics once. All later polls say Pending; the value is not yielded although nothing else happened. *)
Theorem C74_callback_refuted : exists l s, exec po_step (po_init 7) l = Some s /\ o_poisoned s = false /\ po_quiet s /\ o_senders s = 1
  /\ q_alive (o_sig s 0) = true /\ q_pc (o_sig s 0) = QIdle /\ q_changed (o_sig s 0) = false
  /\ q_ans (o_sig s 0) = [None; Some Pending; Some Pending] /\ latest_of (said (q_ans (o_sig s 0))) = None.
Proof.
  exists [NSignal; NPoll 0; NRead 0 false; NPoll 0; NSend 0; NWait 0; NPoll 0; NSend 0; NWait 0]. apply ex_run. vm_compute. repeat split.
Qed.
Print Assumptions C74_callback_refuted.

(** The closure of replace_with panics, and then all handles are dropped. A signal that waits for a change is not woken by either, although it
    would end if it were polled. *)
Theorem C74_asleep_refuted : exists l s, exec po_step (po_init 7) l = Some s /\ po_quiet s /\ o_senders s = 0
  /\ q_alive (o_sig s 0) = true /\ q_ans (o_sig s 0) = [Some (Ready (Some 7)); Some Pending] /\ q_waker (o_sig s 0) = Some 2 /\ o_woken s = []
  /\ exists s', exec po_step s [NPoll 0; NSend 0] = Some s' /\ q_ans (o_sig s' 0) = [Some (Ready (Some 7)); Some Pending; Some (Ready None)].
Proof.
  exists (NSignal :: ex_wait 0 ++ [NWrite (WWith (fun a => (a, None))); NDrop false; NDropLock]). apply ex_run. vm_compute.
  do 6 (split; [try split; reflexivity|]). eexists. split; reflexivity.
Qed.
Print Assumptions C74_asleep_refuted.

(** The waker of one signal panics. The other signals are not woken by the change, nor will they be marked as changed. *)
Theorem C74_waker_refuted : exists l s, exec po_step (po_init 7) l = Some s /\ po_quiet s /\ o_senders s = 1 /\ o_value s = 8
  /\ q_alive (o_sig s 1) = true /\ q_changed (o_sig s 1) = false /\ q_ans (o_sig s 1) = [Some (Ready (Some 7)); Some Pending]
  /\ q_waker (o_sig s 1) = Some 2 /\ o_woken s = [(0, 2)].
Proof.
  exists (NSignal :: NSignal :: ex_wait 0 ++ ex_wait 1 ++ [NWrite (WSet 8); NNotify false]). apply ex_run. vm_compute. repeat split.
Qed.
Print Assumptions C74_waker_refuted.

(** The closure of replace_with panics in the function that owns the only handle: the program is aborted. *)
Theorem C74_abort_refuted : exists l s, exec po_step (po_init 7) l = Some s /\ o_aborted s = true /\ o_log s = [EWrite 7; EPoison; EPanic; EPanic].
Proof. exists [NWrite (WWith (fun a => (a, None))); NDrop true; NDropLock]. apply ex_run. vm_compute. split; reflexivity. Qed.
Print Assumptions C74_abort_refuted.

(** *** The theorems are not empty *)
(** A reader and the closure of signal 0 panic; signal 1 is polled while a set is in the middle of its notification. *)
Definition ex_panics : list (po_move nat) :=
  [NSignal; NSignal; NPoll 0; NRead 0 false; NGet false] ++ ex_wait 1
  ++ [NWrite (WGuard (fun a => Some (a + 1)) false); NNotify true; NPoll 1; NNotify true; NSend 1; NWait 1; NRelease; NPoll 1; NRead 1 true; NGet true].
Example C74_current_partial_ex : exists s, exec po_step (po_init 7) ex_panics = Some s /\ o_poisoned s = false /\ o_job s = None
  /\ q_alive (o_sig s 1) = true /\ q_pc (o_sig s 1) = QIdle /\ q_changed (o_sig s 1) = false
  /\ q_ans (o_sig s 1) = [Some (Ready (Some 7)); Some Pending; Some Pending; Some (Ready (Some 8))] /\ o_value s = 8
  /\ q_ans (o_sig s 0) = [None] /\ o_log s = [EPanic; EPanic; ESee 7; EWrite 8; ESee 8; ESee 8] /\ o_aborted s = false.
Proof. apply ex_run. vm_compute. repeat split. Qed.
(** Then somebody panics with a lock_mut guard, having left 9: signals are notified, but nobody gets to see it. *)
Example C74_poisoned_ex : exists s, exec po_step (po_init 7) (ex_panics ++ [NWrite (WGuard (fun a => Some (a + 1)) true); NNotify true; NNotify true; NRelease; NPoll 1; NRead 1 true; NGet true]) = Some s
  /\ o_value s = 9 /\ o_log s = [EPanic; EPanic; ESee 7; EWrite 8; ESee 8; ESee 8; EWrite 9; EPoison; EPanic; EPanic; EPanic].
Proof. apply ex_run. vm_compute. repeat split. Qed.
Example C74_reader_ex : exists s s', exec po_step (po_init 7) [NSignal; NPoll 0] = Some s /\ po_step s (NRead 0 false) = Some s' /\ o_poisoned s = false.
Proof. do 2 eexists. split; [reflexivity|]. split; reflexivity. Qed.
Example C74_no_abort_partial_ex : forall m, In m ex_panics -> ~ unwinds m.
Proof. intros m H. cbn in H. repeat (destruct H as [<-|H]; [intros [E|(f & E)]; discriminate|]). contradiction. Qed.
Example C74_calls_ex : exists s, exec po_step (po_init 7) (NClone :: NSignal :: ex_wait 0 ++ [NWrite (WIf 9 (fun _ _ => None)); NGet true; NWrite (WSet 8); NSignal]) = Some s
  /\ o_poisoned s = true /\ o_aborted s = false /\ o_senders s = 2 /\ o_log s = [ESee 7; EWrite 7; EPoison; EPanic; EPanic; EPanic; EPanic].
Proof. apply ex_run. vm_compute. repeat split. Qed.
Example C74_closure_ex : exists s', po_step (po_init 7) (NWrite (WWith (fun a => (a + 1, None)))) = Some s' /\ o_value s' = 8 /\ o_log s' = [EWrite 8; EPoison; EPanic].
Proof. apply ex_run. vm_compute. repeat split. Qed.
(** A set wakes signals 0 and 1, of which 0 panics when it wakes up and 1 ends after the last drop. *)
Definition ex_woken : list (po_move nat) :=
  NSignal :: NSignal :: ex_wait 0 ++ ex_wait 1 ++ [NWrite (WSet 8); NNotify true; NNotify true; NRelease; NPoll 0; NRead 0 false] ++ ex_wait 1 ++ [NDrop false; NDropLock; NNotify true; NNotify true; NRelease].
Example C74_woken_partial_ex : exists s, exec po_step (po_init 7) ex_woken = Some s /\ o_senders s = 0 /\ po_quiet s
  /\ q_alive (o_sig s 1) = true /\ q_pc (o_sig s 1) = QIdle /\ q_polls (o_sig s 1) = 4 /\ q_ans (o_sig s 1) = [Some (Ready (Some 7)); Some Pending; Some (Ready (Some 8)); Some Pending]
  /\ o_woken s = [(0, 2); (1, 2); (1, 4)] /\ o_log s = [ESee 7; ESee 7; EWrite 8; EPanic; ESee 8].
Proof. apply ex_run. vm_compute. repeat split. Qed.
Example C74_woken_unraced : forall l1 ok l2 s1 j, ex_woken = l1 ++ NNotify ok :: l2 -> exec po_step (po_init 7) l1 = Some s1 -> o_job s1 = Some j -> hd_error (j_todo j) = Some 1 ->
  q_pc (o_sig s1 1) = QIdle \/ q_pc (o_sig s1 1) = QRead.
Proof. exact (unraced_ok ex_woken 1 (po_init 7) eq_refl). Qed.
