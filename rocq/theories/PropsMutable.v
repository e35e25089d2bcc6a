(** Properties of Mutable and its signals (C32, C45-C49, C63, C64), for every interleaving. *)
From Verif Require Import Base Spec BaseFacts Conc Mutable MutableFacts MutableFacts2 MutableFacts3 MutableFacts4
  MutableFacts5 MutableFacts6 MutableFacts7 MutableFacts8 MutableFacts9 MutableFacts10 MutableFacts11 MutableFacts12 MutableFacts13 MutableEx.

(** ** C45 *)

(** Whenever no call is in progress, a signal that is not being polled and has no change pending has
    output the current value last. *)
Theorem C45_current : forall A (d : A) l s k, exec mu_step (mu_init d) l = Some s -> mu_quiet s -> k < m_nsig s ->
  g_pc (m_sig s k) = GIdle -> g_changed (m_sig s k) = false -> latest_of (g_ans (m_sig s k)) = Some (val_of s k).
Proof. exact @mu_current. Qed.
Print Assumptions C45_current.

(** ... and with or without a change pending, one poll brings it up to date. *)
Theorem C45_next_poll : forall A (d : A) l s k, exec mu_step (mu_init d) l = Some s -> mu_quiet s -> sigs_idle s ->
  k < m_nsig s -> g_pc (m_sig s k) = GIdle ->
  exists n s', exec mu_step s (XPoll k :: repeat (XSig k) n) = Some s' /\ g_pc (m_sig s' k) = GIdle /\
    val_of s' k = val_of s k /\ m_ops s' = m_ops s /\ latest_of (g_ans (m_sig s' k)) = Some (val_of s k).
Proof. exact @mu_next_poll. Qed.
Print Assumptions C45_next_poll.

(** Two signals; two sets overlap each other and polls of both signals; afterwards signal 0 has a
    change pending, signal 1 has not. *)
Definition ex_mu_two : list (mu_move nat) :=
  ex_mu_start ++ [XSignal 0] ++ repeat (XSig 1) 3 ++ [XPoll 0; XSet 0 2; XSet 0 3; XOp 1; XSig 0] ++ repeat (XOp 1) 12
  ++ [XPoll 1; XSig 1; XOp 0] ++ repeat (XOp 0) 12 ++ repeat (XSig 0) 2 ++ repeat (XSig 1) 3.
Example C45_current_ex : exists s, exec mu_step (mu_init 0) (ex_mu_two ++ XPoll 1 :: repeat (XSig 1) 4) = Some s /\
  quietb s = true /\ m_nsig s = 2
  /\ g_pc (m_sig s 1) = GIdle /\ g_changed (m_sig s 1) = false /\ g_ans (m_sig s 1) = [Ready (Some 2); Ready (Some 2)]
  /\ idleb s = true /\ g_pc (m_sig s 0) = GIdle /\ g_changed (m_sig s 0) = true
  /\ g_ans (m_sig s 0) = [Ready (Some 1); Pending] /\ val_of s 1 = 2.
Proof. run_mu. Qed.

(** Every value a poll outputs was the value of the Mutable at some moment during that poll. *)
Theorem C45_within_poll : forall A (s : mu_st A) k l s' v t, k < m_nsig s -> g_pc (m_sig s k) = GIdle ->
  exec mu_step s (XPoll k :: l) = Some s' -> g_ans (m_sig s' k) = g_ans (m_sig s k) ++ Ready (Some v) :: t ->
  exists l1 l2 s1, l = l1 ++ l2 /\ exec mu_step s (XPoll k :: l1) = Some s1 /\ val_of s1 k = v
    /\ g_ans (m_sig s1 k) = g_ans (m_sig s k).
Proof. exact @mu_within_poll. Qed.
Print Assumptions C45_within_poll.

(** The value changes during the poll; the new one is output. *)
Example C45_within_poll_ex : exists s s', exec mu_step (mu_init 0) ([XNew 1; XSignal 0] ++ repeat (XSig 0) 3) = Some s
  /\ exec mu_step s ([XPoll 0; XSig 0; XSet 0 2] ++ repeat (XOp 0) 9 ++ repeat (XSig 0) 3) = Some s'
  /\ (m_nsig s = 1 /\ g_pc (m_sig s 0) = GIdle /\ g_ans (m_sig s 0) = [] /\ g_ans (m_sig s' 0) = [Ready (Some 2)]).
Proof.
  apply (ran2 (exec mu_step (mu_init 0) ([XNew 1; XSignal 0] ++ repeat (XSig 0) 3))
    (fun s => exec mu_step s ([XPoll 0; XSig 0; XSet 0 2] ++ repeat (XOp 0) 9 ++ repeat (XSig 0) 3))
    (fun s s' => m_nsig s = 1 /\ g_pc (m_sig s 0) = GIdle /\ g_ans (m_sig s 0) = [] /\ g_ans (m_sig s' 0) = [Ready (Some 2)])).
  split_ex.
Qed.

(** ** C46 *)

(** Refuted: a change that falls between is_changed and set_waker of a poll is lost; the task sleeps
    on although everything is quiet and the value differs from what it has seen. *)
Theorem C46_woken_refuted :
  ~ (forall (d : nat) l s k, exec mu_step (mu_init d) l = Some s -> mu_quiet s -> sigs_idle s -> k < m_nsig s ->
  g_pc (m_sig s k) = GIdle -> g_waiting (m_sig s k) = true -> latest_of (g_ans (m_sig s k)) <> Some (val_of s k) ->
  In (k, g_polls (m_sig s k)) (m_woken s)).
Proof. exact mu_lost. Qed.
Print Assumptions C46_woken_refuted.

(** Refuted in the same way for the last drop. *)
Theorem C46_woken_end_refuted :
  ~ (forall (d : nat) l s k, exec mu_step (mu_init d) l = Some s -> mu_quiet s -> sigs_idle s -> k < m_nsig s ->
  g_pc (m_sig s k) = GIdle -> g_waiting (m_sig s k) = true -> all_gone s (mut_of s k) ->
  In (k, g_polls (m_sig s k)) (m_woken s)).
Proof. exact mu_lost_drop. Qed.
Print Assumptions C46_woken_end_refuted.

(** What holds: if the waker was not taken between is_changed and set_waker of the last poll
    ([g_raced]), a waiting signal whose flag is set was woken or is just being woken. Missing: polls
    into which a notification falls. *)
Theorem C46_woken_partial : forall A (d : A) l s k, exec mu_step (mu_init d) l = Some s -> k < m_nsig s ->
  g_pc (m_sig s k) = GIdle -> g_waiting (m_sig s k) = true -> g_raced (m_sig s k) = false -> g_changed (m_sig s k) = true ->
  In (k, g_polls (m_sig s k)) (m_woken s) \/ notifying s k.
Proof. exact @mu_woken. Qed.
Print Assumptions C46_woken_partial.

(** ... and once everything is quiet it was woken if the value is not the one seen last or no handle is left. *)
Theorem C46_woken_quiet_partial : forall A (d : A) l s k, exec mu_step (mu_init d) l = Some s -> mu_quiet s ->
  k < m_nsig s -> g_pc (m_sig s k) = GIdle -> g_waiting (m_sig s k) = true -> g_raced (m_sig s k) = false ->
  latest_of (g_ans (m_sig s k)) <> Some (val_of s k) \/ all_gone s (mut_of s k) ->
  In (k, g_polls (m_sig s k)) (m_woken s).
Proof. exact @mu_woken_quiet. Qed.
Print Assumptions C46_woken_quiet_partial.

(** Without ghosts: a poll with nothing in between, as in single-threaded use, and then anything
    except a further poll of that signal. *)
Theorem C46_woken_alone_partial : forall A (d : A) l s k n s1 l2 s2, exec mu_step (mu_init d) l = Some s -> k < m_nsig s ->
  exec mu_step s (XPoll k :: repeat (XSig k) n) = Some s1 -> g_pc (m_sig s1 k) = GIdle -> g_waiting (m_sig s1 k) = true ->
  exec mu_step s1 l2 = Some s2 -> g_polls (m_sig s2 k) = g_polls (m_sig s1 k) -> g_pc (m_sig s2 k) = GIdle -> mu_quiet s2 ->
  latest_of (g_ans (m_sig s2 k)) <> Some (val_of s2 k) \/ all_gone s2 (mut_of s2 k) ->
  In (k, g_polls (m_sig s2 k)) (m_woken s2).
Proof. exact @mu_woken_alone. Qed.
Print Assumptions C46_woken_alone_partial.

Definition ex_mu_then : list (mu_move nat) :=
  [XClone 0; XOp 0; XSet 1 2; XSet 0 3; XOp 2; XOp 2; XOp 2; XOp 2; XOp 2].
Example C46_woken_alone_ex : exists s s1 s2, exec mu_step (mu_init 0) ex_mu_start = Some s
  /\ exec mu_step s (XPoll 0 :: repeat (XSig 0) 3) = Some s1
  /\ exec mu_step s1 (ex_mu_then ++ repeat (XOp 2) 5 ++ repeat (XOp 1) 9) = Some s2
  /\ (m_nsig s = 1 /\ g_pc (m_sig s1 0) = GIdle /\ g_waiting (m_sig s1 0) = true /\ g_raced (m_sig s1 0) = false
  /\ g_polls (m_sig s1 0) = 2 /\ g_polls (m_sig s2 0) = 2 /\ g_pc (m_sig s2 0) = GIdle
  /\ quietb s2 = true /\ g_ans (m_sig s2 0) = [Ready (Some 1); Pending] /\ val_of s2 0 = 2 /\ m_woken s2 = [(0, 2)]).
Proof.
  refine (ran3 _ (fun s => exec mu_step s (XPoll 0 :: repeat (XSig 0) 3)) (fun s1 => exec mu_step s1 (ex_mu_then ++ repeat (XOp 2) 5 ++ repeat (XOp 1) 9))
   (fun s s1 s2 => m_nsig s = 1 /\ g_pc (m_sig s1 0) = GIdle /\ g_waiting (m_sig s1 0) = true /\ g_raced (m_sig s1 0) = false
  /\ g_polls (m_sig s1 0) = 2 /\ g_polls (m_sig s2 0) = 2 /\ g_pc (m_sig s2 0) = GIdle
  /\ quietb s2 = true /\ g_ans (m_sig s2 0) = [Ready (Some 1); Pending] /\ val_of s2 0 = 2 /\ m_woken s2 = [(0, 2)]) _).
  split_ex.
Qed.
Example C46_woken_ex : exists s, exec mu_step (mu_init 0) (ex_mu_wait ++ ex_mu_then) = Some s /\ m_nsig s = 1
  /\ g_pc (m_sig s 0) = GIdle /\ g_waiting (m_sig s 0) = true /\ g_raced (m_sig s 0) = false /\ g_changed (m_sig s 0) = true
  /\ g_polls (m_sig s 0) = 2 /\ m_woken s = [] /\ quietb s = false.
Proof. run_mu. Qed.
Example C46_woken_quiet_ex : exists s, exec mu_step (mu_init 0) (ex_mu_wait ++ [XDrop 0] ++ repeat (XOp 0) 11) = Some s
  /\ quietb s = true /\ m_nsig s = 1 /\ g_pc (m_sig s 0) = GIdle /\ g_waiting (m_sig s 0) = true /\ g_raced (m_sig s 0) = false
  /\ m_live s = [] /\ g_polls (m_sig s 0) = 2 /\ m_woken s = [(0, 2)].
Proof. run_mu. Qed.

(** ** C47 *)

(** A signal that has ended has no handle left. *)
Theorem C47_ends_only : forall A (d : A) l s k, exec mu_step (mu_init d) l = Some s -> k < m_nsig s ->
  In (Ready None) (g_ans (m_sig s k)) -> all_gone s (mut_of s k).
Proof. exact @mu_ends_only. Qed.
Print Assumptions C47_ends_only.

(** When no handle is left, no call is in progress and no poll, two polls end the signal, and the
    last value was output before. *)
Theorem C47_ends : forall A (d : A) l s k, exec mu_step (mu_init d) l = Some s -> mu_quiet s -> sigs_idle s ->
  k < m_nsig s -> g_pc (m_sig s k) = GIdle -> all_gone s (mut_of s k) ->
  exists n1 n2 s', exec mu_step s ((XPoll k :: repeat (XSig k) n1) ++ (XPoll k :: repeat (XSig k) n2)) = Some s'
    /\ last_out (g_ans (m_sig s' k)) (Ready None) /\ latest_of (g_ans (m_sig s' k)) = Some (val_of s k).
Proof. exact @mu_ends. Qed.
Print Assumptions C47_ends.

Definition ex_mu_gone : list (mu_move nat) := ex_mu_wait ++ [XSet 0 2] ++ repeat (XOp 0) 10 ++ [XDrop 0] ++ repeat (XOp 1) 10.
Example C47_ends_ex : exists s, exec mu_step (mu_init 0) ex_mu_gone = Some s /\ quietb s = true /\ idleb s = true
  /\ m_nsig s = 1 /\ g_pc (m_sig s 0) = GIdle /\ m_live s = [] /\ g_ans (m_sig s 0) = [Ready (Some 1); Pending].
Proof. run_mu. Qed.
Example C47_ends_only_ex : exists s, exec mu_step (mu_init 0) (ex_mu_gone ++ (XPoll 0 :: repeat (XSig 0) 4) ++ XPoll 0 :: repeat (XSig 0) 2) = Some s
  /\ g_ans (m_sig s 0) = [Ready (Some 1); Pending; Ready (Some 2); Ready None] /\ m_live s = [].
Proof. run_mu. Qed.

(** Refuted: the last value can be skipped. The poll finds no change; then a value is set and the last
    handle dropped; then the poll finds no handle. *)
Theorem C47_last_value_refuted :
  ~ (forall (d : nat) l s k s', exec mu_step (mu_init d) l = Some s -> k < m_nsig s ->
  mu_step s (XSig k) = Some s' -> g_ans (m_sig s' k) = g_ans (m_sig s k) ++ [Ready None] ->
  latest_of (g_ans (m_sig s k)) = Some (val_of s k)).
Proof. exact mu_lost_value. Qed.
Print Assumptions C47_last_value_refuted.

(** What holds: a poll that ends the signal while no change is pending comes after the final value.
    Missing: a change that falls between is_changed and senders.load of that poll. *)
Theorem C47_last_value_partial : forall A (d : A) l s k s' l2 s2, exec mu_step (mu_init d) l = Some s -> k < m_nsig s ->
  mu_step s (XSig k) = Some s' -> g_ans (m_sig s' k) = g_ans (m_sig s k) ++ [Ready None] ->
  g_changed (m_sig s k) = false -> exec mu_step s' l2 = Some s2 ->
  latest_of (g_ans (m_sig s k)) = Some (val_of s k) /\ val_of s2 k = val_of s k.
Proof. exact @mu_last_value. Qed.
Print Assumptions C47_last_value_partial.

Example C47_last_value_ex : exists s s',
  exec mu_step (mu_init 0) (ex_mu_gone ++ (XPoll 0 :: repeat (XSig 0) 4) ++ [XPoll 0; XSig 0]) = Some s
  /\ mu_step s (XSig 0) = Some s'
  /\ (m_nsig s = 1 /\ g_changed (m_sig s 0) = false /\ g_ans (m_sig s 0) = [Ready (Some 1); Pending; Ready (Some 2)]
      /\ g_ans (m_sig s' 0) = [Ready (Some 1); Pending; Ready (Some 2); Ready None]).
Proof.
  refine (ran2 _ (fun s => mu_step s (XSig 0)) (fun s s' => m_nsig s = 1 /\ g_changed (m_sig s 0) = false /\ g_ans (m_sig s 0) = [Ready (Some 1); Pending; Ready (Some 2)]
      /\ g_ans (m_sig s' 0) = [Ready (Some 1); Pending; Ready (Some 2); Ready None]) _).
  split_ex.
Qed.

(** ** C48 *)

(** What the log of marks says: an entry (call, signal) is made when the call sets the flag of the
    signal, and flags are not set otherwise. *)
Theorem C48_log : forall A (s : mu_st A) mv s', mu_step s mv = Some s' ->
  m_marks s' = m_marks s \/ exists i k, mv = XOp i /\ m_marks s' = m_marks s ++ [(i, k)] /\ g_changed (m_sig s' k) = true.
Proof. exact @mark_step. Qed.
Print Assumptions C48_log.
Theorem C48_log_complete : forall A (s : mu_st A) mv s' k, mu_step s mv = Some s' -> k < m_nsig s ->
  g_changed (m_sig s k) = false -> g_changed (m_sig s' k) = true -> exists i, mv = XOp i /\ m_marks s' = m_marks s ++ [(i, k)].
Proof. exact @flag_step. Qed.
Print Assumptions C48_log_complete.

(** set, replace and replace_with mark every signal that existed when they were called and still
    exists when they return. *)
Theorem C48_write : forall A (d : A) l s h f m s1 l2 s2 o k, exec mu_step (mu_init d) l = Some s ->
  lookup h (m_live s) = Some m -> (forall v, f v <> None) -> mu_step s (XWrite h f) = Some s1 -> exec mu_step s1 l2 = Some s2 ->
  nth_error (m_ops s2) (length (m_ops s)) = Some o -> o_done o = true ->
  k < m_nsig s -> mut_of s k = m -> g_created (m_sig s k) -> g_pc (m_sig s2 k) <> GGone ->
  In (length (m_ops s), k) (m_marks s2).
Proof. exact @mu_write_marks. Qed.
Print Assumptions C48_write.

(** So does swap, for the signals of both Mutables. *)
Theorem C48_swap : forall A (d : A) l s h h' m m' s1 l2 s2 o k, exec mu_step (mu_init d) l = Some s ->
  lookup h (m_live s) = Some m -> lookup h' (m_live s) = Some m' -> mu_step s (XSwap h h') = Some s1 ->
  exec mu_step s1 l2 = Some s2 -> nth_error (m_ops s2) (length (m_ops s)) = Some o -> o_done o = true ->
  k < m_nsig s -> mut_of s k = m \/ mut_of s k = m' -> g_created (m_sig s k) -> g_pc (m_sig s2 k) <> GGone ->
  In (length (m_ops s), k) (m_marks s2).
Proof. exact @mu_swap_marks. Qed.
Print Assumptions C48_swap.

(** So does the guard of lock_mut, if it was mutably dereferenced. *)
Theorem C48_guard : forall A (d : A) l s i o m b v s1 l2 s2 o2 k, exec mu_step (mu_init d) l = Some s ->
  nth_error (m_ops s) i = Some o -> o_pc o = QGuard m b -> mu_step s (XGuard i v) = Some s1 -> exec mu_step s1 l2 = Some s2 ->
  nth_error (m_ops s2) i = Some o2 -> o_done o2 = true ->
  k < m_nsig s -> mut_of s k = m -> g_created (m_sig s k) -> g_pc (m_sig s2 k) <> GGone ->
  In (i, k) (m_marks s2).
Proof. exact @mu_guard_marks. Qed.
Print Assumptions C48_guard.

(** Two Mutables with a signal each; a swap, a guard that is used, a set during which a signal is dropped. *)
Definition ex_mu_pair : list (mu_move nat) :=
  [XNew 1; XNew 2; XSignal 0; XSignal 1] ++ repeat (XSig 0) 3 ++ repeat (XSig 1) 3.
Example C48_write_ex : exists s, exec mu_step (mu_init 0) (ex_mu_pair ++ [XSet 0 5] ++ repeat (XOp 0) 9) = Some s
  /\ quietb s = true /\ m_marks s = [(0, 0)] /\ val_of s 0 = 5.
Proof. run_mu. Qed.
Example C48_swap_ex : exists s, exec mu_step (mu_init 0) (ex_mu_pair ++ [XSwap 1 0] ++ repeat (XOp 0) 16) = Some s
  /\ quietb s = true /\ m_marks s = [(0, 1); (0, 0)] /\ val_of s 0 = 2 /\ val_of s 1 = 1.
Proof. run_mu. Qed.
Example C48_guard_ex : exists s, exec mu_step (mu_init 0) (ex_mu_pair ++ [XLockMut 0; XOp 0; XGuard 0 8; XGuard 0 9] ++ repeat (XOp 0) 8) = Some s
  /\ quietb s = true /\ m_marks s = [(0, 0)] /\ val_of s 0 = 9.
Proof. run_mu. Qed.

(** get, lock_ref, clone and drop mark none. *)
Theorem C48_silent : forall A (d : A) l s mv s1 l2 s2 k, exec mu_step (mu_init d) l = Some s ->
  match mv with XRead _ | XClone _ | XDrop _ => True | _ => False end ->
  mu_step s mv = Some s1 -> exec mu_step s1 l2 = Some s2 -> ~ In (length (m_ops s), k) (m_marks s2).
Proof. exact @mu_read_silent. Qed.
Print Assumptions C48_silent.

(** A guard that is never mutably dereferenced marks none. *)
Theorem C48_guard_silent : forall A (d : A) l s h s1 l2 s2 k, exec mu_step (mu_init d) l = Some s ->
  mu_step s (XLockMut h) = Some s1 -> exec mu_step s1 l2 = Some s2 -> (forall v, ~ In (XGuard (length (m_ops s)) v) l2) ->
  ~ In (length (m_ops s), k) (m_marks s2).
Proof. exact @mu_guard_silent. Qed.
Print Assumptions C48_guard_silent.

(** set_if and set_neq mark none if the predicate, asked under the lock, rejects. *)
Theorem C48_reject_silent : forall A (d : A) l s i o m f l2 s2 k, exec mu_step (mu_init d) l = Some s ->
  nth_error (m_ops s) i = Some o -> o_pc o = QBody m f -> f (v_val (m_mut s m)) = None ->
  exec mu_step s (XOp i :: l2) = Some s2 -> ~ In (i, k) (m_marks s2).
Proof. exact @mu_reject_silent. Qed.
Print Assumptions C48_reject_silent.

Example C48_silent_ex : exists s, exec mu_step (mu_init 0)
    (ex_mu_wait ++ [XRead 0; XOp 0; XOp 0; XClone 0; XOp 1; XLockMut 1; XOp 2; XOp 2; XOp 2; XOp 2; XDrop 1; XOp 3; XSetNeq 0 1 Nat.eqb]
     ++ repeat (XOp 4) 4) = Some s
  /\ quietb s = true /\ m_marks s = [] /\ length (m_ops s) = 5 /\ g_changed (m_sig s 0) = false.
Proof. run_mu. Qed.

(** Refuted: with set_neq alone a signal can output the same value twice in a row; the value may change
    and change back between two polls. *)
Theorem C48_set_neq_refuted :
  ~ (forall (d : nat) l s k v p q, exec mu_step (mu_init d) l = Some s -> only_set_neq l -> k < m_nsig s ->
  yielded (g_ans (m_sig s k)) = p ++ v :: v :: q -> False).
Proof. exact mu_neq_repeats. Qed.
Print Assumptions C48_set_neq_refuted.

(** What holds: after a quiet moment at which the signal was up to date, it outputs again only if the
    Mutable had a different value in between ([strict_mv]: the only writes are ones that never write
    the value that is already there). Missing: values that change back; polls that overlap the calls. *)
Theorem C48_set_neq_partial : forall A (d : A) l s k l2 s2 rest v, exec mu_step (mu_init d) l = Some s -> mu_quiet s ->
  k < m_nsig s -> g_pc (m_sig s k) = GIdle -> g_changed (m_sig s k) = false -> Forall strict_mv l2 ->
  exec mu_step s l2 = Some s2 -> g_ans (m_sig s2 k) = g_ans (m_sig s k) ++ rest -> In (Ready (Some v)) rest ->
  exists l3 l4 s3, l2 = l3 ++ l4 /\ exec mu_step s l3 = Some s3 /\ val_of s3 k <> val_of s k.
Proof. exact @mu_neq. Qed.
Print Assumptions C48_set_neq_partial.

(** set_neq is such a write. *)
Theorem C48_set_neq_strict : forall A h (v : A) eqb, (forall a b, eqb a b = false -> a <> b) -> strict_mv (XSetNeq h v eqb).
Proof. exact @set_neq_strict. Qed.
Print Assumptions C48_set_neq_strict.

Example C48_set_neq_ex : exists s s', exec mu_step (mu_init 0) ex_mu_wait = Some s
  /\ exec mu_step s ([XSetNeq 0 1 Nat.eqb] ++ repeat (XOp 0) 4 ++ [XSetNeq 0 2 Nat.eqb] ++ repeat (XOp 1) 10 ++ XPoll 0 :: repeat (XSig 0) 4) = Some s'
  /\ (quietb s = true /\ m_nsig s = 1 /\ g_pc (m_sig s 0) = GIdle /\ g_changed (m_sig s 0) = false
      /\ g_ans (m_sig s' 0) = g_ans (m_sig s 0) ++ [Ready (Some 2)]).
Proof.
  refine (ran2 _ (fun s => exec mu_step s ([XSetNeq 0 1 Nat.eqb] ++ repeat (XOp 0) 4 ++ [XSetNeq 0 2 Nat.eqb] ++ repeat (XOp 1) 10 ++ XPoll 0 :: repeat (XSig 0) 4))
   (fun s s' => quietb s = true /\ m_nsig s = 1 /\ g_pc (m_sig s 0) = GIdle /\ g_changed (m_sig s 0) = false
      /\ g_ans (m_sig s' 0) = g_ans (m_sig s 0) ++ [Ready (Some 2)]) _).
  split_ex.
Qed.

(** ** C49 *)

(** Refuted: two swaps of the same Mutables in opposite order can block each other for ever. *)
Theorem C49_order_refuted : exists l s, exec mu_step (mu_init 0) l = Some s /\ stuck s [0; 1].
Proof. exact (ex_intro _ ex_mu_dead mu_dead). Qed.
Print Assumptions C49_order_refuted.

(** Refuted: swap of a Mutable with a clone of itself never returns. *)
Theorem C49_self_refuted : exists l s, exec mu_step (mu_init 0) l = Some s /\ stuck s [1].
Proof. exact (ex_intro _ ex_mu_self mu_dead_self). Qed.
Print Assumptions C49_self_refuted.

(** What holds: if all swaps that are taking locks take them in an order common to all, every
    schedule is finite ([todo_steps] bounds its length) and goes on until all calls and polls are
    over. Missing: swaps in opposite orders, and of a Mutable with itself. *)
Theorem C49_terminates_partial : forall A rank (d : A) l s l2 s2, exec mu_step (mu_init d) l = Some s -> ordered rank s ->
  Forall own l2 -> exec mu_step s l2 = Some s2 ->
  length l2 <= todo_steps s /\ ((mu_quiet s2 /\ sigs_idle s2) \/ exists mv s3, own mv /\ mu_step s2 mv = Some s3).
Proof. exact (fun A => @mu_terminates A). Qed.
Print Assumptions C49_terminates_partial.

(** In particular with a single swap of two different Mutables. *)
Theorem C49_single_partial : forall A (d : A) l s i l2 s2, exec mu_step (mu_init d) l = Some s ->
  (forall j o a b, nth_error (m_ops s) j = Some o -> o_pc o = QSAcq1 a b \/ o_pc o = QSAcq2 a b -> j = i /\ a <> b) ->
  Forall own l2 -> exec mu_step s l2 = Some s2 ->
  length l2 <= todo_steps s /\ ((mu_quiet s2 /\ sigs_idle s2) \/ exists mv s3, own mv /\ mu_step s2 mv = Some s3).
Proof. exact @mu_terminates_single. Qed.
Print Assumptions C49_single_partial.

(** A swap that returns has exchanged the values, in one instant, and was not of a Mutable with itself. *)
Theorem C49_exchange : forall A (d : A) l s h h' a b s1 l2 s2 o, exec mu_step (mu_init d) l = Some s ->
  lookup h (m_live s) = Some a -> lookup h' (m_live s) = Some b -> mu_step s (XSwap h h') = Some s1 ->
  exec mu_step s1 l2 = Some s2 -> nth_error (m_ops s2) (length (m_ops s)) = Some o -> o_done o = true ->
  a <> b /\ exists l3 l4 s3 s4, l2 = l3 ++ XOp (length (m_ops s)) :: l4 /\ exec mu_step s1 l3 = Some s3
    /\ mu_step s3 (XOp (length (m_ops s))) = Some s4
    /\ v_val (m_mut s4 a) = v_val (m_mut s3 b) /\ v_val (m_mut s4 b) = v_val (m_mut s3 a)
    /\ forall m, m <> a -> m <> b -> v_val (m_mut s4 m) = v_val (m_mut s3 m).
Proof. exact @mu_exchange. Qed.
Print Assumptions C49_exchange.

(** Two swaps in the same order and a set, overlapping. *)
Example C49_terminates_ex : exists s s2,
  exec mu_step (mu_init 0) (ex_mu_pair ++ [XSwap 0 1; XSwap 0 1; XSet 1 7; XOp 1]) = Some s
  /\ exec mu_step s ([XOp 2] ++ repeat (XOp 2) 8 ++ repeat (XOp 1) 15 ++ repeat (XOp 0) 16) = Some s2
  /\ (map o_pc (firstn 2 (m_ops s)) = [QSAcq1 0 1; QSAcq2 0 1] /\ quietb s2 = true /\ idleb s2 = true
      /\ val_of s2 0 = 1 /\ val_of s2 1 = 7 /\ todo_steps s = 70).
Proof.
  refine (ran2 _ (fun s => exec mu_step s ([XOp 2] ++ repeat (XOp 2) 8 ++ repeat (XOp 1) 15 ++ repeat (XOp 0) 16))
    (fun s s2 => map o_pc (firstn 2 (m_ops s)) = [QSAcq1 0 1; QSAcq2 0 1] /\ quietb s2 = true /\ idleb s2 = true
      /\ val_of s2 0 = 1 /\ val_of s2 1 = 7 /\ todo_steps s = 70) _).
  split_ex.
Qed.

(** ** C32 *)

(** The first poll of a signal of a Mutable is answered with a value. *)
Theorem C32_mutable : forall A (d : A) l s k r rest, exec mu_step (mu_init d) l = Some s -> k < m_nsig s ->
  g_ans (m_sig s k) = r :: rest -> exists v, r = Ready (Some v).
Proof. exact @mu_first. Qed.
Print Assumptions C32_mutable.

(** Even if the Mutable was gone before the signal was created, from a ReadOnlyMutable. *)
Example C32_mutable_ex : exists s, exec mu_step (mu_init 0)
    ([XNew 1; XDrop 0] ++ repeat (XOp 0) 5 ++ [XSignal 0; XSig 0; XPoll 0] ++ repeat (XSig 0) 4) = Some s
  /\ m_nsig s = 1 /\ g_ans (m_sig s 0) = [Ready (Some 1)] /\ quietb s = true.
Proof. run_mu. Qed.

(** ** C63 *)

(** Every set-like call that returns has taken effect in one step of its own, between call and return: it
    applied [f] to the value there was at that moment, stored the result and returned what [f] said, or
    changed nothing. *)
Theorem C63_write : forall A (d : A) l s h f m s1 l2 s2 o, exec mu_step (mu_init d) l = Some s ->
  lookup h (m_live s) = Some m -> mu_step s (XWrite h f) = Some s1 -> exec mu_step s1 l2 = Some s2 ->
  nth_error (m_ops s2) (length (m_ops s)) = Some o -> o_done o = true ->
  at_once s1 l2 (length (m_ops s)) (fun a b => match f (v_val (m_mut a m)) with
    | Some (v, r) => sets m v a b /\ o_ret o = r
    | None => keeps a b /\ o_ret o = None
    end).
Proof. exact @mu_write_once. Qed.
Print Assumptions C63_write.

Theorem C63_set : forall A (d : A) l s h v m s1 l2 s2 o, exec mu_step (mu_init d) l = Some s ->
  lookup h (m_live s) = Some m -> mu_step s (XSet h v) = Some s1 -> exec mu_step s1 l2 = Some s2 ->
  nth_error (m_ops s2) (length (m_ops s)) = Some o -> o_done o = true ->
  at_once s1 l2 (length (m_ops s)) (fun a b => sets m v a b /\ o_ret o = None).
Proof. exact @mu_set_once. Qed.
Print Assumptions C63_set.

(** replace returns the value that its own write overwrote. *)
Theorem C63_replace : forall A (d : A) l s h v m s1 l2 s2 o, exec mu_step (mu_init d) l = Some s ->
  lookup h (m_live s) = Some m -> mu_step s (XReplace h v) = Some s1 -> exec mu_step s1 l2 = Some s2 ->
  nth_error (m_ops s2) (length (m_ops s)) = Some o -> o_done o = true ->
  at_once s1 l2 (length (m_ops s)) (fun a b => sets m v a b /\ o_ret o = Some (v_val (m_mut a m))).
Proof. exact @mu_replace_once. Qed.
Print Assumptions C63_replace.

(** replace_with stores what the closure returned and returns what it left in the old value; nothing comes
    between: [replace_with(|x| *x + 1)] loses no increment. *)
Theorem C63_replace_with : forall A (d : A) l s h f m s1 l2 s2 o, exec mu_step (mu_init d) l = Some s ->
  lookup h (m_live s) = Some m -> mu_step s (XReplaceWith h f) = Some s1 -> exec mu_step s1 l2 = Some s2 ->
  nth_error (m_ops s2) (length (m_ops s)) = Some o -> o_done o = true ->
  at_once s1 l2 (length (m_ops s)) (fun a b => exists left v, f (v_val (m_mut a m)) = (left, v) /\ sets m v a b /\ o_ret o = Some left).
Proof. exact @mu_replace_with_once. Qed.
Print Assumptions C63_replace_with.

(** set_if asks the closure about the old and the new value, in this order. *)
Theorem C63_set_if : forall A (d : A) l s h v f m s1 l2 s2 o, exec mu_step (mu_init d) l = Some s ->
  lookup h (m_live s) = Some m -> mu_step s (XSetIf h v f) = Some s1 -> exec mu_step s1 l2 = Some s2 ->
  nth_error (m_ops s2) (length (m_ops s)) = Some o -> o_done o = true ->
  at_once s1 l2 (length (m_ops s)) (fun a b => (if f (v_val (m_mut a m)) v then sets m v a b else keeps a b) /\ o_ret o = None).
Proof. exact @mu_set_if_once. Qed.
Print Assumptions C63_set_if.

(** Either way the value is [v] after set_neq. *)
Theorem C63_set_neq : forall A (d : A) l s h v eqb m s1 l2 s2 o, (forall a b, eqb a b = true <-> a = b) ->
  exec mu_step (mu_init d) l = Some s ->
  lookup h (m_live s) = Some m -> mu_step s (XSetNeq h v eqb) = Some s1 -> exec mu_step s1 l2 = Some s2 ->
  nth_error (m_ops s2) (length (m_ops s)) = Some o -> o_done o = true ->
  at_once s1 l2 (length (m_ops s)) (fun a b => sets m v a b /\ o_ret o = None).
Proof. exact @mu_set_neq_once. Qed.
Print Assumptions C63_set_neq.

(** get, get_cloned and lock_ref return the value at one moment of the call. *)
Theorem C63_read : forall A (d : A) l s m s1 l2 s2 o, exec mu_step (mu_init d) l = Some s ->
  mu_step s (XRead m) = Some s1 -> exec mu_step s1 l2 = Some s2 ->
  nth_error (m_ops s2) (length (m_ops s)) = Some o -> o_done o = true ->
  at_once s1 l2 (length (m_ops s)) (fun a b => keeps a b /\ o_ret o = Some (v_val (m_mut a m))).
Proof. exact @mu_read_once. Qed.
Print Assumptions C63_read.

(** Call 0 is a replace that has not got the lock yet when call 1, a replace_with, runs; call 2 reads. *)
Example C63_write_ex : exists s s1 s2, exec mu_step (mu_init 0) ex_mu_wait = Some s
  /\ mu_step s (XReplace 0 5) = Some s1
  /\ exec mu_step s1 ([XReplaceWith 0 (fun x => (x + 10, x + 1)); XRead 0] ++ repeat (XOp 1) 10 ++ repeat (XOp 0) 9 ++ repeat (XOp 2) 2
      ++ [XSetIf 0 3 Nat.leb] ++ repeat (XOp 3) 4 ++ [XSetNeq 0 6 Nat.eqb] ++ repeat (XOp 4) 9) = Some s2
  /\ (lookup 0 (m_live s) = Some 0 /\ length (m_ops s) = 0 /\ quietb s2 = true /\ val_of s 0 = 1
      /\ map o_ret (m_ops s2) = [Some 2; Some 11; Some 5; None; None] /\ val_of s2 0 = 6).
Proof.
  refine (ran3 _ (fun s => mu_step s (XReplace 0 5)) (fun s1 => exec mu_step s1 ([XReplaceWith 0 (fun x => (x + 10, x + 1)); XRead 0] ++ repeat (XOp 1) 10 ++ repeat (XOp 0) 9 ++ repeat (XOp 2) 2
      ++ [XSetIf 0 3 Nat.leb] ++ repeat (XOp 3) 4 ++ [XSetNeq 0 6 Nat.eqb] ++ repeat (XOp 4) 9)) (fun s s1 s2 => lookup 0 (m_live s) = Some 0 /\ length (m_ops s) = 0 /\ quietb s2 = true /\ val_of s 0 = 1
      /\ map o_ret (m_ops s2) = [Some 2; Some 11; Some 5; None; None] /\ val_of s2 0 = 6) _).
  split_ex.
Qed.

(** Nothing else changes the value of a Mutable: only these bodies, the body of swap, and writes through a guard. *)
Theorem C63_only : forall A (s : mu_st A) mv s' m, mu_step s mv = Some s' -> m < m_born s ->
  v_val (m_mut s' m) <> v_val (m_mut s m) ->
  exists i o, nth_error (m_ops s) i = Some o /\ (mv = XOp i /\ (exists f, o_pc o = QBody m f) \/
    mv = XOp i /\ (exists a b, o_pc o = QSBody a b /\ (m = a \/ m = b)) \/ exists b v, mv = XGuard i v /\ o_pc o = QGuard m b).
Proof. exact @mu_val_frame. Qed.
Print Assumptions C63_only.

(** While a lock_ref is held, the value stays what it was when the lock was taken. *)
Theorem C63_hold : forall A (d : A) l s i o m v, exec mu_step (mu_init d) l = Some s -> nth_error (m_ops s) i = Some o ->
  o_pc o = QRHold m v -> v_val (m_mut s m) = v.
Proof. exact @mu_hold. Qed.
Print Assumptions C63_hold.

(** While a lock_mut is held, only writes through it change the value, *)
Theorem C63_guard : forall A (d : A) l s i o m b mv s', exec mu_step (mu_init d) l = Some s ->
  nth_error (m_ops s) i = Some o -> o_pc o = QGuard m b -> mu_step s mv = Some s' ->
  v_val (m_mut s' m) = v_val (m_mut s m) \/ exists v, mv = XGuard i v.
Proof. exact @mu_guard_exclusive. Qed.
Print Assumptions C63_guard.

(** ... and nobody else holds a lock_mut or a lock_ref of that Mutable. *)
Theorem C63_guard_alone : forall A (d : A) l s i o m b j q, exec mu_step (mu_init d) l = Some s ->
  nth_error (m_ops s) i = Some o -> o_pc o = QGuard m b -> nth_error (m_ops s) j = Some q ->
  (exists v, o_pc q = QRHold m v) \/ (exists b', o_pc q = QGuard m b') -> j = i.
Proof. exact @mu_guard_alone. Qed.
Print Assumptions C63_guard_alone.

(** Two lock_refs of one Mutable; the guard of another one, through which 9 was written; a set waits. *)
Example C63_hold_ex : exists s, exec mu_step (mu_init 0)
    ([XNew 1; XNew 2; XRead 0; XRead 0; XOp 1; XOp 0; XLockMut 1; XOp 2; XSet 1 7; XGuard 2 9]) = Some s
  /\ map o_pc (firstn 3 (m_ops s)) = [QRHold 0 1; QRHold 0 1; QGuard 1 true] /\ v_val (m_mut s 1) = 9
  /\ mu_step s (XOp 3) = None.
Proof. run_mu. Qed.

(** ** C64 *)

(** A Mutable keeps its signals in a list. A write makes it forget those that were dropped before: *)
Theorem C64_write : forall A (d : A) l s h f m s1 l2 s2 o k, exec mu_step (mu_init d) l = Some s ->
  lookup h (m_live s) = Some m -> (forall v, f v <> None) -> mu_step s (XWrite h f) = Some s1 -> exec mu_step s1 l2 = Some s2 ->
  nth_error (m_ops s2) (length (m_ops s)) = Some o -> o_done o = true ->
  k < m_nsig s -> g_pc (m_sig s k) = GGone -> ~ In k (v_sigs (m_mut s2 m)).
Proof. exact @mu_write_forgets. Qed.
Print Assumptions C64_write.

(** ... so does swap, for both, ... *)
Theorem C64_swap : forall A (d : A) l s h h' a b s1 l2 s2 o k, exec mu_step (mu_init d) l = Some s ->
  lookup h (m_live s) = Some a -> lookup h' (m_live s) = Some b -> mu_step s (XSwap h h') = Some s1 -> exec mu_step s1 l2 = Some s2 ->
  nth_error (m_ops s2) (length (m_ops s)) = Some o -> o_done o = true ->
  k < m_nsig s -> g_pc (m_sig s k) = GGone -> ~ In k (v_sigs (m_mut s2 a)) /\ ~ In k (v_sigs (m_mut s2 b)).
Proof. exact @mu_swap_forgets. Qed.
Print Assumptions C64_swap.

(** ... and the guard of lock_mut, if it was written through. *)
Theorem C64_guard : forall A (d : A) l s i o m b v s1 l2 s2 o2 k, exec mu_step (mu_init d) l = Some s ->
  nth_error (m_ops s) i = Some o -> o_pc o = QGuard m b -> mu_step s (XGuard i v) = Some s1 -> exec mu_step s1 l2 = Some s2 ->
  nth_error (m_ops s2) i = Some o2 -> o_done o2 = true ->
  k < m_nsig s -> g_pc (m_sig s k) = GGone -> ~ In k (v_sigs (m_mut s2 m)).
Proof. exact @mu_guard_forgets. Qed.
Print Assumptions C64_guard.

(** When all handles are dropped, it forgets every signal that was made before. *)
Theorem C64_drop : forall A (d : A) l s h m l2 s2 k, exec mu_step (mu_init d) l = Some s ->
  lookup h (m_live s) = Some m -> exec mu_step s l2 = Some s2 -> mu_quiet s2 -> all_gone s2 m ->
  k < m_nsig s -> match g_pc (m_sig s k) with GNew | GPushAcq | GPushDo => False | _ => True end ->
  ~ In k (v_sigs (m_mut s2 m)).
Proof. exact @mu_drop_forgets. Qed.
Print Assumptions C64_drop.

(** No signal is in the list twice. *)
Theorem C64_once : forall A (d : A) l s m, exec mu_step (mu_init d) l = Some s -> NoDup (v_sigs (m_mut s m)).
Proof. exact @mu_registered_once. Qed.
Print Assumptions C64_once.

(** Signals 0 and 1; signal 0 is dropped; a set; a new handle; both handles dropped. *)
Example C64_write_ex : exists s s1 s2, exec mu_step (mu_init 0)
    (ex_mu_start ++ [XSignal 0] ++ repeat (XSig 1) 3 ++ [XDropSig 0]) = Some s
  /\ mu_step s (XSet 0 5) = Some s1 /\ exec mu_step s1 (repeat (XOp 0) 10) = Some s2
  /\ (lookup 0 (m_live s) = Some 0 /\ length (m_ops s) = 0 /\ quietb s2 = true /\ m_nsig s = 2 /\ g_pc (m_sig s 0) = GGone
      /\ v_sigs (m_mut s 0) = [0; 1] /\ v_sigs (m_mut s2 0) = [1]).
Proof.
  refine (ran3 _ (fun s => mu_step s (XSet 0 5)) (fun s1 => exec mu_step s1 (repeat (XOp 0) 10)) (fun s s1 s2 =>
      lookup 0 (m_live s) = Some 0 /\ length (m_ops s) = 0 /\ quietb s2 = true /\ m_nsig s = 2 /\ g_pc (m_sig s 0) = GGone
      /\ v_sigs (m_mut s 0) = [0; 1] /\ v_sigs (m_mut s2 0) = [1]) _).
  split_ex.
Qed.

Example C64_drop_ex : exists s s2, exec mu_step (mu_init 0)
    (ex_mu_start ++ [XSignal 0] ++ repeat (XSig 1) 3 ++ [XClone 0; XOp 0]) = Some s
  /\ exec mu_step s ([XDrop 0; XDrop 1; XOp 1; XOp 2] ++ repeat (XOp 2) 13) = Some s2
  /\ (lookup 1 (m_live s) = Some 0 /\ quietb s2 = true /\ m_live s2 = [] /\ m_nsig s = 2 /\ g_pc (m_sig s 0) = GIdle
      /\ v_sigs (m_mut s 0) = [0; 1] /\ v_sigs (m_mut s2 0) = []).
Proof.
  refine (ran2 _ (fun s => exec mu_step s ([XDrop 0; XDrop 1; XOp 1; XOp 2] ++ repeat (XOp 2) 13)) (fun s s2 =>
    lookup 1 (m_live s) = Some 0 /\ quietb s2 = true /\ m_live s2 = [] /\ m_nsig s = 2 /\ g_pc (m_sig s 0) = GIdle
      /\ v_sigs (m_mut s 0) = [0; 1] /\ v_sigs (m_mut s2 0) = []) _).
  split_ex.
Qed.

(** Signals 0 and 1 of two Mutables are dropped, then a swap. *)
Example C64_swap_ex : exists s s1 s2, exec mu_step (mu_init 0)
    ([XNew 1; XNew 2; XSignal 0; XSignal 1] ++ repeat (XSig 0) 3 ++ repeat (XSig 1) 3 ++ [XDropSig 0; XDropSig 1]) = Some s
  /\ mu_step s (XSwap 0 1) = Some s1 /\ exec mu_step s1 (repeat (XOp 0) 10) = Some s2
  /\ (lookup 0 (m_live s) = Some 0 /\ lookup 1 (m_live s) = Some 1 /\ length (m_ops s) = 0 /\ quietb s2 = true
      /\ m_nsig s = 2 /\ g_pc (m_sig s 0) = GGone
      /\ v_sigs (m_mut s 0) = [0] /\ v_sigs (m_mut s2 0) = [] /\ v_sigs (m_mut s2 1) = []).
Proof.
  refine (ran3 _ (fun s => mu_step s (XSwap 0 1)) (fun s1 => exec mu_step s1 (repeat (XOp 0) 10)) (fun s s1 s2 =>
      lookup 0 (m_live s) = Some 0 /\ lookup 1 (m_live s) = Some 1 /\ length (m_ops s) = 0 /\ quietb s2 = true
      /\ m_nsig s = 2 /\ g_pc (m_sig s 0) = GGone
      /\ v_sigs (m_mut s 0) = [0] /\ v_sigs (m_mut s2 0) = [] /\ v_sigs (m_mut s2 1) = []) _).
  split_ex.
Qed.

(** Signal 0 is dropped while a guard is held; then the guard is written through and dropped. *)
Example C64_guard_ex : exists s s1 s2, exec mu_step (mu_init 0) (ex_mu_wait ++ [XLockMut 0; XOp 0; XDropSig 0]) = Some s
  /\ mu_step s (XGuard 0 5) = Some s1 /\ exec mu_step s1 (repeat (XOp 0) 5) = Some s2
  /\ (map o_pc (m_ops s) = [QGuard 0 false] /\ quietb s2 = true /\ m_nsig s = 1 /\ g_pc (m_sig s 0) = GGone
      /\ v_sigs (m_mut s 0) = [0] /\ v_sigs (m_mut s2 0) = []).
Proof.
  refine (ran3 _ (fun s => mu_step s (XGuard 0 5)) (fun s1 => exec mu_step s1 (repeat (XOp 0) 5)) (fun s s1 s2 =>
      map o_pc (m_ops s) = [QGuard 0 false] /\ quietb s2 = true /\ m_nsig s = 1 /\ g_pc (m_sig s 0) = GGone
      /\ v_sigs (m_mut s 0) = [0] /\ v_sigs (m_mut s2 0) = []) _).
  split_ex.
Qed.
