(** Properties of Broadcaster (C53, C54, C64, and C32 for its children), for every input, any number of
    children made, polled and dropped at any time by any threads, and wake-ups at any time. *)
From Verif Require Import Base Spec Conc Broadcaster BroadcasterFacts BroadcasterUse BroadcasterLeak.

Ltac run_bc := first [apply ran2; split_ex; fail | apply ran; split_ex; fail].

(** Two children; the first one shows the value itself, the second one ten times as much. *)
Definition ex_two : list (bc_move nat nat) := [BNew (fun a => a); BNew (fun a => 10 * a)].
(** A poll that asks the input, which yields [vs] and then answers [r]; the child has something to show. *)
Definition ex_ask (i t : nat) (vs : list nat) (r : poll (option nat)) : list (bc_move nat nat) :=
  [BPoll i t; BStep i; BStep i] ++ map (fun a => BIn i (Ready (Some a))) vs ++ [BIn i r] ++ [BStep i; BStep i].
(** A poll that finds something to show (or the end), and one that finds nothing. *)
Definition ex_look (i t : nat) : list (bc_move nat nat) := [BPoll i t; BStep i; BStep i; BStep i; BStep i].
Definition ex_wait (i t : nat) : list (bc_move nat nat) := [BPoll i t; BStep i; BStep i; BStep i; BStep i; BStep i].
(** The whole call number [j] of the waker, with two children waiting. *)
Definition ex_notify (j : nat) : list (bc_move nat nat) := BNotify :: repeat (BNote j) 9.

(** Both children show 4 and wait, the input wakes, child 1 asks it (5, 6, end), and both children show 6. *)
Definition ex_bc : list (bc_move nat nat) :=
  ex_two ++ ex_ask 0 7 [4] Pending ++ ex_look 1 8 ++ ex_wait 0 7 ++ ex_wait 1 8 ++ ex_notify 0
  ++ ex_ask 1 8 [5; 6] (Ready None) ++ ex_look 0 7 ++ ex_look 0 7 ++ ex_look 1 8.

(** The answers of a child against those of the input, all at once (see [follows]). *)
Theorem C53_follows : forall A B (f0 : A -> B) l s i, exec bc_step (bc_init f0) l = Some s ->
  exists n y, follows (k_fn (b_kids s i)) (b_log s) n y (k_hist (b_kids s i)).
Proof. exact @bc_follows. Qed.
Print Assumptions C53_follows.

(** After every answer (given when the input had given [n] answers) the last output of the child is
    made from the input's most recent value. So all children agree. *)
Theorem C53_latest : forall A B (f0 : A -> B) l s i h n r h', exec bc_step (bc_init f0) l = Some s ->
  k_hist (b_kids s i) = h ++ (n, r) :: h' ->
  latest_of (map snd h ++ [r]) = option_map (k_fn (b_kids s i)) (latest_of (firstn n (b_log s))).
Proof. exact @bc_latest. Qed.
Print Assumptions C53_latest.

(** An output is made from the input's most recent value, which is newer than that of any earlier output;
    Pending is only answered while the input has not ended, the end only when it has ended. *)
Theorem C53_answer : forall A B (f0 : A -> B) l s i h n r h', exec bc_step (bc_init f0) l = Some s ->
  k_hist (b_kids s i) = h ++ (n, r) :: h' ->
  n <= length (b_log s) /\
  match r with
  | Ready (Some b) => (exists v, latest_of (firstn n (b_log s)) = Some v /\ b = k_fn (b_kids s i) v)
      /\ forall h1 n1 b1 h2, h = h1 ++ (n1, Ready (Some b1)) :: h2 ->
           length (yielded (firstn n1 (b_log s))) < length (yielded (firstn n (b_log s)))
  | Pending => has_end (firstn n (b_log s)) = false
  | Ready None => has_end (firstn n (b_log s)) = true
  end.
Proof. exact @bc_answer. Qed.
Print Assumptions C53_answer.

(** The outputs are some of the input's values, in order, each at most once. *)
Theorem C53_once : forall A B (f0 : A -> B) l s i, exec bc_step (bc_init f0) l = Some s ->
  subseq (yielded (k_ans (b_kids s i))) (map (k_fn (b_kids s i)) (yielded (b_log s))).
Proof. exact @bc_subseq. Qed.
Print Assumptions C53_once.

(** A child that has ended stays ended. *)
Theorem C53_ended : forall A B (f0 : A -> B) l s i h n h', exec bc_step (bc_init f0) l = Some s ->
  k_hist (b_kids s i) = h ++ (n, Ready None) :: h' -> Forall (fun e => snd e = Ready None) h'.
Proof. exact @bc_ended. Qed.
Print Assumptions C53_ended.

(** The input is not polled after its end; the unwrap of the value never fails. *)
Theorem C53_input_end : forall A B (f0 : A -> B) l s, exec bc_step (bc_init f0) l = Some s -> obeys_end (b_log s).
Proof. exact @bc_obeys_end. Qed.
Print Assumptions C53_input_end.

Theorem C53_no_panic : forall A B (f0 : A -> B) l s i, exec bc_step (bc_init f0) l = Some s -> k_pc (b_kids s i) <> KPanic.
Proof. exact @bc_no_panic. Qed.
Print Assumptions C53_no_panic.

Example C53_follows_ex : exists s, exec bc_step (bc_init (fun a => a)) ex_bc = Some s
  /\ b_log s = [Ready (Some 4); Pending; Ready (Some 5); Ready (Some 6); Ready None]
  /\ k_hist (b_kids s 0) = [(2, Ready (Some 4)); (2, Pending); (5, Ready (Some 6)); (5, Ready None)]
  /\ k_hist (b_kids s 1) = [(2, Ready (Some 40)); (2, Pending); (5, Ready (Some 60)); (5, Ready None)].
Proof. run_bc. Qed.

(** If the input has woken since it was last asked, the next poll of any child, no matter which, asks it
    until it has no more to say (when no two children are polled at the same time). *)
Theorem C53_asks : forall A B (f0 : A -> B) l0 s i t l s', exec bc_step (bc_init f0) l0 = Some s -> bc_idle s ->
  b_dirty s = true -> has_end (b_log s) = false ->
  exec bc_step s (BPoll i t :: l) = Some s' -> forallb (of_kid_or_note i) l = true -> k_pc (b_kids s' i) = KIdle ->
  asks (b_log s) (b_log s').
Proof. exact @bc_asks. Qed.
Print Assumptions C53_asks.

Example C53_asks_ex : exists s s', exec bc_step (bc_init (fun a => a)) (firstn 36 ex_bc) = Some s
  /\ exec bc_step s (ex_ask 1 8 [5; 6] (Ready None)) = Some s'
  /\ bc_idleb s = true /\ b_dirty s = true /\ has_end (b_log s) = false /\ k_pc (b_kids s' 1) = KIdle
  /\ b_log s' = b_log s ++ map (fun a => Ready (Some a)) [5; 6] ++ [Ready None].
Proof. run_bc. Qed.

(** If it has not, the poll is served from what another child has found out. *)
Theorem C53_shared : forall A B (f0 : A -> B) l0 s i t l s', exec bc_step (bc_init f0) l0 = Some s -> b_changed s = false ->
  exec bc_step s (BPoll i t :: l) = Some s' -> forallb (of_kid i) l = true -> b_log s' = b_log s.
Proof. exact @bc_shared. Qed.
Print Assumptions C53_shared.

Example C53_shared_ex : exists s s', exec bc_step (bc_init (fun a => a)) (ex_two ++ ex_ask 0 7 [4] Pending) = Some s
  /\ exec bc_step s (ex_look 1 8) = Some s' /\ b_changed s = false /\ b_log s' = b_log s /\ k_ans (b_kids s' 1) = [Ready (Some 40)].
Proof. run_bc. Qed.

(** So the input is asked once for all children: after a poll during which nothing else happened, no other poll
    asks it, until the waker is called. *)
Theorem C53_shared_next : forall A B (f0 : A -> B) l0 s i t l s1 j u l2 s2, exec bc_step (bc_init f0) l0 = Some s ->
  exec bc_step s (BPoll i t :: l) = Some s1 -> forallb (of_kid i) l = true -> k_pc (b_kids s1 i) = KIdle ->
  exec bc_step s1 (BPoll j u :: l2) = Some s2 -> forallb (of_kid j) l2 = true -> b_log s2 = b_log s1.
Proof. exact @bc_shared_next. Qed.
Print Assumptions C53_shared_next.

Example C53_shared_next_ex : exists s s1 s2, exec bc_step (bc_init (fun a => a)) ex_two = Some s
  /\ exec bc_step s (ex_ask 0 7 [4] Pending) = Some s1 /\ exec bc_step s1 (ex_look 1 8) = Some s2
  /\ (k_pc (b_kids s1 0) = KIdle /\ b_log s = [] /\ b_log s1 = [Ready (Some 4); Pending] /\ b_log s2 = b_log s1
      /\ k_ans (b_kids s2 1) = [Ready (Some 40)]).
Proof.
  refine (ran3 _ (fun s => exec bc_step s (ex_ask 0 7 [4] Pending)) (fun s1 => exec bc_step s1 (ex_look 1 8)) (fun s s1 s2 =>
    k_pc (b_kids s1 0) = KIdle /\ b_log s = [] /\ b_log s1 = [Ready (Some 4); Pending] /\ b_log s2 = b_log s1
      /\ k_ans (b_kids s2 1) = [Ready (Some 40)]) _).
  split_ex.
Qed.

(** Whatever the state, if a poll or a call of the waker is in progress then something can move: no deadlock. *)
Theorem C53_progress : forall A B (f0 : A -> B) l s, exec bc_step (bc_init f0) l = Some s -> bc_idle s \/
  exists m s', match m with BStep _ | BIn _ _ | BNote _ => True | _ => False end /\ bc_step s m = Some s'.
Proof. exact @bc_progress. Qed.
Print Assumptions C53_progress.

(** C32: if the input's first answer is a value, the first poll of a child answers a value (when no other
    child is polled at the same time). *)
Theorem C32_broadcaster : forall A B (f0 : A -> B) l0 s i t l s', exec bc_step (bc_init f0) l0 = Some s -> bc_idle s ->
  k_hist (b_kids s i) = [] ->
  exec bc_step s (BPoll i t :: l) = Some s' -> forallb (of_kid_or_note i) l = true -> k_pc (b_kids s' i) = KIdle ->
  has_initial (b_log s') -> has_initial (k_ans (b_kids s' i)).
Proof. exact @bc_first. Qed.
Print Assumptions C32_broadcaster.

Example C32_broadcaster_ex : exists s s', exec bc_step (bc_init (fun a => a)) ex_two = Some s
  /\ exec bc_step s (ex_ask 1 8 [4; 5] Pending) = Some s' /\ bc_idleb s = true /\ k_hist (b_kids s 1) = []
  /\ k_pc (b_kids s' 1) = KIdle /\ b_log s' = [Ready (Some 4); Ready (Some 5); Pending] /\ k_ans (b_kids s' 1) = [Ready (Some 50)].
Proof. run_bc. Qed.

(** With two children polled at the same time it is false: child 0 has reset the flag but has not got the
    lock yet; child 1 sees nothing, and its first answer is Pending. *)
Theorem C32_broadcaster_overlap_refuted : exists l (s : bc_st nat nat), exec bc_step (bc_init (fun a => a)) l = Some s
  /\ bc_idle s /\ has_initial (b_log s) /\ k_ans (b_kids s 1) = [Pending] /\ k_woken (b_kids s 1) = false.
Proof.
  exists (ex_two ++ [BPoll 0 7; BStep 0] ++ ex_wait 1 8 ++ [BStep 0; BIn 0 (Ready (Some 4)); BIn 0 Pending; BStep 0; BStep 0]).
  apply ran_idle. vm_compute. repeat split. do 2 eexists. reflexivity.
Qed.
Print Assumptions C32_broadcaster_overlap_refuted.

(** C54, in full: when nothing is in progress, a child's last answer was Pending and its task was not woken
    since, then the input has not woken since it was last asked, has not ended, and has no value that the child has
    not shown. It is false: here the input wakes while it is polled, and here two children are polled
    at the same time. *)
Theorem C54_wake_during_poll_refuted : exists l (s : bc_st nat nat), exec bc_step (bc_init (fun a => a)) l = Some s
  /\ bc_idle s /\ k_alive (b_kids s 0) = true /\ k_waiting (b_kids s 0) /\ k_woken (b_kids s 0) = false
  /\ b_dirty s = true.
Proof.
  exists ([BNew (fun a => a)] ++ ex_ask 0 7 [4] Pending ++ ex_wait 0 7 ++ [BNotify] ++ repeat (BNote 0) 6
    ++ [BPoll 0 7; BStep 0; BStep 0] ++ [BNotify] ++ repeat (BNote 1) 5 ++ [BIn 0 Pending; BStep 0; BStep 0; BStep 0]).
  apply ran_idle. vm_compute. repeat split. eexists [_; _]. reflexivity.
Qed.
Print Assumptions C54_wake_during_poll_refuted.

Theorem C54_overlap_refuted : exists l (s : bc_st nat nat), exec bc_step (bc_init (fun a => a)) l = Some s
  /\ bc_idle s /\ k_alive (b_kids s 1) = true /\ k_waiting (b_kids s 1) /\ k_woken (b_kids s 1) = false
  /\ latest_of (b_log s) = Some 5 /\ latest_of (k_ans (b_kids s 1)) = Some 40.
Proof.
  exists (firstn 36 ex_bc ++ [BPoll 0 7; BStep 0] ++ ex_wait 1 8 ++ [BStep 0; BIn 0 (Ready (Some 5)); BIn 0 Pending; BStep 0; BStep 0]).
  apply ran_idle. vm_compute. repeat split. eexists [_; _]. reflexivity.
Qed.
Print Assumptions C54_overlap_refuted.

(** What is true: it holds for a child whose last poll had no such race. Missing: the races. *)
Theorem C54_woken_partial : forall A B (f0 : A -> B) l s i, exec bc_step (bc_init f0) l = Some s -> bc_idle s ->
  k_alive (b_kids s i) = true -> k_waiting (b_kids s i) -> k_raced (b_kids s i) = false -> k_woken (b_kids s i) = false ->
  b_dirty s = false /\ has_end (b_log s) = false
  /\ latest_of (k_ans (b_kids s i)) = option_map (k_fn (b_kids s i)) (latest_of (b_log s)).
Proof. exact @bc_woken_race. Qed.
Print Assumptions C54_woken_partial.

Example C54_woken_ex : exists s, exec bc_step (bc_init (fun a => a)) (firstn 26 ex_bc) = Some s
  /\ bc_idleb s = true /\ k_alive (b_kids s 1) = true /\ k_ans (b_kids s 1) = [Ready (Some 40); Pending]
  /\ k_raced (b_kids s 1) = false /\ k_woken (b_kids s 1) = false.
Proof. run_bc. Qed.

(** ... and always, when one thing happens at a time (so also: when the input does not wake while it is polled). *)
Theorem C54_woken_alone : forall A B (f0 : A -> B) l s i, exec bc_step_alone (bc_init f0) l = Some s -> bc_idle s ->
  k_alive (b_kids s i) = true -> k_waiting (b_kids s i) -> k_woken (b_kids s i) = false ->
  b_dirty s = false /\ has_end (b_log s) = false
  /\ latest_of (k_ans (b_kids s i)) = option_map (k_fn (b_kids s i)) (latest_of (b_log s)).
Proof. exact @bc_woken_alone. Qed.
Print Assumptions C54_woken_alone.

Example C54_woken_alone_ex : exists s, exec bc_step_alone (bc_init (fun a => a)) (firstn 26 ex_bc) = Some s
  /\ bc_idleb s = true /\ k_alive (b_kids s 1) = true /\ k_ans (b_kids s 1) = [Ready (Some 40); Pending] /\ k_woken (b_kids s 1) = false.
Proof. run_bc. Qed.

(** A call of the waker that starts after the child has returned Pending wakes the task, in every
    interleaving, whatever happened before: when the call has returned, the task was woken (unless
    the child was polled again or dropped). *)
Theorem C54_later : forall A B (f0 : A -> B) l0 s i l s', exec bc_step (bc_init f0) l0 = Some s ->
  k_alive (b_kids s i) = true -> k_waiting (b_kids s i) ->
  exec bc_step s (BNotify :: l) = Some s' -> forallb (not_of i) l = true ->
  nth_error (b_notes s') (length (b_notes s)) = Some NDone -> k_woken (b_kids s' i) = true.
Proof. exact @bc_later. Qed.
Print Assumptions C54_later.

Example C54_later_ex : exists s s', exec bc_step (bc_init (fun a => a)) (firstn 26 ex_bc) = Some s
  /\ exec bc_step s (ex_notify 0) = Some s' /\ k_alive (b_kids s 1) = true /\ k_ans (b_kids s 1) = [Ready (Some 40); Pending]
  /\ nth_error (b_notes s') 0 = Some NDone /\ k_woken (b_kids s 1) = false /\ k_woken (b_kids s' 1) = true.
Proof. run_bc. Qed.

(** ** C64 *)

(** A call of the waker makes the Broadcaster forget the children that were dropped before. *)
Theorem C64_broadcaster : forall A B (f0 : A -> B) l0 s i l s', exec bc_step (bc_init f0) l0 = Some s ->
  i < b_n s -> k_alive (b_kids s i) = false ->
  exec bc_step s (BNotify :: l) = Some s' -> nth_error (b_notes s') (length (b_notes s)) = Some NDone -> ~ In i (b_wakers s').
Proof. exact @bc_forgets. Qed.
Print Assumptions C64_broadcaster.

(** No child is in the list twice. *)
Theorem C64_broadcaster_once : forall A B (f0 : A -> B) l s, exec bc_step (bc_init f0) l = Some s ->
  NoDup (b_wakers s) /\ forall i, In i (b_wakers s) -> i < b_n s.
Proof. exact @bc_once. Qed.
Print Assumptions C64_broadcaster_once.

Example C64_broadcaster_ex : exists s s', exec bc_step (bc_init (fun a => a)) (firstn 26 ex_bc ++ [BDrop 0]) = Some s
  /\ exec bc_step s (BNotify :: repeat (BNote 0) 7) = Some s' /\ b_n s = 2 /\ k_alive (b_kids s 0) = false
  /\ nth_error (b_notes s') 0 = Some NDone /\ b_wakers s = [0; 1] /\ b_wakers s' = [1].
Proof. run_bc. Qed.
