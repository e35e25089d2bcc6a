(** Properties of AtomicOption (C56) and of the channel (C50-C52), for every interleaving. *)
From Verif Require Import Base Spec BaseFacts Conc AtomicOption AtomicOptionFacts Channel ChannelFacts.
From Coq Require Import Permutation NArith.

(** Runs a concrete schedule. *)
Ltac run_ex := repeat (split; [vm_compute; reflexivity|]); vm_compute; repeat split; discriminate || reflexivity.

(** ** C56 *)

(** A schedule used in the examples: a store and a take overlap, then a swap, then the cell is dropped. *)
Definition ex_ao_moves : list (ao_move nat) :=
  [AoStore (Some 2); AoTake; AoStep 0; AoStep 1; AoStep 1; AoStep 0; AoStep 0; AoStep 1; AoStep 0; AoSwap (Some 3);
   AoStep 2; AoStep 2; AoStep 2; AoDropCell; AoStepDrop; AoStepDrop].

(** Nothing is used after it was freed, nor freed twice: the box that a call or the drop of the cell
    is about to free is still allocated. *)
Theorem C56_no_use_after_free : forall A (v0 : option A) l s,
  exec ao_step (ao_init v0) l = Some s ->
  ao_fault s = false
  /\ (forall i k p n, nth_error (ao_ops s) i = Some (AFrom k (Some p) n) -> exists v, nth_error (ao_heap s) p = Some (Some v))
  /\ (forall p, ao_phase_of s = ADropFree (Some p) -> exists v, nth_error (ao_heap s) p = Some (Some v)).
Proof. exact @ao_no_fault. Qed.
Print Assumptions C56_no_use_after_free.

Example C56_no_use_after_free_ex :
  (exists s, exec ao_step (ao_init (Some 1)) (firstn 7 ex_ao_moves) = Some s
     /\ nth_error (ao_ops s) 1 = Some (AFrom KTake (Some 0) 0) /\ nth_error (ao_heap s) 0 = Some (Some 1))
  /\ (exists s, exec ao_step (ao_init (Some 1)) (firstn 15 ex_ao_moves) = Some s
     /\ ao_phase_of s = ADropFree (Some 2) /\ nth_error (ao_heap s) 2 = Some (Some 3)).
Proof. split; eexists; run_ex. Qed.

(** The flag [ao_fault] is set by a free of a freed box. *)
Example C56_fault_ex :
  option_map ao_fault (ao_step (mkAo [None] (Some 0) AAlive [AFrom KTake (Some 0) 0] [None] [1] [] false [(0, None, Some 1)]) (AoStep 0)) = Some true
  /\ option_map ao_fault (ao_step (mkAo [None] (Some 0) AAlive [AFrom KStore (Some 0) 0] [None] [1] [] false [(0, None, Some 1)]) (AoStep 0)) = Some true
  /\ option_map ao_fault (ao_step (mkAo [None] (Some 0) (ADropFree (Some 0)) [] [] [1] [] false []) AoStepDrop) = Some true.
Proof. repeat split. Qed.

(** Every value put in was returned exactly once, or destroyed exactly once, or is in the cell; when
    the cell has been dropped nothing is left allocated. *)
Theorem C56_accounted : forall A (v0 : option A) l s,
  exec ao_step (ao_init v0) l = Some s -> ao_quiet s ->
  match ao_phase_of s with
  | AAlive | ADropLoad =>
      Permutation (ao_put v0 s) (ao_returned s ++ ao_destroyed s ++ olist (ao_deref (ao_heap s) (ao_ptr s)))
  | ADropFree _ => True
  | ADropped =>
      Permutation (ao_put v0 s) (ao_returned s ++ ao_destroyed s)
      /\ forall i o, nth_error (ao_heap s) i = Some o -> o = None
  end.
Proof. exact @ao_accounted. Qed.
Print Assumptions C56_accounted.

Example C56_accounted_ex : exists s, exec ao_step (ao_init (Some 1)) ex_ao_moves = Some s
  /\ ao_phase_of s = ADropped /\ ao_put (Some 1) s = [1; 2; 3] /\ ao_returned s = [1; 2] /\ ao_destroyed s = [3]
  /\ forallb ao_is_done (ao_ops s) = true.
Proof. eexists. run_ex. Qed.

(** Each call takes effect at one instant: it gets what the call before it (in the order of those
    instants) put in. *)
Theorem C56_atomic : forall A (v0 : option A) l s, exec ao_step (ao_init v0) l = Some s ->
  handed_over v0 (ao_swaps s)
  /\ NoDup (map (fun e => fst (fst e)) (ao_swaps s))
  /\ (forall n i a o, nth_error (ao_swaps s) n = Some (i, a, o) -> nth_error (ao_args s) i = Some a)
  /\ (forall i k r n, nth_error (ao_ops s) i = Some (ADone k r n) ->
        exists a, nth_error (ao_swaps s) n = Some (i, a, r)).
Proof. exact @ao_atomic. Qed.
Print Assumptions C56_atomic.

Example C56_atomic_ex : exists s, exec ao_step (ao_init (Some 1)) ex_ao_moves = Some s
  /\ ao_swaps s = [(1, None, Some 1); (0, Some 2, None); (2, Some 3, Some 2)].
Proof. eexists. run_ex. Qed.

(** ** C50 *)

(** Two Senders; sends of 7 and 8 overlap each other and a poll; then 9; then a poll that gets 9. *)
Definition ex_ch_moves : list (ch_move nat) :=
  [MClone 0; MOp 0; MOp 0; MOp 0; MPoll; MRx; MPoll; MSend 0 7; MOp 1; MSend 1 8; MRx; MOp 2; MOp 1; MOp 2; MRx; MOp 2;
   MRx; MOp 1; MOp 2; MOp 2; MOp 1; MPoll; MRx; MSend 0 9; MOp 3; MOp 3; MOp 3; MOp 3; MPoll; MRx].

(** Outputs are a subsequence of what was sent. [c_sent] lists the initial value and one entry per
    send that took effect; a send that returned Ok is in it once, one that returned Err is not. *)
Theorem C50_order : forall A (v0 : A) l s, exec ch_step (ch_init v0) l = Some s ->
  subseq (yielded (c_answers s)) (map snd (c_sent s))
  /\ NoDup (map fst (c_sent s))
  /\ (exists ext, c_sent s = (None, v0) :: ext)
  /\ (forall i v, In (Some i, v) (c_sent s) ->
        exists h p, nth_error (c_ops s) i = Some (h, p) /\ send_arg p = Some v)
  /\ (forall i h v, nth_error (c_ops s) i = Some (h, PRetSend true v) -> In (Some i, v) (c_sent s))
  /\ (forall i h v w, nth_error (c_ops s) i = Some (h, PRetSend false v) -> ~ In (Some i, w) (c_sent s)).
Proof. exact @ch_order. Qed.
Print Assumptions C50_order.

Example C50_order_ex : exists s, exec ch_step (ch_init 5) ex_ch_moves = Some s
  /\ c_sent s = [(None, 5); (Some 2, 8); (Some 1, 7); (Some 3, 9)]
  /\ yielded (c_answers s) = [5; 7; 9].
Proof. eexists. run_ex. Qed.

(** Send order is compatible with real time: a send that returned before another one started comes first. *)
Theorem C50_real_time : forall A (v0 : A) l1 s1 l2 s2 i j h h' v w,
  exec ch_step (ch_init v0) l1 = Some s1 -> exec ch_step s1 l2 = Some s2 ->
  nth_error (c_ops s1) i = Some (h, PRetSend true v) ->
  nth_error (c_ops s2) j = Some (h', PRetSend true w) -> length (c_ops s1) <= j ->
  exists a b c, c_sent s2 = a ++ (Some i, v) :: b ++ (Some j, w) :: c.
Proof. exact @ch_real_time. Qed.
Print Assumptions C50_real_time.

Example C50_real_time_ex : exists s1 s2, exec ch_step (ch_init 5) (firstn 20 ex_ch_moves) = Some s1
  /\ exec ch_step s1 (skipn 20 ex_ch_moves) = Some s2
  /\ nth_error (c_ops s1) 2 = Some (1, PRetSend true 8) /\ nth_error (c_ops s2) 3 = Some (0, PRetSend true 9)
  /\ length (c_ops s1) = 3.
Proof. do 2 eexists. run_ex. Qed.

(** At every moment while the Receiver exists: the last value sent was output last, or is in the cell. *)
Theorem C50_latest : forall A (v0 : A) l s, exec ch_step (ch_init v0) l = Some s -> c_rx s <> RGone ->
  match c_value s with
  | Some v => holds_last (c_sent s) (yielded (c_answers s)) v
  | None => shown_last (c_sent s) (yielded (c_answers s))
  end.
Proof. exact @ch_latest. Qed.
Print Assumptions C50_latest.

Example C50_latest_ex : exists s, exec ch_step (ch_init 5) (firstn 28 ex_ch_moves) = Some s
  /\ c_rx s <> RGone /\ c_value s = Some 9 /\ yielded (c_answers s) = [5; 7].
Proof. eexists. run_ex. Qed.

(** ... and a value in the cell is what the next poll outputs; with an empty cell the poll tells
    whether the channel is open. *)
Theorem C50_C52_next_poll : forall A (s : ch_st A), c_rx s = RIdle -> exists n s',
  exec ch_step s (MPoll :: repeat MRx n) = Some s' /\ c_rx s' = RIdle /\
  c_answers s' = c_answers s ++
    [match c_value s with Some v => Ready (Some v) | None => if has_senders s then Pending else Ready None end] /\
  c_value s' = None /\ c_senders s' = c_senders s /\ c_ops s' = c_ops s /\ c_live s' = c_live s /\
  c_raced s' = false /\ c_overtaken s' = false.
Proof. exact @ch_poll_alone. Qed.
Print Assumptions C50_C52_next_poll.

Example C50_C52_next_poll_ex : c_rx (ch_init 5) = RIdle.
Proof. reflexivity. Qed.

(** ** C51 *)

(** Refuted: the task is not woken by a send during its poll. The poll finds the cell empty and a
    Sender alive; then a whole send takes place and finds no waker; then the poll stores its waker
    and returns Pending. *)
Definition ex_lost_wake : list (ch_move nat) :=
  [MPoll; MRx; MPoll; MRx; MRx; MSend 0 6; MOp 0; MOp 0; MOp 0; MOp 0; MRx].

Theorem C51_woken_refuted : ~ (forall l (s : ch_st nat), exec ch_step (ch_init 5) l = Some s ->
  ch_idle s = true -> c_rx s = RIdle -> c_waiting s = true -> c_value s <> None ->
  In (c_polls s) (c_woken s)).
Proof.
  intros H. specialize (H ex_lost_wake). vm_compute in H.
  apply (H _ eq_refl); auto; discriminate.
Qed.
Print Assumptions C51_woken_refuted.

(** Refuted in the same way for the end: the last Sender is dropped during the poll. *)
Definition ex_lost_end : list (ch_move nat) :=
  [MPoll; MRx; MPoll; MRx; MRx; MDrop 0; MOp 0; MOp 0; MOp 0; MOp 0; MRx].

Theorem C51_woken_end_refuted : ~ (forall l (s : ch_st nat), exec ch_step (ch_init 5) l = Some s ->
  ch_idle s = true -> c_rx s = RIdle -> c_waiting s = true -> c_live s = [] ->
  In (c_polls s) (c_woken s)).
Proof.
  intros H. specialize (H ex_lost_end). vm_compute in H. apply (H _ eq_refl); auto.
Qed.
Print Assumptions C51_woken_end_refuted.

(** Refuted: the Receiver can end without the last value. The poll finds the cell empty; then a
    value is sent and the last Sender dropped; then the poll finds no Sender. *)
Definition ex_lost_value : list (ch_move nat) :=
  [MPoll; MRx; MPoll; MRx; MSend 0 6; MOp 0; MOp 0; MOp 0; MOp 0; MDrop 0; MOp 1; MOp 1; MOp 1; MOp 1].

Theorem C51_end_refuted : ~ (forall l (s s' : ch_st nat), exec ch_step (ch_init 5) l = Some s ->
  ch_step s MRx = Some s' -> c_answers s' = c_answers s ++ [Ready None] ->
  shown_last (c_sent s') (yielded (c_answers s'))).
Proof.
  intros H. specialize (H ex_lost_value). vm_compute in H.
  destruct (H _ _ eq_refl eq_refl eq_refl) as (p & i & v & q & E1 & E2 & _).
  apply (f_equal (@rev _)) in E1, E2. rewrite rev_app_distr in E1, E2. simpl in E1, E2. congruence.
Qed.
Print Assumptions C51_end_refuted.

(** What holds: if no notify fell into the last poll ([c_raced]), then once all calls have returned
    the waiting task was woken, or there is nothing to be woken for. Missing: polls during which a
    send, close or last drop notifies. *)
Theorem C51_woken_partial : forall A (v0 : A) l s, exec ch_step (ch_init v0) l = Some s ->
  ch_idle s = true -> c_rx s = RIdle -> c_waiting s = true -> c_raced s = false ->
  In (c_polls s) (c_woken s) \/ (c_value s = None /\ (undisturbed s -> has_senders s = true)).
Proof. exact @ch_woken. Qed.
Print Assumptions C51_woken_partial.

Example C51_woken_partial_ex : exists s,
  exec ch_step (ch_init 5) [MPoll; MRx; MPoll; MRx; MRx; MSend 0 6; MOp 0; MRx; MOp 0; MOp 0; MOp 0; MOp 0] = Some s
  /\ ch_idle s = true /\ c_rx s = RIdle /\ c_waiting s = true /\ c_raced s = false /\ c_value s = Some 6.
Proof. eexists. run_ex. Qed.

(** At any moment, also while calls are in progress: the wake-up was made, or some call is about to make it. *)
Theorem C51_woken_soon_partial : forall A (v0 : A) l s, exec ch_step (ch_init v0) l = Some s ->
  c_rx s = RIdle -> c_waiting s = true -> c_raced s = false ->
  c_value s <> None \/ (undisturbed s /\ has_senders s = false) ->
  In (c_polls s) (c_woken s)
  \/ (exists i h k, nth_error (c_ops s) i = Some (h, PWake k (c_polls s)))
  \/ (c_waker s = Some (c_polls s) /\ exists i h k, nth_error (c_ops s) i = Some (h, PNotify k)).
Proof. exact @ch_woken_soon. Qed.
Print Assumptions C51_woken_soon_partial.

Example C51_woken_soon_partial_ex : exists s,
  exec ch_step (ch_init 5) [MPoll; MRx; MPoll; MRx; MRx; MSend 0 6; MOp 0; MRx; MOp 0; MOp 0] = Some s
  /\ c_rx s = RIdle /\ c_waiting s = true /\ c_raced s = false /\ c_value s = Some 6 /\ c_woken s = [].
Proof. eexists. run_ex. Qed.

(** If no value was stored between the two looks of the last poll ([c_overtaken]), the Receiver ends
    only after the last value. Missing: sends that overtake the ending poll. *)
Theorem C51_end_partial : forall A (v0 : A) l s s', exec ch_step (ch_init v0) l = Some s ->
  ch_step s MRx = Some s' -> c_answers s' = c_answers s ++ [Ready None] -> c_overtaken s = false ->
  shown_last (c_sent s') (yielded (c_answers s')).
Proof. exact @ch_end_shown. Qed.
Print Assumptions C51_end_partial.

Example C51_end_partial_ex : exists s s', exec ch_step (ch_init 5)
    [MSend 0 6; MOp 0; MOp 0; MOp 0; MOp 0; MDrop 0; MOp 1; MPoll; MOp 1; MRx; MPoll; MRx; MOp 1; MOp 1] = Some s
  /\ ch_step s MRx = Some s' /\ c_answers s' = c_answers s ++ [Ready None] /\ c_overtaken s = false
  /\ yielded (c_answers s') = [6].
Proof. do 2 eexists. run_ex. Qed.

(** ** C52 *)

(** Refuted: a clone that overlaps a close reopens the channel: close has returned, yet a send
    started afterwards succeeds. *)
Definition ex_reopen : list (ch_move nat) :=
  [MClone 0; MOp 0; MOp 0; MClose 0; MOp 1; MOp 1; MOp 1; MOp 1].
Definition ex_reopen_send : list (ch_move nat) := [MOp 0; MSend 1 6; MOp 2; MOp 2; MOp 2; MOp 2].

Theorem C52_closed_refuted : ~ (forall l1 (s1 : ch_st nat) l2 s2, exec ch_step (ch_init 5) l1 = Some s1 ->
  exec ch_step s1 l2 = Some s2 -> In (0, PRetClose) (c_ops s1) ->
  forall i h v ok, length (c_ops s1) <= i -> nth_error (c_ops s2) i = Some (h, PRetSend ok v) -> ok = false).
Proof.
  intros H. assert (E : exists s1 s2, exec ch_step (ch_init 5) ex_reopen = Some s1
    /\ exec ch_step s1 ex_reopen_send = Some s2 /\ nth_error (c_ops s1) 1 = Some (0, PRetClose)
    /\ length (c_ops s1) = 2 /\ nth_error (c_ops s2) 2 = Some (1, PRetSend true 6)) by (do 2 eexists; run_ex).
  destruct E as (s1 & s2 & E1 & E2 & E3 & E4 & E5).
  specialize (H _ _ _ _ E1 E2 (nth_error_In _ _ E3) 2 1 6 true). rewrite E4 in H. specialize (H (le_n 2) E5). discriminate.
Qed.
Print Assumptions C52_closed_refuted.

(** Refuted: a drop that overlaps a close makes the counter wrap around below 0. Every Sender is gone
    and the channel was closed, yet the Receiver waits forever. *)
Definition ex_underflow : list (ch_move nat) :=
  [MClone 0; MOp 0; MOp 0; MOp 0; MDrop 1; MOp 1; MOp 1; MClose 0; MOp 2; MOp 2; MOp 2; MOp 2; MOp 1;
   MDrop 0; MOp 3; MOp 3; MOp 3; MPoll; MRx; MPoll; MRx; MRx; MRx].

Theorem C52_all_dropped_refuted : ~ (forall l (s : ch_st nat), exec ch_step (ch_init 5) l = Some s ->
  c_live s = [] -> ch_idle s = true -> c_rx s = RIdle -> has_senders s = false).
Proof.
  intros H. specialize (H ex_underflow). vm_compute in H. specialize (H _ eq_refl eq_refl eq_refl eq_refl). discriminate.
Qed.
Print Assumptions C52_all_dropped_refuted.

Example C52_all_dropped_refuted_ex : exists s, exec ch_step (ch_init 5) ex_underflow = Some s
  /\ c_senders s = (usize_max - 1)%N /\ c_answers s = [Ready (Some 5); Pending] /\ c_waiting s = true /\ c_closed s = true.
Proof. eexists. run_ex. Qed.

(** What holds as long as no close stored its 0 while a clone or drop was between its check and its
    update ([c_close_race]), and fewer than 2^64 Senders were ever made. The counter is exact. Missing
    in all four theorems: histories with that overlap. *)
Theorem C52_count_partial : forall A (v0 : A) l s, exec ch_step (ch_init v0) l = Some s ->
  undisturbed s -> 0 < c_strong s ->
  if c_closed s then has_senders s = false
  else c_senders s = N.of_nat (length (c_live s) + count dropping (c_ops s)).
Proof. exact @ch_count. Qed.
Print Assumptions C52_count_partial.

(** The Receiver ends only when the channel was closed or all Senders are dropped. *)
Theorem C52_end_only_partial : forall A (v0 : A) l s s', exec ch_step (ch_init v0) l = Some s ->
  ch_step s MRx = Some s' -> c_answers s' = c_answers s ++ [Ready None] -> undisturbed s ->
  c_closed s = true \/ all_dropped s.
Proof. exact @ch_end_only. Qed.
Print Assumptions C52_end_only_partial.

(** Once closed, closed for ever: sends started afterwards fail, polls see no Sender. *)
Theorem C52_closed_partial : forall A (v0 : A) l1 s1 l2 s2, exec ch_step (ch_init v0) l1 = Some s1 ->
  exec ch_step s1 l2 = Some s2 -> c_closed s1 = true -> undisturbed s2 ->
  (0 < c_strong s2 -> has_senders s2 = false)
  /\ forall i h v ok, length (c_ops s1) <= i -> nth_error (c_ops s2) i = Some (h, PRetSend ok v) -> ok = false.
Proof. exact @ch_closed_stays. Qed.
Print Assumptions C52_closed_partial.

(** When all Senders are dropped, polls see no Sender. *)
Theorem C52_all_dropped_partial : forall A (v0 : A) l s, exec ch_step (ch_init v0) l = Some s ->
  c_live s = [] -> ch_idle s = true -> c_rx s = RIdle -> undisturbed s ->
  has_senders s = false.
Proof. exact @ch_all_dropped. Qed.
Print Assumptions C52_all_dropped_partial.

Definition ex_close_moves : list (ch_move nat) :=
  [MClone 0; MOp 0; MOp 0; MOp 0; MSend 0 6; MOp 1; MClose 1; MOp 2; MOp 1; MOp 2; MOp 2; MOp 1; MOp 2; MOp 1].
Definition ex_close_after : list (ch_move nat) :=
  [MSend 1 7; MOp 3; MDrop 0; MOp 3; MOp 4; MOp 4; MPoll; MRx; MPoll; MRx].

Example C52_partial_ex : exists s1 s2 s3, exec ch_step (ch_init 5) ex_close_moves = Some s1
  /\ exec ch_step s1 ex_close_after = Some s2 /\ ch_step s2 MRx = Some s3
  /\ c_closed s1 = true /\ undisturbed s1 /\ undisturbed s2 /\ c_strong s2 = 1
  /\ nth_error (c_ops s2) 3 = Some (1, PRetSend false 7) /\ nth_error (c_ops s2) 1 = Some (0, PRetSend true 6)
  /\ c_answers s3 = c_answers s2 ++ [Ready None] /\ c_answers s2 = [Ready (Some 6)].
Proof. do 3 eexists. run_ex. Qed.

Example C52_all_dropped_partial_ex : exists s, exec ch_step (ch_init 5)
    [MClone 0; MOp 0; MOp 0; MOp 0; MDrop 0; MDrop 1; MOp 1; MOp 2; MOp 1; MOp 2; MOp 2; MOp 1; MOp 1] = Some s
  /\ c_live s = [] /\ ch_idle s = true /\ c_rx s = RIdle /\ undisturbed s.
Proof. eexists. run_ex. Qed.

(** A send fails only if the channel was closed or the Receiver dropped (before it returned). *)
Theorem C52_send_partial : forall A (v0 : A) l s, exec ch_step (ch_init v0) l = Some s -> undisturbed s ->
  forall i h v, nth_error (c_ops s) i = Some (h, PRetSend false v) -> c_closed s = true \/ c_rx s = RGone.
Proof. exact @ch_send_fails. Qed.
Print Assumptions C52_send_partial.

Example C52_send_partial_ex : exists s, exec ch_step (ch_init 5) [MPoll; MRx; MDropRx; MSend 0 6; MOp 0] = Some s
  /\ nth_error (c_ops s) 0 = Some (0, PRetSend false 6) /\ c_closed s = false.
Proof. eexists. run_ex. Qed.

(** When the Receiver is dropped and no call is in progress, no value and no waker is kept, even if Senders are left. *)
Theorem C50_freed : forall A (v0 : A) l s, exec ch_step (ch_init v0) l = Some s -> c_rx s = RGone ->
  forallb (fun c => ch_returned (snd c)) (c_ops s) = true -> c_value s = None /\ c_waker s = None /\ c_strong s = 0.
Proof. exact @ch_freed. Qed.
Print Assumptions C50_freed.

Example C50_freed_ex : exists s, exec ch_step (ch_init 5)
    [MPoll; MRx; MPoll; MRx; MRx; MRx; MSend 0 6; MOp 0; MOp 0; MDropRx; MOp 0; MOp 0; MOp 0] = Some s
  /\ c_rx s = RGone /\ forallb (fun c => ch_returned (snd c)) (c_ops s) = true /\ c_live s = [0] /\ c_woken s = [2].
Proof. eexists. run_ex. Qed.

(** ** Single-threaded use: calls and polls do not overlap. Here the claims hold in full (fewer than
    2^64 Senders). *)
Theorem C51_alone_woken_partial : forall A (v0 : A) l s, exec ch_step_alone (ch_init v0) l = Some s ->
  (N.of_nat (c_next s) <= usize_max)%N ->
  ch_idle s = true -> c_rx s = RIdle -> c_waiting s = true ->
  In (c_polls s) (c_woken s) \/ (c_value s = None /\ has_senders s = true).
Proof. exact @ch_alone_woken. Qed.
Print Assumptions C51_alone_woken_partial.

Theorem C52_alone_count_partial : forall A (v0 : A) l s, exec ch_step_alone (ch_init v0) l = Some s ->
  (N.of_nat (c_next s) <= usize_max)%N -> ch_idle s = true -> c_rx s = RIdle ->
  has_senders s = true <-> c_closed s = false /\ c_live s <> [].
Proof. exact @ch_alone_counter. Qed.
Print Assumptions C52_alone_count_partial.

Theorem C51_C52_alone_end_partial : forall A (v0 : A) l s s', exec ch_step_alone (ch_init v0) l = Some s ->
  (N.of_nat (c_next s) <= usize_max)%N ->
  ch_step s MRx = Some s' -> c_answers s' = c_answers s ++ [Ready None] ->
  shown_last (c_sent s') (yielded (c_answers s')) /\ (c_closed s = true \/ all_dropped s).
Proof. exact @ch_alone_end. Qed.
Print Assumptions C51_C52_alone_end_partial.

Example C51_C52_alone_ex : exists s1 s2 s3, exec ch_step_alone (ch_init 5)
    [MPoll; MRx; MPoll; MRx; MRx; MRx; MSend 0 6; MOp 0; MOp 0; MOp 0; MOp 0; MOp 0] = Some s1
  /\ ch_idle s1 = true /\ c_waiting s1 = true /\ c_woken s1 = [2]
  /\ exec ch_step_alone s1 [MClose 0; MOp 1; MOp 1; MOp 1; MOp 1; MPoll; MRx; MPoll; MRx] = Some s2
  /\ ch_step s2 MRx = Some s3 /\ c_answers s3 = [Ready (Some 5); Pending; Ready (Some 6); Ready None].
Proof. do 3 eexists. run_ex. Qed.
