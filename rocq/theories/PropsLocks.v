(** C78. See DESIGN.md for what is modelled and what the theorems rest on. *)
From Verif Require Import Base Spec Conc Locks LocksFacts.

(** ** C78: calls never wait for each other for ever *)

(** Any number of threads, any calls, in whatever order they have got their locks so far, with any policy of std between readers and writers: the calls can all
    be finished. Missing: threads that do not take Mutables in a common order (C78_swap_refuted, C78_reads_refuted), user code under a lock that needs it (C78_inline_refuted,
    C78_closure_refuted, C78_reread_refuted, C78_old_waker_refuted), polling with a guard in hand (C78_poll_refuted), cycles of Broadcasters (C78_cycle_refuted). *)
Theorem C78_finishes_partial : forall cs l s, (forall c, In c cs -> lib None c) -> exec (lk_step false) (begin cs) l = Some s ->
  exists l2 s2, exec (lk_step true) s l2 = Some s2 /\ finished s2.
Proof. exact lib_finishes. Qed.
Print Assumptions C78_finishes_partial.

(** At no time do all wait. *)
Theorem C78_never_stuck_partial : forall cs l s, (forall c, In c cs -> lib None c) -> exec (lk_step false) (begin cs) l = Some s ->
  finished s \/ exists i s', lk_step true s i = Some s'.
Proof. exact lib_never_stuck. Qed.
Print Assumptions C78_never_stuck_partial.

(** And no schedule goes on for ever. *)
Theorem C78_bounded : forall b cs l s, exec (lk_step b) (begin cs) l = Some s -> length l <= left (begin cs).
Proof. exact lk_bounded. Qed.
Print Assumptions C78_bounded.

(** Guards may also be dropped in any order, as long as they are taken in the common order. *)
Theorem C78_guards_partial : forall ps l s, (forall p, In p ps -> disc [] p) -> exec (lk_step false) (map (fun p => ([], p)) ps) l = Some s ->
  exists l2 s2, exec (lk_step true) s l2 = Some s2 /\ finished s2.
Proof. exact disc_finishes. Qed.
Print Assumptions C78_guards_partial.

(** The locks do what they are for. *)
Theorem C78_exclusive : forall b cs l s, exec (lk_step b) (begin cs) l = Some s ->
  forall i j t u k, i <> j -> nth_error s i = Some t -> nth_error s j = Some u -> holds_write k t = true -> holds k u = false.
Proof. exact lk_excl. Qed.
Print Assumptions C78_exclusive.

(** Reading does not keep others from reading: any number of threads can be inside get (or have guards from lock_ref) at the same time, and any number of children
    of a Broadcaster, if its input has nothing new. *)
Theorem C78_readers : forall m us, (forall u, In u us -> lib (Some (State m)) u) ->
  exists s, exec (lk_step true) (begin (map (read m) us)) (seq 0 (length us)) = Some s /\ length s = length us /\ forall t, In t s -> holds (State m) t = true.
Proof. exact readers_together. Qed.
Print Assumptions C78_readers.
Theorem C78_children : forall b us, (forall u, In u us -> lib (Some (Inner b)) u) ->
  exists s, exec (lk_step true) (begin (map (look b) us)) (seq 0 (length us)) = Some s /\ length s = length us /\ forall t, In t s -> holds (Inner b) t = true.
Proof. exact lookers_together. Qed.
Print Assumptions C78_children.

(** *** A case
    Broadcaster 0 has the signal of Mutable 0 as its input (ChangedWaker 0), Broadcaster 1 a child of it (ChangedWaker 1); a task polls a child of that
    (ChangedWaker 2), another sets Mutable 0, one swaps both Mutables, one reads the first and sets the second with the guard in hand. *)
Definition ex_calls : list code :=
  let told := [(0, notify 0 [(1, notify 1 [(2, Skip)])])] in
  [ask 1 (Seq (ask 0 (Seq (read 0 Skip) (set_waker 0 Skip)) Skip) (look 0 (set_waker 1 Skip))) (set_waker 2 Skip);
   write 0 Skip told; swap 0 1 told []; read 0 (write 1 Skip [])].
Example C78_finishes_partial_ok : forall c, In c ex_calls -> lib None c.
Proof.
  assert (W : wakeups 0 [(0, notify 0 [(1, notify 1 [(2, Skip)])])]) by (repeat constructor).
  intros c [<-|[<-|[<-|[<-|[]]]]].
  - apply lib_ask; [exact I| |apply lib_wait; reflexivity]. apply lib_seq.
    + apply lib_ask; [reflexivity| |apply lib_skip]. apply lib_seq; [apply lib_read; [reflexivity|apply lib_skip]|apply lib_wait; reflexivity].
    + apply lib_look; [reflexivity|]. apply lib_wait. reflexivity.
  - apply lib_write; [exact I|apply lib_skip|exact W].
  - apply lib_swap; [exact I|repeat constructor|exact W|apply wu_nil].
  - apply lib_read; [exact I|]. apply lib_write; [reflexivity|apply lib_skip|apply wu_nil].
Qed.
Example C78_children_ex : forall u, In u [set_waker 1 Skip; read 3 Skip; Skip] -> lib (Some (Inner 2)) u.
Proof. intros u [<-|[<-|[<-|[]]]]; [apply lib_wait|apply lib_read; [|apply lib_skip]|apply lib_skip]; reflexivity. Qed.
(** Three of the four wait for the fourth. *)
Example C78_finishes_partial_ex : exists s, exec (lk_step false) (begin ex_calls) [0; 0; 1; 1; 1; 1] = Some s
  /\ map fst s = [[(Inner 0, true); (Inner 1, true)]; [(Wakers 0, true); (State 0, true)]; []; []]
  /\ map (fun i => match lk_step false s i with Some _ => true | None => false end) [0; 1; 2; 3] = [false; true; false; false].
Proof. eexists. repeat split. Qed.
Example C78_guards_partial_ex : disc [] [Acq (State 0) false; Acq (State 1) true; Rel (State 0); Acq (State 4) false; Rel (State 1); Rel (State 4)].
Proof.
  cbn. repeat split; try solve [exists (State 0, false); cbn; tauto|exists (State 1, true); cbn; tauto|exists (State 4, false); cbn; tauto].
  all: intros x H; cbn in H; repeat (destruct H as [<-|H]; [reflexivity|]); destruct H.
Qed.

(** *** What goes wrong *)

(** swap in both directions *)
Theorem C78_swap_refuted : exists l s, exec (lk_step false) (begin [swap 0 1 [] []; swap 1 0 [] []]) l = Some s /\ stuck false s.
Proof. exists [0; 1]. eexists. split; [reflexivity|]. is_stuck. Qed.
Print Assumptions C78_swap_refuted.
(** An executor that polls at once when it is woken: the Mutable is still locked. *)
Theorem C78_inline_refuted : exists l s, exec (lk_step false) (begin [write 0 Skip [(0, read 0 Skip)]]) l = Some s /\ stuck false s.
Proof. exists [0; 0; 0]. eexists. split; [reflexivity|]. is_stuck. Qed.
Print Assumptions C78_inline_refuted.
(** The same with a Broadcaster: the input wakes it, and it polls a child which asks the input. *)
Theorem C78_inline_child_refuted : exists l s, exec (lk_step false) (begin [write 0 Skip [(0, notify 0 [(1, ask 0 (read 0 Skip) Skip)])]]) l = Some s /\ stuck false s.
Proof. exists [0; 0; 0; 0; 0; 0; 0]. eexists. split; [reflexivity|]. is_stuck. Qed.
Print Assumptions C78_inline_child_refuted.
(** A closure of signal_ref, or code with a guard from lock_ref, that sets the Mutable. *)
Theorem C78_closure_refuted : exists l s, exec (lk_step false) (begin [read 0 (write 0 Skip [])]) l = Some s /\ stuck false s.
Proof. exists [0]. eexists. split; [reflexivity|]. is_stuck. Qed.
Print Assumptions C78_closure_refuted.
(** One that only reads it again, while another thread has come to set it (if std makes readers wait then). *)
Theorem C78_reread_refuted : exists l s, exec (lk_step false) (begin [read 0 (read 0 Skip); write 0 Skip []]) l = Some s /\ stuck true s.
Proof. exists [0]. eexists. split; [reflexivity|]. is_stuck. Qed.
Print Assumptions C78_reread_refuted.
(** Two threads that read two Mutables in different order, and two that have come to set them. *)
Theorem C78_reads_refuted : exists l s, exec (lk_step false) (begin [read 0 (read 1 Skip); read 1 (read 0 Skip); write 0 Skip []; write 1 Skip []]) l = Some s /\ stuck true s.
Proof. exists [0; 1]. eexists. split; [reflexivity|]. is_stuck. Qed.
Print Assumptions C78_reads_refuted.
(** A signal was polled by a task which was then left with that waker as its only owner; it owns the last handle of the Mutable. When another task polls the signal,
    set_waker drops the old waker under the lock (mutable.rs 45), with it the task and the Mutable, whose drop wakes the signal. *)
Theorem C78_old_waker_refuted : exists l s, exec (lk_step false) (begin [set_waker 0 (write 0 Skip [(0, Skip)])]) l = Some s /\ stuck false s.
Proof. exists [0; 0]. eexists. split; [reflexivity|]. is_stuck. Qed.
Print Assumptions C78_old_waker_refuted.
(** A thread that polls a child of a Broadcaster with the guard of lock_mut in hand, and one that polls another child: its input reads the Mutable. *)
Theorem C78_poll_refuted : exists l s, exec (lk_step false) (begin [write 0 (look 0 Skip) []; ask 0 (read 0 Skip) Skip]) l = Some s /\ stuck false s.
Proof. exists [0; 1]. eexists. split; [reflexivity|]. is_stuck. Qed.
Print Assumptions C78_poll_refuted.
(** Two Broadcasters whose inputs have (by switch) come to poll each other. *)
Theorem C78_cycle_refuted : exists l s, exec (lk_step false) (begin [ask 0 (ask 1 (look 0 Skip) Skip) Skip]) l = Some s /\ stuck false s.
Proof. exists [0; 0]. eexists. split; [reflexivity|]. is_stuck. Qed.
Print Assumptions C78_cycle_refuted.
