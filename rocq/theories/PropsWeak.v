(** C68: the memory orderings of AtomicOption suffice. Model: Weak.v; proofs: WeakFacts.v. *)
From Coq Require Import Permutation.
From Verif Require Import Base Conc Weak WeakFacts.

(** Thread 0 makes the cell and gives it to thread 1; each of them puts a value into it; thread 1 is the last to drop it. *)
Definition ex_moves : list (move nat) :=
  [WShare 0 1; WCall 0 (Some 10); WStep 0; WCall 1 (Some 11); WStep 1; WStep 1; WStep 0; WDrop 0; WDrop 1; WLoad 1 2; WStep 1].
(** Two threads that only have a Weak. *)
Definition ex_weak : list (move nat) :=
  [WWeak 0 1; WWeak 1 2; WUpgrade 1; WUpgrade 2; WCall 1 (Some 10); WCall 2 None; WStep 1; WStep 2; WStep 2; WStep 1; WDrop 2; WDrop 0; WDrop 1; WLoad 1 2; WStep 1].

(** ** C68: on a machine with release/acquire memory, in every execution, there is no data race on the boxes, and no box is used or freed after
    it was freed; this does not depend on the ordering of the load in drop *)
Theorem C68_no_race : forall A (v0 : option A) dacq mvs st, exec (w_step true true dacq) (w_init v0) mvs = Some st -> raced st = false /\ misused st = false.
Proof. exact (fun A v0 dacq => @weak_no_race A dacq v0). Qed.
Print Assumptions C68_no_race.

Example C68_no_race_ex : exists st, exec (w_step true true true) (w_init (Some 9)) ex_moves = Some st /\ gone st = [10; 9; 11] /\ raced st = false /\ misused st = false.
Proof. eexists. split_ex. Qed.
Example C68_no_race_ex2 : exists st, exec (w_step true true true) (w_init (Some 9)) ex_weak = Some st /\ gone st = [10; 9] /\ raced st = false /\ misused st = false.
Proof. eexists. split_ex. Qed.
(** Both parts of AcqRel are needed: with Release alone, or Acquire alone, thread 1 reads a box that is perhaps not initialized yet. *)
Example C68_acquire_needed : exists st, exec (w_step false true true) (w_init (Some 9)) ex_moves = Some st /\ raced st = true.
Proof. eexists. split_ex. Qed.
Example C68_release_needed : exists st, exec (w_step true false true) (w_init (Some 9)) ex_moves = Some st /\ raced st = true.
Proof. eexists. split_ex. Qed.
(** The load in drop cannot read an older message. *)
Example C68_no_old_load : exists st, exec (w_step true true false) (w_init (Some 9)) (firstn 9 ex_moves) = Some st
  /\ w_step true true false st (WLoad 1 0) = None /\ w_step true true false st (WLoad 1 1) = None.
Proof. eexists. split_ex. Qed.

(** ** C68: the swaps are in one order, and each takes out what the one before it has put in *)
Theorem C68_order : forall A (v0 : option A) dacq mvs st, exec (w_step true true dacq) (w_init v0) mvs = Some st -> handed v0 (log st).
Proof. exact (fun A v0 dacq => @weak_order A dacq v0). Qed.
Print Assumptions C68_order.

Example C68_order_ex : exists st, exec (w_step true true true) (w_init (Some 9)) ex_moves = Some st /\ log st = [(Some 10, Some 9); (Some 11, Some 10)].
Proof. eexists. split_ex. Qed.

(** ** C68: when the last handle is dropped and no call is in progress, every box was freed, and every value that was ever put in has
    left exactly once *)
Theorem C68_end : forall A (v0 : option A) dacq mvs st, exec (w_step true true dacq) (w_init v0) mvs = Some st -> arcs st = [] -> (forall t, pcs st t = KIdle) ->
  (forall b x d, nth_error (boxes st) b = Some (x, d) -> d = true) /\ Permutation (gone st) (olist v0 ++ put_in mvs).
Proof. exact (fun A v0 dacq => @weak_end A dacq v0). Qed.
Print Assumptions C68_end.

Example C68_end_ex : exists st, exec (w_step true true true) (w_init (Some 9)) ex_moves = Some st /\ arcs st = [] /\ (forall t, pcs st t = KIdle) /\ gone st = [10; 9; 11].
Proof.
  eexists. split; [vm_compute; reflexivity|]. split; [reflexivity|]. split; [|reflexivity]. intros [|[|t]]; reflexivity.
Qed.
