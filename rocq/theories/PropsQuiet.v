(** C65: the closure of a for_each is not called without a reason. Model: Executor.v; proofs: ExecutorQuiet.v. *)
From Verif Require Import Base Conc Executor ExecutorFacts ExecutorRun ExecutorUse ExecutorEnd ExecutorQuiet.

(** A Broadcaster of Mutable 0; the task shows it together with: Mutable 1 if Mutable 2 is 0, else always 7. Mutable 3 is
    not part of it. *)
Definition ex_pipe : pipe nat :=
  PRef (fold_right Nat.add 0) (PCons (PChild 0 (fun a => a))
    (PCons (PSwitch (fun a => if a =? 0 then PMut 1 (fun a => a) else PAlways 7) (PMut 2 (fun a => a))) PNil)).
Example ex_pipe_closed : closed 3 1 ex_pipe.
Proof. simpl. split; [discriminate|]. repeat split; auto. intros a. destruct (a =? 0); simpl; auto. Qed.
Example ex_mut_closed : closed 1 0 (PMut 0 (fun a : nat => a)). Proof. simpl. auto. Qed.
Definition ex_begin : list (move nat) := [MNew 5; MNew 10; MNew 0; MNew 50; MBc 1 0 (PMut 0 (fun a => a)) ex_mut_closed].
Definition ex_spawn : move nat := MSpawn 3 1 ex_pipe ex_pipe_closed.
Definition ex_call (t : nat) : list (move nat) := [MStart t; MPoll t 20; MFut t true; MPoll t 20].
Definition ex_nothing (t : nat) : list (move nat) := [MStart t; MPoll t 20].
Definition ex_rel (m : nat) : bool := m <? 3.
(** Wake-ups and polls, and moves that are no writes to Mutables 0, 1, 2. *)
Definition ex_noise : list (move nat) :=
  [MSet 3 51; MWake 0] ++ ex_nothing 0 ++ [MClone 0; MDrop 0; MSpawn 1 0 (PMut 0 (fun a => a)) ex_mut_closed] ++ ex_call 1
  ++ [MDrop 1] ++ ex_nothing 0 ++ [MCancel 1; MWake 0] ++ ex_nothing 0.

(** The hypothesis about [ex_pipe] in the theorems below. *)
Example ex_reads : forall (w : world nat), inputs w 0 = PMut 0 (fun a => a) -> forall m, reads (inputs w) ex_pipe m -> ex_rel m = true.
Proof.
  intros w hb m h. inversion h as [| | | |? ? ? H| | |]; subst. inversion H as [? ? ? K|? ? ? K]; subst.
  - inversion K as [| | | | |? ? ? K1| |]; subst. rewrite hb in K1. inversion K1. reflexivity.
  - inversion K as [? ? ? K1|? ? ? K1]; subst; [|inversion K1]. inversion K1 as [| | | | | |? ? ? K2|? ? a ? K2]; subst.
    + inversion K2. reflexivity.
    + destruct (a =? 0); inversion K2. reflexivity.
Qed.

(** ** C65: one call for the first value, and then at most one per write to a Mutable that the pipeline depends on *)
Theorem C65_spawned : forall V (v : V) mvs w nm nb p h w1 rel mvs' w', exec step (w_init v) mvs = Some w -> step w (MSpawn nm nb p h) = Some w1 ->
  (forall m, reads (inputs w) p m -> rel m = true) -> exec step w1 mvs' = Some w' ->
  length (t_seen (w_task w' (w_nt w))) <= 1 + length (filter (writes rel) mvs').
Proof. exact @quiet_spawned. Qed.
Print Assumptions C65_spawned.

(** The bound is reached. *)
Example C65_spawned_ex : exists w w1 w', exec step (w_init 0) ex_begin = Some w /\ step w ex_spawn = Some w1
  /\ exec step w1 (ex_call 0 ++ [MSet 0 6] ++ ex_call 0 ++ [MSet 2 1] ++ ex_call 0 ++ [MSwap 0 3] ++ ex_call 0) = Some w'
  /\ inputs w 0 = PMut 0 (fun a => a) /\ t_seen (w_task w' 0) = [15; 16; 13; 57].
Proof. apply ran3. split_ex. Qed.

(** From any moment on: one call for what may not have arrived yet, and then at most one per write. *)
Theorem C65_calls : forall V (v : V) mvs w t rel mvs' w', exec step (w_init v) mvs = Some w -> t < w_nt w ->
  (forall m, reads (inputs w) (t_pipe (w_task w t)) m -> rel m = true) -> exec step w mvs' = Some w' ->
  length (t_seen (w_task w' t)) <= length (t_seen (w_task w t)) + 1 + length (filter (writes rel) mvs').
Proof. exact @quiet_calls. Qed.
Print Assumptions C65_calls.

(** Nothing is on its way. *)
Theorem C65_settled : forall V (v : V) mvs w t rel mvs' w', exec step (w_init v) mvs = Some w -> t < w_nt w -> settled w t ->
  (forall m, reads (inputs w) (t_pipe (w_task w t)) m -> rel m = true) -> exec step w mvs' = Some w' ->
  length (t_seen (w_task w' t)) <= length (t_seen (w_task w t)) + length (filter (writes rel) mvs').
Proof. exact @quiet_settled. Qed.
Print Assumptions C65_settled.

(** Whatever else happens, wake-ups, clones and drops, other tasks, other Mutables: no call. *)
Theorem C65_no_call : forall V (v : V) mvs w t rel mvs' w', exec step (w_init v) mvs = Some w -> t < w_nt w -> settled w t ->
  (forall m, reads (inputs w) (t_pipe (w_task w t)) m -> rel m = true) -> exec step w mvs' = Some w' -> existsb (writes rel) mvs' = false ->
  t_seen (w_task w' t) = t_seen (w_task w t).
Proof. exact @quiet_same. Qed.
Print Assumptions C65_no_call.

Example C65_no_call_ex : exists w w', exec step (w_init 0) (ex_begin ++ [ex_spawn] ++ ex_call 0) = Some w
  /\ exec step w ex_noise = Some w' /\ settled w 0 /\ inputs w 0 = PMut 0 (fun a => a) /\ t_pipe (w_task w 0) = ex_pipe
  /\ existsb (writes ex_rel) ex_noise = false /\ t_seen (w_task w 0) = [15] /\ t_seen (w_task w' 1) = [5].
Proof. apply ran2. split_ex. Qed.

(** Two writes before the task runs: one call. *)
Example C65_calls_ex : exists w w', exec step (w_init 0) (ex_begin ++ [ex_spawn] ++ ex_call 0 ++ [MSet 0 7]) = Some w
  /\ exec step w ([MSet 1 1] ++ ex_call 0) = Some w' /\ ~ settled w 0 /\ t_seen (w_task w 0) = [15] /\ t_seen (w_task w' 0) = [15; 8].
Proof. apply ran2. split_ex. Qed.
