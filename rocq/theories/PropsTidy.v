(** C66: a task is woken only for what its pipeline currently depends on. Model: Executor.v; proofs: ExecutorTidy.v. *)
From Verif Require Import Base Conc Executor ExecutorFacts ExecutorRun ExecutorUse ExecutorEnd ExecutorQuiet ExecutorTidy.

(** Mutable 0 if Mutable 1 is 0, else a Broadcaster of Mutable 2. *)
Definition ex_pipe : pipe nat := PSwitch (fun a => if a =? 0 then PMut 0 (fun a => a) else PChild 0 (fun a => a)) (PMut 1 (fun a => a)).
Example ex_pipe_closed : closed 2 1 ex_pipe.
Proof. simpl. repeat split; auto. intros a. destruct (a =? 0); simpl; auto. Qed.
Example ex_mut_closed : closed 3 0 (PMut 2 (fun a : nat => a)). Proof. simpl. auto. Qed.
Definition ex_call : list (move nat) := [MStart 0; MPoll 0 20; MFut 0 true; MPoll 0 20].
Definition ex_begin : list (move nat) := [MNew 5; MNew 0; MNew 10; MBc 3 0 (PMut 2 (fun a => a)) ex_mut_closed; MSpawn 2 1 ex_pipe ex_pipe_closed] ++ ex_call.

(** ** C66: a move that wakes a sleeping task is a wake-up from outside, or it writes to (or drops the last handle of) a Mutable that
    the pipeline depends on at that moment *)
Theorem C66_wakes : forall V (v : V) mvs w t mv w', exec step (w_init v) mvs = Some w -> t < w_nt w ->
  t_pc (w_task w t) = TSleep -> t_woken (w_task w t) = false -> step w mv = Some w' -> t_woken (w_task w' t) = true ->
  mv = MWake t \/ exists m, concerns mv w' m /\ depends (contents w) (inputs w) (t_pipe (w_task w t)) m.
Proof. exact @tidy_wakes. Qed.
Print Assumptions C66_wakes.

(** What the pipeline of the example depends on. *)
Example ex_depends : forall vals defs m, defs 0 = PMut 2 (fun a => a) ->
  depends vals defs ex_pipe m <-> m = 1 \/ m = (if vals 1 =? 0 then 0 else 2).
Proof.
  intros vals defs m hd. split.
  - intros h. inversion h as [| | | | | |? ? ? K|? ? a ? S K]; subst; [inversion K; auto|]. inversion S; subst. cbv beta in K.
    destruct (vals 1 =? 0); inversion K as [| | | | |? ? ? K1| |]; subst; auto. rewrite hd in K1. inversion K1; auto.
  - intros [->| ->]; [apply dep_switch; constructor|]. eapply dep_inner; [constructor|]. cbv beta.
    destruct (vals 1 =? 0); constructor. rewrite hd. constructor.
Qed.

(** Before the switch a write to Mutable 0 wakes the task, and one to Mutable 2 does not. *)
Example C66_wakes_ex : exists w w0 w2, exec step (w_init 0) ex_begin = Some w /\ step w (MSet 0 6) = Some w0 /\ step w (MSet 2 11) = Some w2
  /\ t_pc (w_task w 0) = TSleep /\ t_woken (w_task w 0) = false /\ t_woken (w_task w0 0) = true /\ t_woken (w_task w2 0) = false.
Proof. eexists. eexists. eexists. split_ex. Qed.
(** After it is polled it is the other way around: and swap, and the drop of the last handle, are no different. *)
Example C66_wakes_ex2 : exists w w0 w2, exec step (w_init 0) (ex_begin ++ [MSet 1 1] ++ ex_call) = Some w
  /\ step w (MSet 0 6) = Some w0 /\ step w (MSet 2 11) = Some w2
  /\ t_pc (w_task w 0) = TSleep /\ t_woken (w_task w 0) = false /\ t_woken (w_task w0 0) = false /\ t_woken (w_task w2 0) = true.
Proof. eexists. eexists. eexists. split_ex. Qed.
Example C66_wakes_ex3 : exists w w1 w2, exec step (w_init 0) (ex_begin ++ [MSet 1 1; MClone 2] ++ ex_call) = Some w
  /\ exec step w [MDrop 0; MDrop 2] = Some w1 /\ exec step w1 [MDrop 2] = Some w2
  /\ t_woken (w_task w1 0) = false /\ t_woken (w_task w2 0) = true.
Proof. eexists. eexists. eexists. split_ex. Qed.

(** No signal of a sleeping task is registered with any other Mutable. *)
Theorem C66_registered : forall V (v : V) mvs w t m, exec step (w_init v) mvs = Some w -> t < w_nt w ->
  t_pc (w_task w t) = TSleep -> t_woken (w_task w t) = false -> registered w m t ->
  depends (contents w) (inputs w) (t_pipe (w_task w t)) m.
Proof. exact @tidy_registered. Qed.
Print Assumptions C66_registered.

Example C66_registered_ex : exists w, exec step (w_init 0) ex_begin = Some w /\ t_pc (w_task w 0) = TSleep /\ t_woken (w_task w 0) = false
  /\ registered w 0 0 /\ registered w 1 0.
Proof.
  assert (h : exists w, exec step (w_init 0) ex_begin = Some w /\ t_pc (w_task w 0) = TSleep /\ t_woken (w_task w 0) = false
    /\ u_signals (w_mu w 0) = [2] /\ u_signals (w_mu w 1) = [1]
    /\ c_alive (w_cw w 2) = true /\ c_alive (w_cw w 1) = true /\ c_owner (w_cw w 2) = WTask 0 /\ c_owner (w_cw w 1) = WTask 0).
  { eexists. split_ex. }
  destruct h as (w & h1 & h2 & h3 & h4 & h5 & h6 & h7 & h8 & h9). exists w.
  repeat split; auto; [exists 2|exists 1]; rewrite ?h4, ?h5; simpl; auto.
Qed.

(** A task that completed or was cancelled has no signals. *)
Theorem C66_ended : forall V (v : V) mvs w t m, exec step (w_init v) mvs = Some w -> t < w_nt w -> ended (t_pc (w_task w t)) = true -> ~ registered w m t.
Proof. exact @tidy_gone. Qed.
Print Assumptions C66_ended.

(** Cancelled, and completed, while other handles of the Mutables are in use. *)
Example C66_ended_ex : exists w w', exec step (w_init 0) (ex_begin ++ [MCancel 0]) = Some w /\ t_pc (w_task w 0) = TGone
  /\ exec step (w_init 0) (ex_begin ++ [MDrop 0; MDrop 1; MStart 0; MPoll 0 20]) = Some w' /\ t_pc (w_task w' 0) = TDone /\ held 2 w' = true.
Proof. eexists. eexists. split_ex. Qed.
