(** End to end (C57): whole programs of Mutables, Broadcasters and for_each tasks, for every pipeline and every history. *)
From Verif Require Import Base Conc Executor ExecutorFacts ExecutorRun ExecutorLive ExecutorUse ExecutorEnd.

(** Mutables 0 and 1 with 5 and 10. Broadcaster 0: the first one, deduped, plus 1.
    Task 0: map_ref! of Broadcaster 0 and Mutable 1 (100 * a + b). Task 1: Broadcaster 0, times 2, is it 12? *)
Definition ex_bc : pipe nat := PMap S (PDedupe Nat.eqb (fun a => (a, a)) (PMut 0 (fun a => a))).
Definition ex_sum : pipe nat :=
  PRef (fun vs => match vs with [a; b] => 100 * a + b | _ => 0 end) (PCons (PChild 0 (fun a => a)) (PCons (PMut 1 (fun a => a)) PNil)).
Definition ex_is : pipe nat := PEq (Nat.eqb 12) (fun b : bool => if b then 1 else 0) (PMap (Nat.mul 2) (PChild 0 (fun a => a))).
(** They name only what exists. *)
Example ex_bc_closed : closed 1 0 ex_bc. Proof. simpl. lia. Qed.
Example ex_sum_closed : closed 2 1 ex_sum. Proof. simpl. split; [discriminate|lia]. Qed.
Example ex_is_closed : closed 0 1 ex_is. Proof. simpl. lia. Qed.
Definition ex_make : list (move nat) := [MNew 5; MNew 10; MBc 1 0 ex_bc ex_bc_closed; MSpawn 2 1 ex_sum ex_sum_closed; MSpawn 0 1 ex_is ex_is_closed].
(** The executor polls task [t], which has one new value, or none. *)
Definition ex_new (t : nat) : list (move nat) := [MStart t; MPoll t 20; MFut t true; MPoll t 20].
Definition ex_none (t : nat) : list (move nat) := [MStart t; MPoll t 20].
(** Both run; Mutable 0 is set twice (the first value is never seen), task 1 is polled, Mutable 1 is set, task 0 is polled. *)
Definition ex_run : list (move nat) :=
  ex_make ++ ex_new 1 ++ ex_new 0 ++ [MSet 0 6; MSet 0 7] ++ ex_new 1 ++ [MSet 1 20] ++ ex_new 0.
(** All Mutables are dropped, and both tasks complete. *)
Definition ex_drop : list (move nat) := ex_run ++ [MDrop 0] ++ ex_none 0 ++ [MDrop 1] ++ ex_none 1 ++ ex_none 0.

(** A switch: when Mutable 1 contains 0, Mutable 0 is shown; else 100 and the sum of both (through a map_ref! that is made anew for
    every value of Mutable 1). Task 0 runs it. *)
Definition ex_switch : pipe nat :=
  PSwitch (fun a => if a =? 0 then PMut 0 (fun x => x) else PRef (fun vs => match vs with [x] => 100 + a + x | _ => 0 end) (PCons (PMut 0 (fun x => x)) PNil)) (PMut 1 (fun a => a)).
Example ex_switch_closed : closed 2 0 ex_switch.
Proof. simpl. split; [lia|]. intros a. destruct (a =? 0); simpl; [lia|]. split; [discriminate|lia]. Qed.
Definition ex_make2 : list (move nat) := [MNew 5; MNew 0; MSpawn 2 0 ex_switch ex_switch_closed] ++ ex_new 0.
(** Mutable 0 is set; both are; Mutable 1 is set, and then dropped; Mutable 0 is set. *)
Definition ex_run2 : list (move nat) :=
  ex_make2 ++ [MSet 0 6] ++ ex_new 0 ++ [MSet 0 7; MSet 1 1] ++ ex_new 0 ++ [MSet 1 2] ++ ex_new 0 ++ [MDrop 1] ++ ex_none 0 ++ [MSet 0 8] ++ ex_new 0.

Ltac run_ex := apply ran; split_ex.

(** Once the executor is idle, the last value that the closure of a for_each was called with is the
    function, that the pipeline is written as, of the current contents of the Mutables. Except: the
    task was dropped; or it is still waiting for the future of its closure. *)
Theorem C57_latest : forall V (v : V) mvs w env t, exec step (w_init v) mvs = Some w -> idle w -> t < w_nt w ->
  t_pc (w_task w t) <> TGone -> t_pc (w_task w t) <> TFut ->
  faithful (t_pipe (w_task w t)) -> (forall b, b < w_nbc w -> faithful (inputs w b)) -> solves w env ->
  hd_error (rev (t_seen (w_task w t))) = Some (value (contents w) env (t_pipe (w_task w t))).
Proof. exact @end_latest. Qed.
Print Assumptions C57_latest.

Example C57_latest_ex : exists w, exec step (w_init 0) ex_run = Some w
  /\ idle w /\ w_nt w = 2 /\ t_pc (w_task w 0) = TSleep /\ t_pc (w_task w 1) = TSleep /\ contents w 0 = 7 /\ contents w 1 = 20
  /\ t_seen (w_task w 0) = [610; 820] /\ t_seen (w_task w 1) = [1; 0] /\ t_pipe (w_task w 0) = ex_sum /\ t_pipe (w_task w 1) = ex_is
  /\ solves w (fun _ => 8) /\ (forall b, b < w_nbc w -> faithful (inputs w b)).
Proof.
  apply (ran_so _ (fun w => idleb w = true /\ (w_nt w = 2 /\ t_pc (w_task w 0) = TSleep /\ t_pc (w_task w 1) = TSleep /\ contents w 0 = 7 /\ contents w 1 = 20
    /\ t_seen (w_task w 0) = [610; 820] /\ t_seen (w_task w 1) = [1; 0] /\ t_pipe (w_task w 0) = ex_sum /\ t_pipe (w_task w 1) = ex_is)
    /\ w_nbc w = 1 /\ value (contents w) (fun _ => 8) (inputs w 0) = 8 /\ inputs w 0 = ex_bc)); [split_ex|].
  intros w (h1 & h2 & h3 & h4 & h5). split; [apply idle_is; auto|]. unfold solves. rewrite h3. repeat (split; [apply h2|]). split; intros [|b] hb; try lia; auto.
  rewrite h5. split; [|exact I]. intros a c h. apply Nat.eqb_eq. exact h.
Qed.

Example C57_latest_switch_ex : exists w, exec step (w_init 0) ex_run2 = Some w
  /\ idle w /\ w_nt w = 1 /\ t_pc (w_task w 0) = TSleep /\ contents w 0 = 8 /\ contents w 1 = 2 /\ dropped w 1
  /\ t_seen (w_task w 0) = [5; 6; 108; 109; 110] /\ t_pipe (w_task w 0) = ex_switch /\ solves w (fun _ => 0)
  /\ faithful ex_switch /\ value (contents w) (fun _ => 0) ex_switch = 110.
Proof.
  apply (ran_so _ (fun w => idleb w = true /\ (w_nt w = 1 /\ t_pc (w_task w 0) = TSleep /\ contents w 0 = 8 /\ contents w 1 = 2 /\ dropped w 1
    /\ t_seen (w_task w 0) = [5; 6; 108; 109; 110] /\ t_pipe (w_task w 0) = ex_switch) /\ w_nbc w = 0 /\ value (contents w) (fun _ => 0) ex_switch = 110)); [split_ex|].
  intros w (h1 & h2 & h3 & h4). split; [apply idle_is; auto|]. unfold solves. rewrite h3. repeat (split; [apply h2|]). split; [intros b hb; lia|]. split; [|exact h4].
  split; [exact I|]. intros a. destruct (a =? 0); simpl; auto.
Qed.

(** The same without conditions on the closures of dedupe_map, for every task that is not in the executor's queue, whatever
    the other tasks are doing. *)
Theorem C57_settled : forall V (v : V) mvs w t, exec step (w_init v) mvs = Some w -> t < w_nt w -> settled w t ->
  exists a, hd_error (rev (t_seen (w_task w t))) = Some a /\ shows (contents w) (inputs w) (t_pipe (w_task w t)) a.
Proof. exact @end_settled. Qed.
Print Assumptions C57_settled.

Example C57_settled_ex : exists w, exec step (w_init 0) (ex_run ++ [MSet 1 30]) = Some w
  /\ settled w 1 /\ ~ settled w 0 /\ t_seen (w_task w 1) = [1; 0].
Proof. run_ex. Qed.

(** The values of the Broadcasters exist. *)
Theorem C57_values : forall V (v : V) mvs w, exec step (w_init v) mvs = Some w -> exists env, solves w env.
Proof. exact @end_solvable. Qed.
Print Assumptions C57_values.

(** No glitches: also on the way to there, each value the closure is called with is the function of the
    contents at that moment (not a mix of old and new ones); one value per poll. *)
Theorem C57_no_glitch : forall V (v : V) mvs w t n w' l a env, exec step (w_init v) mvs = Some w -> step w (MPoll t n) = Some w' ->
  t_seen (w_task w' t) = t_seen (w_task w t) ++ l ++ [a] ->
  faithful (t_pipe (w_task w t)) -> (forall b, b < w_nbc w -> faithful (inputs w b)) -> solves w env ->
  l = [] /\ a = value (contents w) env (t_pipe (w_task w t)).
Proof. exact @end_each. Qed.
Print Assumptions C57_no_glitch.

Example C57_no_glitch_ex : exists w w', exec step (w_init 0) (ex_run ++ [MSet 1 30; MSet 0 9; MStart 0]) = Some w
  /\ step w (MPoll 0 20) = Some w' /\ t_seen (w_task w' 0) = t_seen (w_task w 0) ++ [] ++ [1030]
  /\ contents w 0 = 9 /\ contents w 1 = 30 /\ solves w (fun _ => 10).
Proof.
  destruct (ran2 (exec step (w_init 0) (ex_run ++ [MSet 1 30; MSet 0 9; MStart 0])) (fun w => step w (MPoll 0 20)) (fun w w' =>
    (t_seen (w_task w' 0) = t_seen (w_task w 0) ++ [] ++ [1030] /\ contents w 0 = 9 /\ contents w 1 = 30) /\ w_nbc w = 1 /\ value (contents w) (fun _ => 10) (inputs w 0) = 10)) as (w & w' & h1 & h2 & h3 & h4 & h5); [split_ex|].
  exists w, w'. split; [exact h1|]. split; [exact h2|]. repeat (split; [apply h3|]). intros b hb. rewrite h4 in hb. destruct b; [auto|lia].
Qed.

(** ** The executor becomes idle *)

(** From every state, the executor can make only so many moves (as long as nothing else happens and
    the futures of the closures are Ready) ... *)
Theorem C57_bounded : forall V (v : V) mvs w, exec step (w_init v) mvs = Some w ->
  exists k, forall mvs' w', forallb busy mvs' = true -> exec step w mvs' = Some w' -> length mvs' <= k.
Proof. exact @end_busy. Qed.
Print Assumptions C57_bounded.

(** ... and it can make one unless it is idle: no poll runs forever or waits, however deep the pipeline. *)
Theorem C57_progress : forall V (v : V) mvs w, exec step (w_init v) mvs = Some w ->
  idle w \/ exists mv w', busy mv = true /\ step w mv = Some w'.
Proof. exact @end_progress. Qed.
Print Assumptions C57_progress.

Theorem C57_idle : forall V (v : V) mvs w, exec step (w_init v) mvs = Some w ->
  exists mvs' w', forallb busy mvs' = true /\ exec step w mvs' = Some w' /\ idle w'.
Proof. exact @end_idle. Qed.
Print Assumptions C57_idle.

Example C57_idle_ex : exists w w', exec step (w_init 0) (ex_make ++ ex_new 1) = Some w
  /\ exec step w (ex_new 0) = Some w' /\ ~ idle w /\ forallb busy (ex_new 0) = true /\ idle w'.
Proof.
  destruct (ran2 (exec step (w_init 0) (ex_make ++ ex_new 1)) (fun w => exec step w (ex_new 0)) (fun w w' => idleb w = false /\ idleb w' = true)) as (w & w' & h1 & h2 & h3 & h4); [split_ex|].
  exists w, w'. split; [exact h1|]. split; [exact h2|]. split; [apply idle_not; auto|]. split; [reflexivity|apply idle_is; auto].
Qed.

(** No expect or unwrap fails: of map_ref! (value_ref), of Broadcaster (its value). *)
Theorem C57_no_panic : forall V (v : V) mvs w t, exec step (w_init v) mvs = Some w -> t < w_nt w -> t_pc (w_task w t) <> TPanic.
Proof. exact @end_no_panic. Qed.
Print Assumptions C57_no_panic.

(** set, drop and swap return, between any two polls. *)
Theorem C57_returns : forall V (v : V) mvs w m, exec step (w_init v) mvs = Some w -> held m w = true ->
  (forall a, exists w', step w (MSet m a) = Some w') /\ (exists w', step w (MDrop m) = Some w') /\
  (forall m', held m' w = true -> m <> m' -> exists w', step w (MSwap m m') = Some w').
Proof. exact @end_can. Qed.
Print Assumptions C57_returns.

Example C57_returns_ex : exists w, exec step (w_init 0) ex_run = Some w /\ held 0 w = true /\ held 1 w = true /\ ~ held 2 w = true.
Proof. run_ex. Qed.

(** ** The end of a for_each *)

(** Once the executor is idle, a for_each has completed if and only if all Mutables it depends on have been dropped. Without
    switch the pipelines are [certain]; with it, when the comparisons of dedupe are as they should be. *)
Theorem C57_completes : forall V (v : V) mvs w t, exec step (w_init v) mvs = Some w -> idle w -> t < w_nt w ->
  t_pc (w_task w t) <> TGone -> t_pc (w_task w t) <> TFut ->
  certain (contents w) (inputs w) (t_pipe (w_task w t)) -> (forall b, b < w_nbc w -> certain (contents w) (inputs w) (inputs w b)) ->
  (t_pc (w_task w t) = TDone <-> finished (dropped w) (contents w) (inputs w) (t_pipe (w_task w t))).
Proof. exact @end_completes. Qed.
Print Assumptions C57_completes.

Theorem C57_certain : forall V (vals : nat -> V) defs p, (forall b, faithful (defs b)) -> faithful p -> certain vals defs p.
Proof. exact @end_certain. Qed.
Print Assumptions C57_certain.

Theorem C57_completed : forall V (v : V) mvs w t, exec step (w_init v) mvs = Some w -> t < w_nt w -> t_pc (w_task w t) = TDone ->
  finished (dropped w) (contents w) (inputs w) (t_pipe (w_task w t)).
Proof. exact @end_done. Qed.
Print Assumptions C57_completed.

Example C57_completes_ex : exists w, exec step (w_init 0) ex_drop = Some w
  /\ idle w /\ t_pc (w_task w 0) = TDone /\ t_pc (w_task w 1) = TDone /\ t_seen (w_task w 0) = [610; 820].
Proof.
  apply (ran_so _ (fun w => idleb w = true /\ t_pc (w_task w 0) = TDone /\ t_pc (w_task w 1) = TDone /\ t_seen (w_task w 0) = [610; 820])); [split_ex|].
  intros w [h1 h2]. split; [apply idle_is; auto|exact h2].
Qed.

(** A switch has ended when its input and the last inner signal have: after Mutable 1 alone is dropped it goes on. *)
Example C57_completes_switch_ex : exists w w', exec step (w_init 0) ex_run2 = Some w /\ exec step w ([MDrop 0] ++ ex_none 0) = Some w'
  /\ idle w /\ t_pc (w_task w 0) = TSleep /\ dropped w 1 /\ ~ dropped w 0
  /\ idle w' /\ t_pc (w_task w' 0) = TDone /\ t_seen (w_task w' 0) = [5; 6; 108; 109; 110].
Proof.
  destruct (ran2 (exec step (w_init 0) ex_run2) (fun w => exec step w ([MDrop 0] ++ ex_none 0)) (fun w w' => idleb w = true /\ idleb w' = true /\ t_pc (w_task w 0) = TSleep
    /\ dropped w 1 /\ ~ dropped w 0 /\ t_pc (w_task w' 0) = TDone /\ t_seen (w_task w' 0) = [5; 6; 108; 109; 110])) as (w & w' & h1 & h2 & h3 & h4 & h5 & h6 & h7 & h8 & h9); [split_ex|].
  exists w, w'. repeat (split; [auto using idle_is|]). exact h9.
Qed.

(** Mutable 0 alone is dropped: task 1 is done, task 0 is not. *)
Example C57_completes_ex2 : exists w, exec step (w_init 0) (ex_run ++ [MDrop 0] ++ ex_none 0 ++ ex_none 1) = Some w
  /\ idle w /\ t_pc (w_task w 0) = TSleep /\ t_pc (w_task w 1) = TDone.
Proof.
  apply (ran_so _ (fun w => idleb w = true /\ t_pc (w_task w 0) = TSleep /\ t_pc (w_task w 1) = TDone)); [split_ex|].
  intros w [h1 h2]. split; [apply idle_is; auto|exact h2].
Qed.

(** ** What the words above mean, as the history goes on *)

(** The contents are what was last set. *)
Theorem C57_contents : forall V (v : V) mvs w mv w', exec step (w_init v) mvs = Some w -> step w mv = Some w' ->
  forall k, contents w' k = match mv with
                            | MNew a => if k =? w_nmu w then a else contents w k
                            | MSet m a => if k =? m then a else contents w k
                            | MSwap m m' => if k =? m' then contents w m else if k =? m then contents w m' else contents w k
                            | _ => contents w k
                            end.
Proof. exact @end_contents. Qed.
Print Assumptions C57_contents.

(** The pipeline of a task is the one it was spawned with; the input of a Broadcaster is the one it was made with. *)
Theorem C57_spawned : forall V (v : V) mvs w nm nb p h w1 mvs' w', exec step (w_init v) mvs = Some w ->
  step w (MSpawn nm nb p h) = Some w1 -> exec step w1 mvs' = Some w' ->
  w_nt w < w_nt w' /\ t_pipe (w_task w' (w_nt w)) = p.
Proof. exact @end_spawned. Qed.
Print Assumptions C57_spawned.

Theorem C57_broadcaster : forall V (v : V) mvs w nm nb p h w1 mvs' w', exec step (w_init v) mvs = Some w ->
  step w (MBc nm nb p h) = Some w1 -> exec step w1 mvs' = Some w' ->
  w_nbc w < w_nbc w' /\ inputs w' (w_nbc w) = p.
Proof. exact @end_broadcaster. Qed.
Print Assumptions C57_broadcaster.

(** Nothing is taken back from the closure. *)
Theorem C57_seen : forall V (v : V) mvs w mvs' w' t, exec step (w_init v) mvs = Some w -> exec step w mvs' = Some w' -> t < w_nt w ->
  exists l, t_seen (w_task w' t) = t_seen (w_task w t) ++ l.
Proof. exact @end_seen. Qed.
Print Assumptions C57_seen.

Example C57_spawned_ex : exists w w1 w', exec step (w_init 0) ex_run = Some w /\ step w (MSpawn 0 1 (PChild 0 (Nat.mul 3)) (le_n 1)) = Some w1
  /\ exec step w1 (ex_new 2 ++ [MSet 0 1]) = Some w' /\ t_seen (w_task w' 2) = [24] /\ contents w' 0 = 1 /\ w_nt w = 2.
Proof. apply ran3. split_ex. Qed.
