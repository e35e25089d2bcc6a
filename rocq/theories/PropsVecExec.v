(** End to end for SignalVecs (C58): whole programs of MutableVecs and for_each tasks over pipelines of map, filter, filter_map,
    sort_by_cloned, enumerate, debug and chain, for every pipeline and every history. *)
From Verif Require Import Base Conc Spec VecDiff VecSpec VecSimple Sort Chain Slot MutVec MutVecSpec SortSpec.
From Verif Require Import VecExec VecExecEnd VecExecUse VecExecTame VecExecLive.

Definition ex_even (a : nat) : option nat := if Nat.even a then Some a else None.
(** MutableVec 0, evens only; then MutableVec 1, sorted. *)
Definition ex_pipe : pipe nat := PChain (POne (CFilterMap ex_even) (PMut 0)) (POne (CSort Nat.compare) (PMut 1)).
(** MutableVec 0, enumerated (each index handle and value as the sum of the value and 100 times the handle), then mapped. *)
Definition ex_idx : pipe nat := POne (CMap S) (POne (CEnumerate (fun c a => 100 * c + a)) (PMut 0)).
(** The executor polls task [t], which has [n] new diffs. *)
Definition ex_go (t n : nat) : list (move nat) := MStart t :: concat (repeat [MPoll t 30; MFut t true] n) ++ [MPoll t 30].
Definition ex_run : list (move nat) :=
  [MVec [3; 4; 2]; MVec [9; 7; 8]; MSpawn ex_pipe; MSpawn ex_idx] ++ ex_go 0 1 ++ [MOp 0 (OPush 6); MOp 1 (ORemove 1)]
  ++ ex_go 1 2 ++ ex_go 0 2 ++ [MOp 0 (OMove 0 2)] ++ ex_go 1 1 ++ ex_go 0 0.

(** Whenever the executor is idle, the diffs that the closure of a for_each was called with reconstruct the function, that the pipeline is
    written as, of the current contents of the MutableVecs. Partial: if the pipeline has filter, filter_map or chain, only when the
    diffs that arrived there satisfy the side conditions of C09, C10 and C23 ([tame]); without that the statement is false, see below. *)
Theorem C58_latest_partial : forall V mvs (w : world V) t, exec step w_init mvs = Some w -> idle w -> t < w_nt w ->
  t_pc (w_task w t) = TSleep -> tame (t_sig (w_task w t)) -> unpoisoned w (t_pipe (w_task w t)) ->
  pipe_of (t_sig (w_task w t)) = t_pipe (w_task w t)
  /\ exists out, replay (seen (w_task w t)) = Some out /\ shows (contents w) (t_sig (w_task w t)) out.
Proof. exact @idle_shows. Qed.
Print Assumptions C58_latest_partial.

Example C58_latest_partial_ex : exists w, exec step w_init ex_run = Some w
  /\ (idle w /\ tame (t_sig (w_task w 0)) /\ tame (t_sig (w_task w 1)))
  /\ (w_nt w = 2 /\ t_pc (w_task w 0) = TSleep /\ t_pc (w_task w 1) = TSleep
       /\ unpoisoned w (t_pipe (w_task w 0)) /\ unpoisoned w (t_pipe (w_task w 1)) /\ contents w 0 = [4; 2; 3; 6] /\ contents w 1 = [9; 8]
       /\ seen (w_task w 0) = [Replace [4; 2; 7; 8; 9]; InsertAt 2 6; RemoveAt 3] /\ replay (seen (w_task w 0)) = Some [4; 2; 6; 8; 9]
       /\ seen (w_task w 1) = [Replace [4; 105; 203]; Push 307; Move 0 2] /\ replay (seen (w_task w 1)) = Some [105; 203; 4; 307]).
Proof.
  apply (ran_both _ (fun w => (idleb w = true /\ tameb (t_sig (w_task w 0)) = true /\ tameb (t_sig (w_task w 1)) = true)
    /\ pipe_of (t_sig (w_task w 0)) = ex_pipe /\ pipe_of (t_sig (w_task w 1)) = ex_idx)); [split_ex|].
  intros w [(h1 & h2 & h3) (h4 & h5)]. split; [apply idle_is; exact h1|].
  split; apply tame_is; auto; rewrite ?h4, ?h5; simpl; auto using @nat_preorder.
Qed.

(** The same for every task that is not in the executor's queue, whatever the other tasks are doing. *)
Theorem C58_asleep_partial : forall V mvs (w : world V) t, exec step w_init mvs = Some w -> t < w_nt w ->
  t_pc (w_task w t) = TSleep -> t_woken (w_task w t) = false ->
  tame (t_sig (w_task w t)) -> unpoisoned w (t_pipe (w_task w t)) ->
  pipe_of (t_sig (w_task w t)) = t_pipe (w_task w t)
  /\ exists out, replay (seen (w_task w t)) = Some out /\ shows (contents w) (t_sig (w_task w t)) out.
Proof. exact @asleep_shows. Qed.
Print Assumptions C58_asleep_partial.

Example C58_asleep_partial_ex : exists w, exec step w_init (ex_run ++ [MOp 1 (OPush 1)]) = Some w
  /\ t_pc (w_task w 1) = TSleep /\ t_woken (w_task w 1) = false /\ t_woken (w_task w 0) = true
  /\ tameb (t_sig (w_task w 1)) = true /\ replay (seen (w_task w 1)) = Some [105; 203; 4; 307] /\ contents w 0 = [4; 2; 3; 6].
Proof. apply ran. split_ex. Qed.

(** Without filter, filter_map and chain there is no side condition. *)
Theorem C58_latest_gentle : forall V mvs (w : world V) t, exec step w_init mvs = Some w -> idle w -> t < w_nt w ->
  t_pc (w_task w t) = TSleep -> gentle (t_pipe (w_task w t)) -> unpoisoned w (t_pipe (w_task w t)) ->
  pipe_of (t_sig (w_task w t)) = t_pipe (w_task w t)
  /\ exists out, replay (seen (w_task w t)) = Some out /\ shows (contents w) (t_sig (w_task w t)) out.
Proof. exact @gentle_shows. Qed.
Print Assumptions C58_latest_gentle.

Example C58_latest_gentle_ex : gentle ex_idx /\ gentle (POne (CSort Nat.compare) ex_idx) /\ ~ gentle ex_pipe.
Proof. simpl. pose proof nat_preorder. tauto. Qed.

(** A for_each that has completed: nobody can change its MutableVecs any more, and it has seen their final contents. *)
Theorem C58_completed_partial : forall V mvs (w : world V) t, exec step w_init mvs = Some w -> t < w_nt w -> t_pc (w_task w t) = TDone ->
  pipe_of (t_sig (w_task w t)) = t_pipe (w_task w t)
  /\ (forall m id, In (m, id) (leaves (t_sig (w_task w t))) -> owners (w_vec w m) = 0)
  /\ (tame (t_sig (w_task w t)) -> unpoisoned w (t_pipe (w_task w t)) ->
      exists out, replay (seen (w_task w t)) = Some out /\ shows (contents w) (t_sig (w_task w t)) out).
Proof. exact @done_shows. Qed.
Print Assumptions C58_completed_partial.

Definition ex_drop : list (move nat) :=
  ex_run ++ [MOp 0 (OPush 8); MDrop 0] ++ ex_go 1 1 ++ [MOp 1 OClear; MDrop 1] ++ ex_go 0 3.
Example C58_completed_partial_ex : exists w, exec step w_init ex_drop = Some w
  /\ t_pc (w_task w 0) = TDone /\ t_pc (w_task w 1) = TDone /\ contents w 0 = [4; 2; 3; 6; 8] /\ contents w 1 = []
  /\ replay (seen (w_task w 0)) = Some [4; 2; 6; 8] /\ replay (seen (w_task w 1)) = Some [105; 203; 4; 307; 409]
  /\ tameb (t_sig (w_task w 0)) = true /\ unpoisoned w (t_pipe (w_task w 0)).
Proof. apply ran. split_ex. Qed.

(** Once the executor is idle, a for_each has completed exactly when all MutableVecs it is built on are gone. *)
Theorem C58_completes_partial : forall V mvs (w : world V) t, exec step w_init mvs = Some w -> idle w -> t < w_nt w ->
  t_pc (w_task w t) <> TGone -> t_pc (w_task w t) <> TFut -> tame (t_sig (w_task w t)) ->
  (t_pc (w_task w t) = TDone <-> forall m, In m (muts (t_pipe (w_task w t))) -> owners (w_vec w m) = 0).
Proof. exact @completes. Qed.
Print Assumptions C58_completes_partial.

Example C58_completes_partial_ex : exists w, exec step w_init (ex_run ++ [MDrop 0] ++ ex_go 1 0 ++ ex_go 0 0) = Some w
  /\ idleb w = true /\ t_pc (w_task w 0) = TSleep /\ t_pc (w_task w 1) = TDone /\ owners (w_vec w 0) = 0 /\ owners (w_vec w 1) = 1
  /\ muts (t_pipe (w_task w 0)) = [0; 1] /\ muts (t_pipe (w_task w 1)) = [0].
Proof. apply ran. split_ex. Qed.

(** The pipeline does not panic. *)
Theorem C58_no_panic_partial : forall V mvs (w : world V) t, exec step w_init mvs = Some w -> t < w_nt w ->
  t_pc (w_task w t) = TPanic -> ~ tame (t_sig (w_task w t)).
Proof. exact @panic_wild. Qed.
Print Assumptions C58_no_panic_partial.

(** The contents of the MutableVecs are what the operations of the program make them (C17), and nothing else writes to them. *)
Theorem C58_contents : forall V mvs (w : world V) mv w', exec step w_init mvs = Some w -> step w mv = Some w' ->
  forall m, written mv w m (contents w' m).
Proof. exact @end_contents. Qed.
Print Assumptions C58_contents.

Example C58_contents_ex : exists w, exec step w_init ex_run = Some w
  /\ match step w (MOp 0 (OSet 1 5)) with Some w' => contents w' 0 = [4; 5; 3; 6] /\ contents w' 1 = [9; 8] | None => False end.
Proof. apply ran. split_ex. Qed.

(** A new task has the given pipeline, has seen nothing, and is put into the executor's queue. *)
Theorem C58_spawn : forall V (w : world V) p w', step w (MSpawn p) = Some w' ->
  w_nt w' = S (w_nt w) /\ t_pipe (w_task w' (w_nt w)) = p /\ seen (w_task w' (w_nt w)) = []
  /\ t_pc (w_task w' (w_nt w)) = TSleep /\ t_woken (w_task w' (w_nt w)) = true.
Proof. exact @end_spawn. Qed.
Print Assumptions C58_spawn.

(** A task keeps its pipeline; the diffs it has seen are kept, and at most one is added at the end. *)
Theorem C58_grows : forall V (w : world V) mv w' t, step w mv = Some w' -> t < w_nt w ->
  t < w_nt w' /\ t_pipe (w_task w' t) = t_pipe (w_task w t)
  /\ exists o, seen (w_task w' t) = seen (w_task w t) ++ o /\ length o <= 1.
Proof. exact @end_grows. Qed.
Print Assumptions C58_grows.

(** ** Conditions on the program *)

(** [sound F N]: beneath each filter and filter_map are only MutableVecs in [F], and beneath each chain only MutableVecs in [N] and no filter
    and no filter_map. [careful F N]: the program never moves an element backwards within a MutableVec in [F], and never replaces the
    contents of a MutableVec in [N] by nothing when they are nothing. Then the conditions on the diffs always hold. *)
Theorem C58_latest_sound : forall V F N mvs (w : world V), exec step w_init mvs = Some w -> careful F N w_init mvs ->
  forall t, t < w_nt w -> t_pc (w_task w t) = TSleep -> t_woken (w_task w t) = false ->
  sound F N (t_pipe (w_task w t)) -> unpoisoned w (t_pipe (w_task w t)) ->
  pipe_of (t_sig (w_task w t)) = t_pipe (w_task w t)
  /\ exists out, replay (seen (w_task w t)) = Some out /\ shows (contents w) (t_sig (w_task w t)) out.
Proof. exact @sound_shows. Qed.
Print Assumptions C58_latest_sound.

(** The even ones among the successors of the elements of MutableVec 0 and the elements of MutableVec 1 sorted. *)
Definition ex_mix : pipe nat :=
  POne (CFilterMap ex_even) (PChain (POne (CMap S) (PMut 0)) (POne (CSort Nat.compare) (PMut 1))).
Definition ex_tidy : list (move nat) :=
  [MVec [3; 4; 2]; MVec [9; 7; 8]; MSpawn ex_mix] ++ ex_go 0 1
  ++ [MOp 0 (OPush 5); MOp 1 OClear; MOp 0 (OMove 0 2); MOp 1 (OReplaceCloned [6; 2])] ++ ex_go 0 5
  ++ [MOp 0 (OSwap 1 2); MOp 1 (ORetain (Nat.leb 3))] ++ ex_go 0 1.
Example C58_latest_sound_ex : exists w, exec step w_init ex_tidy = Some w
  /\ (careful (fun _ => True) (fun _ => True) w_init ex_tidy /\ sound (fun _ => True) (fun _ => True) (t_pipe (w_task w 0)))
  /\ (w_nt w = 1 /\ t_pc (w_task w 0) = TSleep /\ t_woken (w_task w 0) = false /\ unpoisoned w (t_pipe (w_task w 0))
       /\ contents w 0 = [4; 3; 2; 5] /\ contents w 1 = [6] /\ replay (seen (w_task w 0)) = Some [4; 6; 6]).
Proof.
  apply (ran_both _ (fun w => carefulb w_init ex_tidy = true /\ t_pipe (w_task w 0) = ex_mix)); [split_ex|].
  intros w [h1 h2]. split; [apply careful_is; exact h1|]. rewrite h2. simpl. pose proof nat_preorder. tauto.
Qed.

Theorem C58_completed_sound : forall V F N mvs (w : world V), exec step w_init mvs = Some w -> careful F N w_init mvs ->
  forall t, t < w_nt w -> t_pc (w_task w t) = TDone ->
  sound F N (t_pipe (w_task w t)) -> unpoisoned w (t_pipe (w_task w t)) ->
  pipe_of (t_sig (w_task w t)) = t_pipe (w_task w t)
  /\ (forall m, In m (muts (t_pipe (w_task w t))) -> owners (w_vec w m) = 0)
  /\ exists out, replay (seen (w_task w t)) = Some out /\ shows (contents w) (t_sig (w_task w t)) out.
Proof. exact @sound_done. Qed.
Print Assumptions C58_completed_sound.

Theorem C58_completes_sound : forall V F N mvs (w : world V), exec step w_init mvs = Some w -> careful F N w_init mvs ->
  forall t, idle w -> t < w_nt w -> t_pc (w_task w t) <> TGone -> t_pc (w_task w t) <> TFut ->
  sound F N (t_pipe (w_task w t)) ->
  (t_pc (w_task w t) = TDone <-> forall m, In m (muts (t_pipe (w_task w t))) -> owners (w_vec w m) = 0).
Proof. exact @sound_completes. Qed.
Print Assumptions C58_completes_sound.

Definition ex_tidy_end : list (move nat) := ex_tidy ++ [MOp 0 OPop; MDrop 0; MDrop 1] ++ ex_go 0 1.
Example C58_completes_sound_ex : exists w, exec step w_init ex_tidy_end = Some w
  /\ (careful (fun _ => True) (fun _ => True) w_init ex_tidy_end /\ sound (fun _ => True) (fun _ => True) (t_pipe (w_task w 0)) /\ idle w)
  /\ (w_nt w = 1 /\ t_pc (w_task w 0) = TDone /\ unpoisoned w (t_pipe (w_task w 0))
       /\ contents w 0 = [4; 3; 2] /\ contents w 1 = [6] /\ replay (seen (w_task w 0)) = Some [4; 6]).
Proof.
  apply (ran_both _ (fun w => (carefulb w_init ex_tidy_end = true /\ idleb w = true) /\ t_pipe (w_task w 0) = ex_mix)); [split_ex|].
  intros w [[h1 h3] h2]. split; [apply careful_is; exact h1|]. rewrite h2. simpl. pose proof nat_preorder. pose proof (idle_is _ h3). tauto.
Qed.

(** No panic, and the conditions on the diffs hold. *)
Theorem C58_no_panic_sound : forall V F N mvs (w : world V), exec step w_init mvs = Some w -> careful F N w_init mvs ->
  forall t, t < w_nt w -> sound F N (t_pipe (w_task w t)) ->
  t_pc (w_task w t) <> TPanic /\ (t_pc (w_task w t) <> TGone -> tame (t_sig (w_task w t))).
Proof. exact @sound_tame. Qed.
Print Assumptions C58_no_panic_sound.

(** ** The executor becomes idle *)

(** However the executor goes on, it makes only so many moves on its own (the futures of the closures included) until somebody else acts. *)
Theorem C58_bounded : forall V mvs (w : world V), exec step w_init mvs = Some w ->
  exists k, forall mvs' w', forallb busy mvs' = true -> exec step w mvs' = Some w' -> length mvs' <= k.
Proof. exact @end_bounded. Qed.
Print Assumptions C58_bounded.

(** ... and it can make one unless it is idle: no poll runs forever, however deep the pipeline and whatever is in the queues. *)
Theorem C58_progress : forall V mvs (w : world V), exec step w_init mvs = Some w ->
  idle w \/ exists mv w', busy mv = true /\ step w mv = Some w'.
Proof. exact @end_progress. Qed.
Print Assumptions C58_progress.

Theorem C58_idle : forall V mvs (w : world V), exec step w_init mvs = Some w ->
  exists mvs' w', forallb busy mvs' = true /\ exec step w mvs' = Some w' /\ idle w'.
Proof. exact @end_idle. Qed.
Print Assumptions C58_idle.

(** Together: whatever the program did, once the executor has become idle on its own, each for_each shows the function of what the
    MutableVecs contained before, and has completed exactly if they were gone. Except: it was dropped, or waits for the future of its closure. *)
Theorem C58_settles_sound : forall V F N mvs (w : world V) mvs' w', exec step w_init mvs = Some w -> careful F N w_init mvs ->
  forallb busy mvs' = true -> exec step w mvs' = Some w' -> idle w' ->
  forall t, t < w_nt w -> sound F N (t_pipe (w_task w t)) -> unpoisoned w (t_pipe (w_task w t)) ->
  t_pc (w_task w' t) <> TGone -> t_pc (w_task w' t) <> TFut ->
  pipe_of (t_sig (w_task w' t)) = t_pipe (w_task w t)
  /\ (exists out, replay (seen (w_task w' t)) = Some out /\ shows (contents w) (t_sig (w_task w' t)) out)
  /\ (t_pc (w_task w' t) = TDone <-> forall m, In m (muts (t_pipe (w_task w t))) -> owners (w_vec w m) = 0).
Proof. exact @end_settles. Qed.
Print Assumptions C58_settles_sound.

Definition ex_late : list (move nat) := ex_tidy ++ [MOp 0 (OPush 7); MOp 1 OClear; MOp 1 (OPush 2); MDrop 0].
Example C58_settles_sound_ex : exists w, exec step w_init ex_late = Some w
  /\ (careful (fun _ => True) (fun _ => True) w_init ex_late /\ sound (fun _ => True) (fun _ => True) (t_pipe (w_task w 0)) /\ idleb w = false)
  /\ (unpoisoned w (t_pipe (w_task w 0)) /\ contents w 0 = [4; 3; 2; 5; 7] /\ contents w 1 = [2] /\ forallb busy (ex_go 0 3) = true)
  /\ match exec step w (ex_go 0 3) with
     | Some w' => idleb w' = true /\ t_pc (w_task w' 0) = TSleep /\ replay (seen (w_task w' 0)) = Some [4; 6; 8; 2]
     | None => False
     end.
Proof.
  destruct (ran (exec step w_init ex_late) (fun w => (carefulb w_init ex_late = true /\ t_pipe (w_task w 0) = ex_mix /\ idleb w = false)
   /\ (unpoisoned w (t_pipe (w_task w 0)) /\ contents w 0 = [4; 3; 2; 5; 7] /\ contents w 1 = [2] /\ forallb busy (ex_go 0 3) = true)
   /\ match exec step w (ex_go 0 3) with
     | Some w' => idleb w' = true /\ t_pc (w_task w' 0) = TSleep /\ replay (seen (w_task w' 0)) = Some [4; 6; 8; 2]
     | None => False
     end)) as (w & h1 & (h2 & h3 & h4) & h5); [split_ex|].
  exists w. split; [exact h1|]. split; [|exact h5]. split; [apply careful_is; exact h2|]. rewrite h3. split; [simpl; pose proof nat_preorder; tauto|exact h4].
Qed.

(** ** Where the property fails *)

(** filter_map, one backward move: the executor is idle, and the elements shown are in the wrong order. *)
Definition ex_moved : list (move nat) :=
  [MVec [2; 4; 1; 6; 3; 8]; MSpawn (POne (CFilterMap ex_even) (PMut 0))] ++ ex_go 0 1 ++ [MOp 0 (OMove 3 0)] ++ ex_go 0 1.
Theorem C58_filter_map_refuted : exists w, exec step w_init ex_moved = Some w
  /\ (idle w /\ sorts_ok (t_pipe (w_task w 0)))
  /\ (t_pc (w_task w 0) = TSleep /\ unpoisoned w (t_pipe (w_task w 0)) /\ contents w 0 = [6; 2; 4; 1; 3; 8]
       /\ replay (seen (w_task w 0)) = Some [8; 2; 4; 6]).
Proof. apply (ran_both _ (fun w => idleb w = true /\ sorts_ok (t_pipe (w_task w 0)))); [split_ex|]. intros w [h1 h2]. auto using @idle_is. Qed.
Print Assumptions C58_filter_map_refuted.

(** chain, and beneath it a filter_map: an element that is filtered out is pushed, the MutableVec is cleared, and from then on the for_each
    is not woken when it changes. *)
Definition ex_lost : list (move nat) :=
  [MVec [5]; MVec []; MSpawn (PChain (PMut 0) (POne (CFilterMap ex_even) (PMut 1)))] ++ ex_go 0 1
  ++ [MOp 1 (OPush 1)] ++ ex_go 0 0 ++ [MOp 1 OClear] ++ ex_go 0 0 ++ [MOp 1 (OPush 6)].
Theorem C58_chain_refuted : exists w, exec step w_init ex_lost = Some w
  /\ (idle w /\ sorts_ok (t_pipe (w_task w 0)))
  /\ (t_pc (w_task w 0) = TSleep /\ unpoisoned w (t_pipe (w_task w 0)) /\ contents w 0 = [5] /\ contents w 1 = [6]
       /\ replay (seen (w_task w 0)) = Some [5]).
Proof. apply (ran_both _ (fun w => idleb w = true /\ sorts_ok (t_pipe (w_task w 0)))); [split_ex|]. intros w [h1 h2]. auto using @idle_is. Qed.
Print Assumptions C58_chain_refuted.

(** chain alone: an empty MutableVec is replaced by nothing, and from then on the for_each is not woken when it changes; not even
    when it is dropped. *)
Definition ex_lost2 : list (move nat) :=
  [MVec [5]; MVec []; MSpawn (PChain (PMut 0) (PMut 1))] ++ ex_go 0 1
  ++ [MOp 1 (OReplaceCloned [])] ++ ex_go 0 0 ++ [MOp 1 (OPush 7); MDrop 1].
Theorem C58_chain_empty_refuted : exists w, exec step w_init ex_lost2 = Some w
  /\ (idle w /\ sorts_ok (t_pipe (w_task w 0)))
  /\ (t_pc (w_task w 0) = TSleep /\ unpoisoned w (t_pipe (w_task w 0)) /\ contents w 0 = [5] /\ contents w 1 = [7]
       /\ replay (seen (w_task w 0)) = Some [5]).
Proof. apply (ran_both _ (fun w => idleb w = true /\ sorts_ok (t_pipe (w_task w 0)))); [split_ex|]. intros w [h1 h2]. auto using @idle_is. Qed.
Print Assumptions C58_chain_empty_refuted.
