(** Properties of MutableVec and its subscribers (C01-C06, C59), over all histories [es] of
    operations, subscriptions, polls, drops and clones. *)
From Verif Require Import Base Spec VecDiff VecSpec MutVec MutVecSpec MutVecFacts MutVecRun Conc Handles.

(** A history used in the examples: two subscribers at different moments, one dropped, one that
    polls in between. *)
Definition ex_history : list (event nat) :=
  [ESubscribe; EOp (OPush 4); EPoll 0; EOp (OSwap 0 3); ESubscribe; EOp (OMove 1 2); EDropSub 0;
   EOp (ORetain Nat.even); EPoll 1; EOp OReverse; EOp (OInsertCloned 1 9); EOp (ODrain (Included 0) (Excluded 1))].

(** C01: whatever a live subscriber received and has yet to receive reconstructs the contents. *)
Theorem C01_lossless : forall A (v : list A) es id s,
  nth_error (subs (mv_run es (mv_new v))) id = Some s -> alive s = true ->
  poisoned (mv_run es (mv_new v)) = false ->
  replay (total s) = Some (values (mv_run es (mv_new v))).
Proof. exact @mv_lossless. Qed.
Print Assumptions C01_lossless.

Example C01_lossless_ex : exists s,
  nth_error (subs (mv_run ex_history (mv_new [1; 2; 3]))) 1 = Some s /\ alive s = true
  /\ poisoned (mv_run ex_history (mv_new [1; 2; 3])) = false
  /\ values (mv_run ex_history (mv_new [1; 2; 3])) = [9; 4]
  /\ length (total s) = 7.
Proof. vm_compute. eexists. repeat split. Qed.

(** C01: a prefix of the diffs of a subscriber gives the contents of the corresponding earlier
    moment (the moment after [es1]). *)
Theorem C01_prefix : forall A (v : list A) es1 es2 id s1,
  nth_error (subs (mv_run es1 (mv_new v))) id = Some s1 -> alive s1 = true ->
  poisoned (mv_run es1 (mv_new v)) = false ->
  exists s2 more, nth_error (subs (mv_run (es1 ++ es2) (mv_new v))) id = Some s2
    /\ total s2 = total s1 ++ more
    /\ replay (total s1) = Some (values (mv_run es1 (mv_new v))).
Proof. exact @mv_history. Qed.
Print Assumptions C01_prefix.

Example C01_prefix_ex : exists s1,
  nth_error (subs (mv_run (firstn 9 ex_history) (mv_new [1; 2; 3]))) 1 = Some s1 /\ alive s1 = true
  /\ poisoned (mv_run (firstn 9 ex_history) (mv_new [1; 2; 3])) = false
  /\ values (mv_run (firstn 9 ex_history) (mv_new [1; 2; 3])) = [4; 2].
Proof. vm_compute. eexists. repeat split. Qed.

(** C01: enough polls deliver everything, and then the received diffs give the contents. *)
Theorem C01_catches_up : forall A (v : list A) es id s,
  nth_error (subs (mv_run es (mv_new v))) id = Some s -> alive s = true ->
  poisoned (mv_run es (mv_new v)) = false ->
  exists n s', nth_error (subs (mv_run (es ++ repeat (EPoll id) n) (mv_new v))) id = Some s'
    /\ replay (yielded (got s')) = Some (values (mv_run es (mv_new v))).
Proof. exact @mv_catches_up. Qed.
Print Assumptions C01_catches_up.

Example C01_catches_up_ex :
  option_map (fun s => replay (yielded (got s)))
    (nth_error (subs (mv_run (ex_history ++ repeat (EPoll 1) 7) (mv_new [1; 2; 3]))) 1) = Some (Some [9; 4]).
Proof. reflexivity. Qed.

(** C02: contents and returned value of every operation. *)
Theorem C02_operations : forall A (v : list A) es (o : op A),
  let st := mv_run es (mv_new v) in
  0 < owners st -> poisoned st = false -> ~ op_panics o (values st) ->
  exists st' r, mv_op o st = Done st' r /\ mv_event (EOp o) st = st'
    /\ op_means o (values st) (values st') r /\ poisoned st' = false.
Proof. exact @mv_op_means. Qed.
Print Assumptions C02_operations.

Example C02_operations_ex :
  let st := mv_run [ESubscribe; EOp (OExtend [7; 8])] (mv_new [1; 2; 3]) in
  0 < owners st /\ poisoned st = false /\ ~ op_panics (OSwap 4 1) (values st).
Proof. vm_compute. repeat split; [auto|]. intros [_ [H|H]]; repeat apply le_S_n in H; inversion H. Qed.

(** C03: operations that change nothing are silent. *)
Theorem C03_noop_silent : forall A (v : list A) es (o : op A),
  let st := mv_run es (mv_new v) in
  0 < owners st -> poisoned st = false -> op_noop o (values st) -> ~ op_panics o (values st) ->
  subs (mv_event (EOp o) st) = subs st /\ values (mv_event (EOp o) st) = values st.
Proof. exact @mv_noop. Qed.
Print Assumptions C03_noop_silent.

Example C03_noop_silent_ex :
  let st := mv_run [ESubscribe; EPoll 0] (mv_new [2; 4]) in
  0 < owners st /\ poisoned st = false
  /\ op_noop (ORetain Nat.even) (values st) /\ ~ op_panics (ORetain Nat.even) (values st).
Proof.
  simpl. split; [auto|]. split; [reflexivity|]. split; [|tauto].
  intros x [<-|[<-|[]]]; reflexivity.
Qed.

(** C03, converse: a change of the contents reaches every live subscriber, and wakes it if it was waiting. *)
Theorem C03_change_notifies : forall A (v : list A) es (o : op A) id s,
  let st := mv_run es (mv_new v) in
  0 < owners st -> poisoned st = false -> ~ op_panics o (values st) ->
  values (mv_event (EOp o) st) <> values st ->
  nth_error (subs st) id = Some s -> alive s = true ->
  exists s' d ds, nth_error (subs (mv_event (EOp o) st)) id = Some s' /\ total s' = total s ++ d :: ds
    /\ (waiting s = true -> woken s' = true).
Proof. exact @mv_change_notifies. Qed.
Print Assumptions C03_change_notifies.

Example C03_change_notifies_ex :
  let st := mv_run [ESubscribe; EPoll 0; EPoll 0] (mv_new [2; 4]) in
  values (mv_event (EOp OReverse) st) <> values st
  /\ exists s, nth_error (subs st) 0 = Some s /\ alive s = true /\ waiting s = true.
Proof. vm_compute. split; [discriminate|]. eexists. repeat split. Qed.

(** C04: which operations panic, and that they send nothing. *)
Theorem C04_panics_silently : forall A (v : list A) es (o : op A),
  let st := mv_run es (mv_new v) in
  0 < owners st -> poisoned st = false ->
  ((exists st', mv_op o st = Panic st') <-> op_panics o (values st))
  /\ (op_panics o (values st) -> subs (mv_event (EOp o) st) = subs st).
Proof. exact @mv_op_panics. Qed.
Print Assumptions C04_panics_silently.

Example C04_panics_silently_ex :
  let st := mv_run [ESubscribe] (mv_new [1; 2; 3]) in
  op_panics (OMove 0 3) (values st) /\ op_panics (ODrain (Included 2) (Included 3)) (values st)
  /\ op_panics (OInsert 4 0) (values st) /\ ~ op_panics (OInsert 3 0) (values st).
Proof. simpl. repeat split; lia. Qed.

(** C05: the diffs that an operation sends depend on the operation and on the contents only, not
    on the subscribers; every live subscriber gets all of them, a dropped one gets none. *)
Theorem C05_isolation : forall A (o : op A) (contents : list A), ~ op_panics o contents ->
  exists contents' r ds, forall (v : list A) es,
    let st := mv_run es (mv_new v) in
    0 < owners st -> poisoned st = false -> values st = contents ->
    mv_op o st = Done (mv_event (EOp o) st) r
    /\ values (mv_event (EOp o) st) = contents'
    /\ forall id s, nth_error (subs st) id = Some s ->
       exists s', nth_error (subs (mv_event (EOp o) st)) id = Some s'
         /\ got s' = got s /\ alive s' = alive s
         /\ total s' = if alive s then total s ++ ds else total s.
Proof. exact @mv_isolation. Qed.
Print Assumptions C05_isolation.

Example C05_isolation_ex :
  ~ op_panics (ORemove 1) [1; 2; 3]
  /\ values (mv_run [ESubscribe; ESubscribe; EDropSub 0] (mv_new [1; 2; 3])) = [1; 2; 3]
  /\ values (mv_run [EOp (OPush 3); ESubscribe; EPoll 0] (mv_new [1; 2])) = [1; 2; 3].
Proof. simpl. repeat split; lia. Qed.

(** C05: subscribing, polling and dropping others, or cloning the handle, changes nothing for a
    subscriber. *)
Theorem C05_other_events : forall A (e : event A) st id s,
  nth_error (subs st) id = Some s ->
  (e = ESubscribe \/ e = EClone \/ (exists k, k <> id /\ (e = EPoll k \/ e = EDropSub k))) ->
  nth_error (subs (mv_event e st)) id = Some s /\ values (mv_event e st) = values st.
Proof. exact @mv_other_events. Qed.
Print Assumptions C05_other_events.

Example C05_other_events_ex : exists s,
  nth_error (subs (mv_run ex_history (mv_new [1; 2; 3]))) 1 = Some s /\ 0 <> 1 /\ queue s <> [].
Proof. vm_compute. eexists. repeat split; discriminate. Qed.

(** C05: after a notification no channel of a dropped subscriber is kept. *)
Theorem C05_forgets_dropped : forall A (v : list A) es (o : op A) id,
  let st := mv_run es (mv_new v) in
  0 < owners st -> poisoned st = false -> ~ op_panics o (values st) ->
  values (mv_event (EOp o) st) <> values st ->
  In id (senders (mv_event (EOp o) st)) ->
  exists s, nth_error (subs (mv_event (EOp o) st)) id = Some s /\ alive s = true.
Proof. exact @mv_forgets. Qed.
Print Assumptions C05_forgets_dropped.

Example C05_forgets_dropped_ex :
  let st := mv_run [ESubscribe; ESubscribe; EDropSub 0] (mv_new [1; 2]) in
  senders st = [0; 1] /\ senders (mv_event (EOp (OPush 5)) st) = [1]
  /\ values (mv_event (EOp (OPush 5)) st) <> values st.
Proof. vm_compute. repeat split. discriminate. Qed.

(** C06: a MutableVec fed with diffs by apply_vec_diff holds what the diffs say. *)
Theorem C06_replica_contents : forall A (ds : list (vecdiff A)) v es,
  replay ds = Some v -> driven_by es ds ->
  values (mv_run es (mv_new [])) = v /\ poisoned (mv_run es (mv_new [])) = false.
Proof. exact @mv_replica_contents. Qed.
Print Assumptions C06_replica_contents.

Example C06_replica_contents_ex :
  let ds := [Replace [1; 2]; Push 3; Move 2 0; RemoveAt 2] in
  replay ds = Some [3; 1]
  /\ driven_by [EOp (OApply (Replace [1; 2])); ESubscribe; EOp (OApply (Push 3)); EPoll 0; EOp (OApply (Move 2 0)); EOp (OApply (RemoveAt 2))] ds.
Proof. split; [reflexivity|]. repeat (constructor; simpl; auto). Qed.

(** C06: any number of replicas in a row. *)
Theorem C06_replication : forall A (ds ds' : list (vecdiff A)) v,
  replay ds = Some v -> replicated ds ds' -> replay ds' = Some v.
Proof. exact @mv_replication. Qed.
Print Assumptions C06_replication.

Example C06_replication_ex : exists ds',
  replicated [Replace [1; 2]; RemoveAt 1] ds' /\ length ds' = 2.
Proof.
  exists [Replace [1; 2]; Pop]. split; [|reflexivity].
  eapply (replicated_hop _ [ESubscribe; EOp (OApply (Replace [1; 2])); EOp (OApply (RemoveAt 1))] 0).
  - repeat (constructor; simpl; auto).
  - reflexivity.
  - reflexivity.
  - apply replicated_refl.
Qed.

(** C59: a subscriber that was answered Pending is woken as soon as there is something to receive or
    the last handle is gone, and not before; it ends only after the last handle is gone and everything was delivered. *)
Theorem C59_wakes : forall A (v : list A) es id s,
  nth_error (subs (mv_run es (mv_new v))) id = Some s -> alive s = true ->
  (last_out (got s) Pending -> (woken s = true <-> queue s <> [] \/ owners (mv_run es (mv_new v)) = 0))
  /\ (In (Ready None) (got s) -> owners (mv_run es (mv_new v)) = 0 /\ drained s).
Proof. exact @mv_wakes. Qed.
Print Assumptions C59_wakes.

Example C59_wakes_ex : exists s,
  nth_error (subs (mv_run [ESubscribe; EPoll 0; EPoll 0; EOp (OPush 3)] (mv_new [1]))) 0 = Some s
  /\ alive s = true /\ last_out (got s) Pending /\ queue s <> [].
Proof. vm_compute. eexists. repeat split; [exists [Ready (Some (Replace [1]))]; reflexivity|discriminate]. Qed.

(** C59: what a poll answers. *)
Theorem C59_polls : forall A (v : list A) es id s,
  let st := mv_run es (mv_new v) in
  nth_error (subs st) id = Some s -> alive s = true ->
  exists s', nth_error (subs (mv_event (EPoll id) st)) id = Some s' /\
    match queue s with
    | d :: q => got s' = got s ++ [Ready (Some d)] /\ queue s' = q
    | [] => queue s' = [] /\ (owners st = 0 -> got s' = got s ++ [Ready None]) /\ (0 < owners st -> got s' = got s ++ [Pending])
    end.
Proof. exact @mv_polls. Qed.
Print Assumptions C59_polls.

Example C59_polls_ex : exists s,
  nth_error (subs (mv_run [ESubscribe; EDrop] (mv_new [1]))) 0 = Some s /\ alive s = true /\ queue s = [Replace [1]].
Proof. vm_compute. eexists. repeat split. Qed.

(** C59: "the last handle is gone" in terms of what was done: there are as many handles as were made and not dropped. *)
Theorem C59_handles : forall A (v : list A) es, let n := owners (mv_run es (mv_new v)) in
  (0 < n -> n + count v_drops es = 1 + count v_clones es) /\ (n = 0 <-> all_dropped v_clones v_drops es).
Proof. exact @mv_handles. Qed.
Print Assumptions C59_handles.

Example C59_handles_ex : owners (mv_run [EClone; EDrop; ESubscribe; EClone] (mv_new [1])) = 2
  /\ all_dropped v_clones v_drops ([EClone; EOp (OPush 2); EDrop; EDrop; EClone] : list (event nat)).
Proof. split; [reflexivity|]. exists [EClone; EOp (OPush 2); EDrop; EDrop], [EClone]. split; reflexivity. Qed.
