(** C67: MutableVec and MutableBTreeMap used by many threads. Model: Shared.v; proofs: SharedFacts.v. *)
From Verif Require Import Base Conc Spec VecDiff VecSpec MutVec MutVecSpec MutVecSends MapDiff MapSpec MapFacts Mpsc MutMap MutMapSpec Shared SharedFacts Handles.

Definition ex_cmp : nat -> nat -> comparison := Nat.compare.

(** ** C67: the calls of all threads are done one after the other, each does what it is meant to do, and each subscriber gets, in
    this order and each exactly once, the diffs of the calls that come after it subscribed: what it was given can be applied
    at any time. Whoever is alive has received everything as soon as no call is in progress *)
Theorem C67_vec_order : forall A (v : list A) acts st id s, exec vec_step (sh_init v) acts = Some st -> nth_error (chans st) id = Some s ->
  exists l1 ds1 v0 l2 ds2 v', follows vec_means v l1 ds1 v0 /\ follows vec_means v0 l2 ds2 v'
    /\ (calls st = l1 ++ l2 /\ contents st = v' \/ exists t o, calls st = l1 ++ l2 ++ [(t, o, None)] /\ op_panics o v')
    /\ (exists rest, yielded (cgot s) ++ rest = vec_first v0 ++ ds2)
    /\ (exists x, apply_all apply_to_vec [] (yielded (cgot s)) = Some x)
    /\ (calive s = true -> ready st = true -> ctotal s = vec_first v0 ++ ds2).
Proof. exact @vec_order. Qed.
Print Assumptions C67_vec_order.

Theorem C67_map_order : forall K V (cmp : K -> K -> comparison), total_order cmp -> forall (m : list (K * V)) acts st id s, is_map cmp m ->
  exec (map_step cmp) (sh_init m) acts = Some st -> nth_error (chans st) id = Some s ->
  exists l1 ds1 m0 l2 ds2, follows map_means m l1 ds1 m0 /\ follows map_means m0 l2 ds2 (contents st) /\ calls st = l1 ++ l2
    /\ (exists rest, yielded (cgot s) ++ rest = map_first m0 ++ ds2)
    /\ (exists x, apply_all (apply_to_map cmp) [] (yielded (cgot s)) = Some x)
    /\ (calive s = true -> ready st = true -> ctotal s = map_first m0 ++ ds2).
Proof. exact @map_order. Qed.
Print Assumptions C67_map_order.

(** Two threads and two subscribers: the subscriber 0 is polled in the middle of the second call. *)
Definition ex_acts : list (act (op nat)) :=
  [ASubscribe; ALock 7; AOp 7 (OPush 5); ASend 7; ASend 7; ASend 7; AUnlock 7 false; APoll 0; ASubscribe;
   ALock 8; AOp 8 (ORemove 0); ASend 8; ASend 8; APoll 0].
Example C67_vec_order_ex : exists st s0 s1, exec vec_step (sh_init [1]) ex_acts = Some st /\ nth_error (chans st) 0 = Some s0 /\ nth_error (chans st) 1 = Some s1
  /\ cgot s0 = [Ready (Some (Replace [1])); Ready (Some (Push 5))] /\ cqueue s0 = [RemoveAt 0]
  /\ cqueue s1 = [Replace [1; 5]] /\ writer st = Some 8 /\ contents st = [5].
Proof. do 3 eexists. split_ex. Qed.
(** The subscribers are not told at the same instant: one that is polled first can have the diff while another, which is polled
    after it, does not have it yet. *)
Example C67_not_at_once : exists st s0 s1, exec vec_step (sh_init []) [ASubscribe; ASubscribe; ALock 7; AOp 7 (OPush 5); ASend 7; ASend 7; APoll 0; APoll 1] = Some st
  /\ nth_error (chans st) 0 = Some s0 /\ nth_error (chans st) 1 = Some s1 /\ cgot s0 = [Ready (Some (Push 5))] /\ cgot s1 = [Pending].
Proof. do 3 eexists. split_ex. Qed.
(** A panic: the calls before it are kept. *)
Example C67_vec_order_ex2 : exists st s0, exec vec_step (sh_init [1]) [ASubscribe; ALock 7; AOp 7 (OPush 5); ASend 7; ASend 7; ASend 7; AOp 7 (ORemove 9); AUnlock 7 false; APoll 0; APoll 0; APoll 0] = Some st
  /\ nth_error (chans st) 0 = Some s0 /\ cgot s0 = [Ready (Some (Replace [1])); Ready (Some (Push 5)); Pending] /\ poisoned st = true
  /\ sh_step vec_run vec_first st (ALock 8) = None.
Proof. do 2 eexists. split_ex. Qed.
Definition ex_macts : list (act (mop nat nat)) :=
  [ASubscribe; ALock 7; AOp 7 (MOInsert 2 20); ASend 7; ASend 7; ASend 7; AUnlock 7 false; APoll 0; ASubscribe;
   ALock 8; AOp 8 (MORemove 1); ASend 8; ASend 8; APoll 0].
Example C67_map_order_ex : exists st s0 s1, is_map ex_cmp [(1, 10)] /\ exec (map_step ex_cmp) (sh_init [(1, 10)]) ex_macts = Some st
  /\ nth_error (chans st) 0 = Some s0 /\ nth_error (chans st) 1 = Some s1
  /\ cgot s0 = [Ready (Some (MReplace [(1, 10)])); Ready (Some (MInsert 2 20))] /\ cqueue s0 = [MRemove 1]
  /\ cqueue s1 = [MReplace [(1, 10); (2, 20)]] /\ writer st = Some 8 /\ contents st = [(2, 20)].
Proof. do 3 eexists. split; [repeat constructor|]. split_ex. Qed.

(** ** C67: every call is explained by this order: the contents are what all the calls so far make of the initial contents. If one
    panics, none comes after it *)
Theorem C67_vec_calls : forall A (v : list A) acts st, exec vec_step (sh_init v) acts = Some st ->
  exists l ds v', follows vec_means v l ds v'
    /\ (calls st = l /\ contents st = v' \/ exists t o, calls st = l ++ [(t, o, None)] /\ op_panics o v' /\ (failing st = true \/ poisoned st = true)).
Proof. exact @vec_calls. Qed.
Print Assumptions C67_vec_calls.

Theorem C67_map_calls : forall K V (cmp : K -> K -> comparison), total_order cmp -> forall (m : list (K * V)) acts st, is_map cmp m ->
  exec (map_step cmp) (sh_init m) acts = Some st -> exists ds, follows map_means m (calls st) ds (contents st).
Proof. exact @map_calls. Qed.
Print Assumptions C67_map_calls.

Example C67_vec_calls_ex : exists st, exec vec_step (sh_init [1]) ex_acts = Some st
  /\ calls st = [(7, OPush 5, Some RUnit); (8, ORemove 0, Some (RVal 1))] /\ contents st = [5].
Proof. eexists. split_ex. Qed.
Example C67_map_calls_ex : exists st, exec (map_step ex_cmp) (sh_init [(1, 10)]) ex_macts = Some st
  /\ calls st = [(7, MOInsert 2 20, Some (ROld None)); (8, MORemove 1, Some (ROld (Some 10)))] /\ contents st = [(2, 20)].
Proof. eexists. split_ex. Qed.

(** ** C67: when no call is in progress, what a subscriber was given or has waiting for it makes the contents *)
Theorem C67_vec_quiet : forall A (v : list A) acts st id s, exec vec_step (sh_init v) acts = Some st -> nth_error (chans st) id = Some s -> calive s = true ->
  ready st = true -> failing st = false -> poisoned st = false -> apply_all apply_to_vec [] (ctotal s) = Some (contents st).
Proof. exact @vec_quiet. Qed.
Print Assumptions C67_vec_quiet.

Theorem C67_map_quiet : forall K V (cmp : K -> K -> comparison), total_order cmp -> forall (m : list (K * V)) acts st id s, is_map cmp m ->
  exec (map_step cmp) (sh_init m) acts = Some st -> nth_error (chans st) id = Some s -> calive s = true ->
  ready st = true -> apply_all (apply_to_map cmp) [] (ctotal s) = Some (contents st).
Proof. exact @map_quiet. Qed.
Print Assumptions C67_map_quiet.

Example C67_vec_quiet_ex : exists st s, exec vec_step (sh_init [1]) (ex_acts ++ [ASend 8; ASend 8]) = Some st /\ nth_error (chans st) 1 = Some s /\ calive s = true
  /\ ready st = true /\ failing st = false /\ poisoned st = false /\ ctotal s = [Replace [1; 5]; RemoveAt 0].
Proof. do 2 eexists. split_ex. Qed.
(** While one is in progress the contents may already be changed. *)
Example C67_vec_quiet_ex2 : exists st s, exec vec_step (sh_init [1]) ex_acts = Some st /\ nth_error (chans st) 1 = Some s /\ calive s = true
  /\ ready st = false /\ contents st = [5] /\ apply_all apply_to_vec [] (ctotal s) = Some [1; 5].
Proof. do 2 eexists. split_ex. Qed.
Example C67_map_quiet_ex : exists st s, exec (map_step ex_cmp) (sh_init [(1, 10)]) (ex_macts ++ [ASend 8; ASend 8; AUnlock 8 true]) = Some st
  /\ nth_error (chans st) 1 = Some s /\ calive s = true /\ ready st = true /\ ctotal s = [MReplace [(1, 10); (2, 20)]; MRemove 1].
Proof. do 2 eexists. split_ex. Qed.

(** ** C67: no wake-up is lost, and none is sent without a reason: a subscriber that was told to wait is woken as soon as there is something for it, or the
    last handle is gone, and not before *)
Theorem C67_vec_wakes : forall A (v : list A) acts st id s, exec vec_step (sh_init v) acts = Some st -> nth_error (chans st) id = Some s -> calive s = true ->
  last_out (cgot s) Pending -> (cwoken s = true <-> cqueue s <> [] \/ owners st = 0).
Proof. exact @vec_wakes. Qed.
Print Assumptions C67_vec_wakes.

Theorem C67_map_wakes : forall K V (cmp : K -> K -> comparison), total_order cmp -> forall (m : list (K * V)) acts st id s, is_map cmp m ->
  exec (map_step cmp) (sh_init m) acts = Some st -> nth_error (chans st) id = Some s -> calive s = true ->
  last_out (cgot s) Pending -> (cwoken s = true <-> cqueue s <> [] \/ owners st = 0).
Proof. exact @map_wakes. Qed.
Print Assumptions C67_map_wakes.

Example C67_vec_wakes_ex : exists st s, exec vec_step (sh_init []) [ASubscribe; ALock 7; AOp 7 (OPush 5); ASend 7; APoll 0; ASend 7] = Some st
  /\ nth_error (chans st) 0 = Some s /\ calive s = true /\ cgot s = [Pending] /\ cqueue s = [Push 5] /\ cwoken s = true.
Proof. do 2 eexists. split_ex. Qed.
Example C67_map_wakes_ex : exists st s, exec (map_step ex_cmp) (sh_init ([] : list (nat * nat))) [ASubscribe; AClone; ADrop; APoll 0; ADrop] = Some st
  /\ nth_error (chans st) 0 = Some s /\ calive s = true /\ cgot s = [Pending] /\ owners st = 0 /\ cwoken s = true.
Proof. do 2 eexists. split_ex. Qed.

(** ** C67: a subscriber is told that it is over only when no handle is left, and then it has been given everything *)
Theorem C67_vec_ends : forall A (v : list A) acts st id s, exec vec_step (sh_init v) acts = Some st -> nth_error (chans st) id = Some s -> calive s = true ->
  In (Ready None) (cgot s) -> owners st = 0 /\ exists v', apply_all apply_to_vec [] (yielded (cgot s)) = Some v' /\ (poisoned st = false -> contents st = v').
Proof. exact @vec_ends. Qed.
Print Assumptions C67_vec_ends.

Theorem C67_map_ends : forall K V (cmp : K -> K -> comparison), total_order cmp -> forall (m : list (K * V)) acts st id s, is_map cmp m ->
  exec (map_step cmp) (sh_init m) acts = Some st -> nth_error (chans st) id = Some s -> calive s = true ->
  In (Ready None) (cgot s) -> owners st = 0 /\ apply_all (apply_to_map cmp) [] (yielded (cgot s)) = Some (contents st).
Proof. exact @map_ends. Qed.
Print Assumptions C67_map_ends.

Example C67_vec_ends_ex : exists st s, exec vec_step (sh_init [1]) [ASubscribe; ALock 7; AOp 7 (OPush 5); ASend 7; ASend 7; ASend 7; AUnlock 7 false; ADrop; APoll 0; APoll 0; APoll 0] = Some st
  /\ nth_error (chans st) 0 = Some s /\ calive s = true /\ cgot s = [Ready (Some (Replace [1])); Ready (Some (Push 5)); Ready None] /\ contents st = [1; 5].
Proof. do 2 eexists. split_ex. Qed.
Example C67_map_ends_ex : exists st s, exec (map_step ex_cmp) (sh_init [(1, 10)]) [ASubscribe; ALock 7; AOp 7 MOClear; ASend 7; ASend 7; ASend 7; AUnlock 7 true; ADrop; APoll 0; APoll 0; APoll 0] = Some st
  /\ nth_error (chans st) 0 = Some s /\ calive s = true /\ cgot s = [Ready (Some (MReplace [(1, 10)])); Ready (Some MClear); Ready None] /\ contents st = [].
Proof. do 2 eexists. split_ex. Qed.

(** ** C67: what a thread does through one lock_mut guard is not mixed with what others do: until the guard is dropped, all calls
    are those of this thread *)
Theorem C67_vec_guard : forall A (v : list A) acts st t more st', exec vec_step (sh_init v) acts = Some st -> writer st = Some t ->
  exec vec_step st more = Some st' -> existsb (unlocks t) more = false ->
  writer st' = Some t /\ exists l, calls st' = calls st ++ l /\ forall x, In x l -> fst (fst x) = t.
Proof. exact @vec_guard. Qed.
Print Assumptions C67_vec_guard.

Theorem C67_map_guard : forall K V (cmp : K -> K -> comparison), total_order cmp -> forall (m : list (K * V)) acts st t more st', is_map cmp m ->
  exec (map_step cmp) (sh_init m) acts = Some st -> writer st = Some t ->
  exec (map_step cmp) st more = Some st' -> existsb (unlocks t) more = false ->
  writer st' = Some t /\ exists l, calls st' = calls st ++ l /\ forall x, In x l -> fst (fst x) = t.
Proof. exact @map_guard. Qed.
Print Assumptions C67_map_guard.

Definition ex_more : list (act (op nat)) := [ASend 8; ASend 8; AOp 8 (OPush 6); AClone; ASend 8; APoll 1; ASend 8; ASend 8; ASend 8; AOp 8 OPop].
Example C67_vec_guard_ex : exists st st', exec vec_step (sh_init [1]) ex_acts = Some st /\ writer st = Some 8
  /\ exec vec_step st ex_more = Some st' /\ existsb (unlocks 8) ex_more = false
  /\ calls st' = calls st ++ [(8, OPush 6, Some RUnit); (8, OPop, Some (ROpt (Some 6)))].
Proof. do 2 eexists. split_ex. Qed.
(** No other thread can get in: neither to write nor to read nor to subscribe. *)
Example C67_vec_guard_ex2 : exists st, exec vec_step (sh_init [1]) ex_acts = Some st
  /\ vec_step st (ALock 9) = None /\ vec_step st (ARead 9) = None /\ vec_step st (AOp 9 OPop) = None /\ vec_step st ASubscribe = None.
Proof. eexists. split_ex. Qed.
Example C67_map_guard_ex : exists st st', exec (map_step ex_cmp) (sh_init [(1, 10)]) ex_macts = Some st /\ writer st = Some 8
  /\ exec (map_step ex_cmp) st [ASend 8; ASend 8; APoll 1; AOp 8 MOClear] = Some st' /\ calls st' = calls st ++ [(8, MOClear, Some RNothing)].
Proof. do 2 eexists. split_ex. Qed.

(** ** C67: as long as a thread has a lock_ref guard the contents do not change, and no call is in progress *)
Theorem C67_vec_guard_ref : forall A (v : list A) acts st t more st', exec vec_step (sh_init v) acts = Some st -> In t (readers st) ->
  exec vec_step st more = Some st' -> existsb (unreads t) more = false ->
  In t (readers st') /\ ready st' = true /\ contents st' = contents st /\ calls st' = calls st.
Proof. exact @vec_guard_ref. Qed.
Print Assumptions C67_vec_guard_ref.

Theorem C67_map_guard_ref : forall K V (cmp : K -> K -> comparison), total_order cmp -> forall (m : list (K * V)) acts st t more st', is_map cmp m ->
  exec (map_step cmp) (sh_init m) acts = Some st -> In t (readers st) ->
  exec (map_step cmp) st more = Some st' -> existsb (unreads t) more = false ->
  In t (readers st') /\ ready st' = true /\ contents st' = contents st /\ calls st' = calls st.
Proof. exact @map_guard_ref. Qed.
Print Assumptions C67_map_guard_ref.

Example C67_vec_guard_ref_ex : exists st st', exec vec_step (sh_init [1]) [ASubscribe; ARead 7] = Some st /\ In 7 (readers st)
  /\ exec vec_step st [ARead 8; APoll 0; AUnread 8; ADropSub 0] = Some st' /\ readers st' = [7] /\ vec_step st' (ALock 8) = None.
Proof. do 2 eexists. split_ex. Qed.
Example C67_map_guard_ref_ex : exists st st', exec (map_step ex_cmp) (sh_init [(1, 10)]) [ASubscribe; ARead 7] = Some st /\ In 7 (readers st)
  /\ exec (map_step ex_cmp) st [ARead 8; APoll 0; AUnread 8; ADropSub 0] = Some st' /\ readers st' = [7] /\ map_step ex_cmp st' (ALock 8) = None.
Proof. do 2 eexists. split_ex. Qed.

(** ** C67: a call does not wait for any subscriber: whatever the others do or do not do, the thread can finish it by itself *)
Theorem C67_vec_progress : forall A (st : shared (list A) (vecdiff A) (op A) (ret A)) t, writer st = Some t ->
  exists n st', exec vec_step st (repeat (ASend t) n) = Some st' /\ writer st' = Some t /\ ready st' = true.
Proof. exact @vec_progress. Qed.
Print Assumptions C67_vec_progress.

Theorem C67_map_progress : forall K V (cmp : K -> K -> comparison) (st : shared (list (K * V)) (mapdiff K V) (mop K V) (mret V)) t, writer st = Some t ->
  exists n st', exec (map_step cmp) st (repeat (ASend t) n) = Some st' /\ writer st' = Some t /\ ready st' = true.
Proof. exact @map_progress. Qed.
Print Assumptions C67_map_progress.

Example C67_vec_progress_ex : exists st st', exec vec_step (sh_init [1]) ex_acts = Some st /\ writer st = Some 8 /\ ready st = false
  /\ exec vec_step st (repeat (ASend 8) 2) = Some st' /\ ready st' = true.
Proof. do 2 eexists. split_ex. Qed.
Example C67_map_progress_ex : exists st st', exec (map_step ex_cmp) (sh_init [(1, 10)]) ex_macts = Some st /\ writer st = Some 8 /\ ready st = false
  /\ exec (map_step ex_cmp) st (repeat (ASend 8) 2) = Some st' /\ ready st' = true.
Proof. do 2 eexists. split_ex. Qed.

(** ** C67: subscribers that were dropped are forgotten by the next call that sends something *)
Theorem C67_vec_forgets : forall A (v : list A) acts st id s t o st1 more st2, exec vec_step (sh_init v) acts = Some st ->
  nth_error (chans st) id = Some s -> calive s = false ->
  vec_step st (AOp t o) = Some st1 -> later st1 <> [] -> exec vec_step st1 more = Some st2 -> ready st2 = true -> ~ In id (senders st2).
Proof. exact @vec_forgets. Qed.
Print Assumptions C67_vec_forgets.

Theorem C67_map_forgets : forall K V (cmp : K -> K -> comparison), total_order cmp -> forall (m : list (K * V)) acts st id s t o st1 more st2, is_map cmp m ->
  exec (map_step cmp) (sh_init m) acts = Some st -> nth_error (chans st) id = Some s -> calive s = false ->
  map_step cmp st (AOp t o) = Some st1 -> later st1 <> [] -> exec (map_step cmp) st1 more = Some st2 -> ready st2 = true -> ~ In id (senders st2).
Proof. exact @map_forgets. Qed.
Print Assumptions C67_map_forgets.

Example C67_vec_forgets_ex : exists st s st1 st2, exec vec_step (sh_init [1]) [ASubscribe; ASubscribe; ADropSub 0; ALock 7] = Some st
  /\ nth_error (chans st) 0 = Some s /\ calive s = false /\ senders st = [0; 1]
  /\ vec_step st (AOp 7 OClear) = Some st1 /\ later st1 = [Clear] /\ exec vec_step st1 (repeat (ASend 7) 4) = Some st2 /\ ready st2 = true /\ senders st2 = [1].
Proof. do 4 eexists. split_ex. Qed.
Example C67_map_forgets_ex : exists st s st1 st2, exec (map_step ex_cmp) (sh_init [(1, 10)]) [ASubscribe; ASubscribe; ADropSub 0; ALock 7] = Some st
  /\ nth_error (chans st) 0 = Some s /\ calive s = false /\ senders st = [0; 1]
  /\ map_step ex_cmp st (AOp 7 MOClear) = Some st1 /\ later st1 = [MClear] /\ exec (map_step ex_cmp) st1 (repeat (ASend 7) 4) = Some st2 /\ ready st2 = true /\ senders st2 = [1].
Proof. do 4 eexists. split_ex. Qed.

(** ** C67: the handles are counted correctly (a handle is cloned or dropped by a thread that has one) *)
Theorem C67_handles : forall A (v : list A) acts st, exec vec_step (sh_init v) acts = Some st -> owners st + count a_drops acts = 1 + count a_clones acts.
Proof. exact (fun A => sh_handles _ _ _ _ _ _). Qed.
Print Assumptions C67_handles.

Theorem C67_map_handles : forall K V (cmp : K -> K -> comparison) (m : list (K * V)) acts st, exec (map_step cmp) (sh_init m) acts = Some st ->
  owners st + count a_drops acts = 1 + count a_clones acts.
Proof. exact (fun K V cmp => sh_handles _ _ _ _ _ _). Qed.
Print Assumptions C67_map_handles.

Example C67_handles_ex : exists st, exec vec_step (sh_init [1]) [AClone; ASubscribe; AClone; ADrop; ALock 7; ADrop] = Some st /\ owners st = 1.
Proof. eexists. split_ex. Qed.
Example C67_map_handles_ex : exists st, exec (map_step ex_cmp) (sh_init [(1, 10)]) [AClone; ASubscribe; AClone; ADrop; ALock 7; ADrop] = Some st /\ owners st = 1.
Proof. eexists. split_ex. Qed.
