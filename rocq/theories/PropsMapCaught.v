(** C77. See DESIGN.md for what is modelled and what the theorems rest on. *)
From Verif Require Import Base Spec Conc VecDiff MapDiff MapSpec Mpsc MutMap MapComb MapCaught MapCaughtFacts.

(** ** C77: a MutableBTreeMap after a panic that was caught while its guard was held *)

(** Whatever happens, with a clone or a waker that panics in any notifications: the operations never panic of themselves, and every subscriber
    which has got all diffs since it came, or since one that said everything (Replace, Clear), can reconstruct the contents. Missing: the subscribers
    that a panic has passed over (C77_clone_refuted, C77_remove_refuted). *)
Theorem C77_in_step_partial : forall K V (cmp : K -> K -> comparison), total_order cmp ->
  forall (init : list (K * V)) es, exists st, grun cmp es (mm_new cmp init) = Some st /\ is_map cmp (mm_values st)
    /\ forall id s, nth_error (mm_chans st) id = Some s -> calive s = true -> behind_run cmp es (mm_new cmp init) (fun _ => false) id = false ->
       caught_up cmp (ctotal s) (mm_values st).
Proof. exact @g_in_step. Qed.
Print Assumptions C77_in_step_partial.

(** Nobody falls behind without such a panic. *)
Theorem C77_calm : forall K V (cmp : K -> K -> comparison) (es : list (gevent K V)) st b id,
  Forall (fun e => match e with GEvent _ => True | GStop _ _ _ => False end) es -> b id = false -> behind_run cmp es st b id = false.
Proof. exact @g_calm. Qed.
Print Assumptions C77_calm.

(** Exactly what such a panic does: the contents have changed, the subscribers before have got the diff (the one at [n] if it was its waker that
    panicked), the others have not. *)
Theorem C77_stop : forall K V (cmp : K -> K -> comparison), total_order cmp ->
  forall (init : list (K * V)) es st d n sent k id s m', grun cmp es (mm_new cmp init) = Some st -> 0 < mm_owners st ->
  apply_to_map cmp d (mm_values st) = Some m' -> nth_error (mm_senders st) k = Some id -> nth_error (mm_chans st) id = Some s -> calive s = true ->
  exists st' s', gstep cmp (GStop d n sent) st = Some st' /\ mm_values st' = m' /\ nth_error (mm_chans st') id = Some s' /\ calive s' = true
    /\ ctotal s' = ctotal s ++ (if (k <? n) || (sent && (k =? n)) then [d] else []).
Proof. exact @g_stop. Qed.
Print Assumptions C77_stop.

(** *** Cases *)
(** Three subscribers; an insert gets to the first two only; after replace all are right again. *)
Definition ex_stop : list (gevent nat nat) :=
  [GEvent MSubscribe; GEvent MSubscribe; GEvent MSubscribe; GEvent (MOp (MOInsert 4 40)); GEvent (MPoll 2); GStop (MInsert 2 20) 1 true; GEvent (MOp (MORemove 4))].
Example C77_in_step_partial_ex : exists st, grun Nat.compare ex_stop (mm_new Nat.compare []) = Some st
  /\ mm_values st = [(2, 20)] /\ map ctotal (mm_chans st) = [[MInsert 4 40; MInsert 2 20; MRemove 4]; [MInsert 4 40; MInsert 2 20; MRemove 4]; [MInsert 4 40; MRemove 4]]
  /\ map (behind_run Nat.compare ex_stop (mm_new Nat.compare []) (fun _ => false)) [0; 1; 2] = [false; false; true].
Proof. vm_compute. eexists. repeat split. Qed.
Definition ex_again : list (gevent nat nat) := ex_stop ++ [GEvent (MOp (MOReplace [(7, 70)])); GEvent (MOp (MOInsert 1 10))].
Example C77_in_step_partial_again : exists st, grun Nat.compare ex_again (mm_new Nat.compare []) = Some st
  /\ mm_values st = [(1, 10); (7, 70)]
  /\ option_map ctotal (nth_error (mm_chans st) 2) = Some [MInsert 4 40; MRemove 4; MReplace [(7, 70)]; MInsert 1 10]
  /\ map (behind_run Nat.compare ex_again (mm_new Nat.compare []) (fun _ => false)) [0; 1; 2] = [false; false; false].
Proof. vm_compute. eexists. repeat split. Qed.
Example C77_stop_ex : exists st, grun Nat.compare (firstn 5 ex_stop) (mm_new Nat.compare []) = Some st /\ 0 < mm_owners st
  /\ apply_to_map Nat.compare (MInsert 2 20) (mm_values st) = Some [(2, 20); (4, 40)] /\ mm_senders st = [0; 1; 2] /\ map calive (mm_chans st) = [true; true; true].
Proof. vm_compute. eexists. repeat split. repeat constructor. Qed.

(** *** What goes wrong *)
(** There are three subscribers, and the second clone in notify_clone (559) panics in insert_cloned: the second and the third are one entry short,
    and cannot apply the diff of its removal. *)
Theorem C77_clone_refuted : exists st s, grun Nat.compare
    [GEvent MSubscribe; GEvent MSubscribe; GEvent MSubscribe; GStop (MInsert 1 10) 1 false; GEvent (MOp (MOInsert 2 20)); GEvent (MOp (MORemove 1))] (mm_new Nat.compare []) = Some st
  /\ nth_error (mm_chans st) 1 = Some s /\ calive s = true /\ mm_values st = [(2, 20)] /\ ctotal s = [MInsert 2 20; MRemove 1] /\ mreplay Nat.compare (ctotal s) = None.
Proof. vm_compute. do 2 eexists. repeat split. Qed.
Print Assumptions C77_clone_refuted.

(** The clone of the key in remove panics: also a single subscriber is not told; when the key is inserted again it gets Insert for a key that it
    has, and signal_vec_keys panics on that. *)
Theorem C77_remove_refuted : exists st s, grun Nat.compare
    [GEvent MSubscribe; GStop (MRemove 1) 0 false; GEvent (MOp (MOInsert 1 11))] (mm_new Nat.compare [(1, 10)]) = Some st
  /\ mm_chans st = [s] /\ calive s = true /\ mm_values st = [(1, 11)] /\ ctotal s = [MReplace [(1, 10)]; MInsert 1 11]
  /\ mreplay Nat.compare (ctotal s) = None
  /\ run (keys_poll Nat.compare) 3 ([], fresh (map (fun d => Ready (Some d)) (ctotal s))) = None.
Proof. vm_compute. do 2 eexists. repeat split. Qed.
Print Assumptions C77_remove_refuted.

(** The waker of the first subscriber's task panics: the second sleeps on. *)
Theorem C77_waker_refuted : exists st s t, grun Nat.compare
    [GEvent MSubscribe; GEvent MSubscribe; GEvent (MPoll 0); GEvent (MPoll 1); GStop (MInsert 1 10) 0 true] (mm_new Nat.compare []) = Some st
  /\ mm_chans st = [s; t] /\ mm_values st = [(1, 10)] /\ ctotal s = [MInsert 1 10] /\ cwoken s = true /\ ctotal t = [] /\ cwaiting t = true /\ cwoken t = false.
Proof. vm_compute. do 3 eexists. repeat split. Qed.
Print Assumptions C77_waker_refuted.
