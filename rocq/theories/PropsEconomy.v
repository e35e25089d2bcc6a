(** C69: the SignalVec combinators pass every element on once, and send about as many diffs as they
    receive. *)
From Verif Require Import Base Spec VecDiff VecSpec VecSimple Slot Chain Sort DelayRemove Economy MapDiff MapComb MapEconomy.

(** The elements in some diffs, in order. *)
Definition elements {A} (ds : list (vecdiff A)) : list A := flat_map values_of ds.

(** map, filter, filter_map, enumerate and debug: the elements of the outputs are those of the inputs,
    treated by the closure, in the same order; at most one diff is sent for each diff received. *)
Theorem C69_map : forall A B (f : A -> B) script n calls sr outs,
  run (vmap_poll f) n ([], fresh script) = Some ((calls, sr), outs) ->
  elements (yielded outs) = map f (elements (yielded (past sr)))
  /\ length (yielded outs) = length (yielded (past sr)).
Proof. exact @vmap_economy. Qed.
Print Assumptions C69_map.

Theorem C69_filter : forall A (p : A -> bool) script n st sr outs,
  run (filter_poll p) n (fm_init, fresh script) = Some ((st, sr), outs) ->
  elements (yielded outs) = filter p (elements (yielded (past sr)))
  /\ length (yielded outs) <= length (yielded (past sr)).
Proof. exact @filter_economy. Qed.
Print Assumptions C69_filter.

Theorem C69_filter_map : forall A B (f : A -> option B) script n st sr outs,
  run (filter_map_poll f) n (fm_init, fresh script) = Some ((st, sr), outs) ->
  elements (yielded outs) = accepted_values f (elements (yielded (past sr)))
  /\ length (yielded outs) <= length (yielded (past sr)).
Proof. exact @filter_map_economy. Qed.
Print Assumptions C69_filter_map.

Theorem C69_enumerate : forall A (script : list (poll (option (vecdiff A)))) n st sr outs,
  run enumerate_poll n (en_init, fresh script) = Some ((st, sr), outs) ->
  map snd (elements (yielded outs)) = elements (yielded (past sr))
  /\ length (yielded outs) = length (yielded (past sr)).
Proof. exact @enumerate_economy. Qed.
Print Assumptions C69_enumerate.

Theorem C69_debug : forall A (script : list (poll (option (vecdiff A)))) n sr outs,
  run vdebug_poll n (tt, fresh script) = Some ((tt, sr), outs) -> yielded outs = yielded (past sr).
Proof. exact @vdebug_economy. Qed.
Print Assumptions C69_debug.

Definition ex_diffs : list (poll (option (vecdiff nat))) :=
  [Ready (Some (Replace [3; 1; 2])); Ready (Some (UpdateAt 0 0)); Pending; Ready (Some (Move 1 0));
   Ready (Some (InsertAt 1 7)); Ready (Some (RemoveAt 0)); Ready (Some (Push 4)); Ready (Some Pop)].

Example C69_simple_ex :
  (exists calls sr outs, run (vmap_poll S) 9 ([], fresh ex_diffs) = Some ((calls, sr), outs)
    /\ elements (yielded outs) = [4; 2; 3; 1; 8; 5])
  /\ (exists st sr outs, run (filter_poll Nat.even) 9 (fm_init, fresh ex_diffs) = Some ((st, sr), outs)
    /\ elements (yielded outs) = [2; 0; 4] /\ length (yielded outs) = 4)
  /\ (exists st sr outs, run (filter_map_poll (fun x => if x =? 7 then None else Some (x + 1))) 9 (fm_init, fresh ex_diffs) = Some ((st, sr), outs)
    /\ elements (yielded outs) = [4; 2; 3; 1; 5])
  /\ (exists st sr outs, run enumerate_poll 9 (en_init, fresh ex_diffs) = Some ((st, sr), outs)
    /\ map snd (elements (yielded outs)) = [3; 1; 2; 0; 7; 4])
  /\ (exists sr outs, run vdebug_poll 9 (tt, fresh ex_diffs) = Some ((tt, sr), outs) /\ length (yielded outs) = 7).
Proof. repeat split; vm_compute; repeat eexists. Qed.

(** sort_by_cloned: the elements are passed on once each (one of them may still be waiting to be
    sent); at most two diffs are sent for each diff received. *)
Theorem C69_sort : forall A (compare : A -> A -> comparison) script n st sr outs,
  run (sort_poll compare) n (sort_init, fresh script) = Some ((st, sr), outs) ->
  Permutation (elements (yielded (past sr)))
              (elements (yielded outs) ++ elements (match so_pending st with Some d => [d] | None => [] end))
  /\ length (yielded outs) <= 2 * length (yielded (past sr)).
Proof. exact @sort_economy. Qed.
Print Assumptions C69_sort.

Example C69_sort_ex : exists st sr outs, run (sort_poll Nat.compare) 9 (sort_init, fresh ex_diffs) = Some ((st, sr), outs)
  /\ yielded outs = [Replace [1; 2; 3]; Pop; InsertAt 0 0; Push 7; RemoveAt 1; InsertAt 2 4; RemoveAt 2].
Proof. vm_compute. repeat eexists. Qed.

(** chain: the elements of both inputs are passed on once each, or are waiting to be sent; the number
    of diffs sent is at most the number of diffs received plus twice the number of elements
    received, however often and on whichever side whole contents are replaced. *)
Theorem C69_chain : forall A left right n st outs,
  run chain_poll n (@chain_init A left right) = Some (st, outs) ->
  let from_left := yielded (past (snd (ch_left st))) in
  let from_right := yielded (past (snd (ch_right st))) in
  Permutation (elements from_left ++ elements from_right) (elements (yielded outs) ++ elements (ch_pending st))
  /\ length (yielded outs) <= length (from_left ++ from_right) + 2 * length (elements (from_left ++ from_right)).
Proof. exact @chain_economy. Qed.
Print Assumptions C69_chain.

Example C69_chain_ex : exists st outs, run chain_poll 9 (chain_init ex_diffs
    [Ready (Some (Replace [8; 9])); Pending; Pending; Pending; Ready (Some (Replace [5]))]) = Some (st, outs)
  /\ elements (yielded outs) = [3; 1; 2; 8; 9; 0; 7; 4] /\ length (yielded outs) = 7.
Proof. vm_compute. repeat eexists. Qed.

(** delay_remove: the elements are passed on once each, in order, or are waiting to be sent; the
    number of diffs is bounded as for chain. *)
Theorem C69_delay_remove : forall K (future_of : K -> list (poll unit)) script n st outs,
  run (delay_remove_poll future_of) n (delay_remove_init script) = Some (st, outs) ->
  let ins := yielded (past (snd (dlr_signal st))) in
  elements ins = elements (yielded outs) ++ elements (dlr_pending st)
  /\ length (yielded outs) <= length ins + 2 * length (elements ins).
Proof. exact @delay_economy. Qed.
Print Assumptions C69_delay_remove.

Example C69_delay_remove_ex : exists st outs, run (delay_remove_poll (fun k => if k =? 1 then [Pending; Pending; Ready tt] else [Ready tt])) 12
    (delay_remove_init (ex_diffs ++ [Ready (Some (Replace [6; 6]))])) = Some (st, outs)
  /\ elements (yielded outs) = [3; 1; 2; 0; 7; 4; 6; 6].
Proof. vm_compute. repeat eexists. Qed.

(** The same for maps. map_value and the entries of a MutableBTreeMap as a SignalVec send one diff for each one received, with exactly its entries (mapped); signal_vec_keys sends one for each one
    received that is no Update, with exactly its keys, and nothing for an Update: keys that did not change are not sent again. *)
Theorem C69_map_value : forall K A B (f : A -> B) (script : list (poll (option (mapdiff K A)))) n calls sr outs, run (map_value_poll f) n ([], fresh script) = Some ((calls, sr), outs) ->
  flat_map entries_in (yielded outs) = map (fun kv => (fst kv, f (snd kv))) (flat_map entries_in (yielded (past sr))) /\ length (yielded outs) = length (yielded (past sr)).
Proof. exact @map_value_economy. Qed.
Print Assumptions C69_map_value.
Theorem C69_keys : forall K V (cmp : K -> K -> comparison) script n ks sr outs, run (keys_poll (V := V) cmp) n ([], fresh script) = Some ((ks, sr), outs) ->
  let received := filter not_update (yielded (past sr)) in
  elements (yielded outs) = map fst (flat_map entries_in received) /\ length (yielded outs) = length received.
Proof. exact @keys_economy. Qed.
Print Assumptions C69_keys.
Theorem C69_entries : forall K V (cmp : K -> K -> comparison) script n ks sr outs, run (entries_poll (V := V) cmp) n ([], fresh script) = Some ((ks, sr), outs) ->
  elements (yielded outs) = flat_map entries_in (yielded (past sr)) /\ length (yielded outs) = length (yielded (past sr)).
Proof. exact @entries_economy. Qed.
Print Assumptions C69_entries.
Definition ex_map_diffs : list (poll (option (mapdiff nat nat))) :=
  [Ready (Some (MReplace [(1, 10); (4, 40)])); Pending; Ready (Some (MInsert 3 30)); Ready (Some (MUpdate 4 44)); Ready (Some (MRemove 1)); Ready (Some MClear); Ready (Some (MInsert 2 20))].
Example C69_maps_ex :
  (exists calls sr outs, run (map_value_poll S) 8 ([], fresh ex_map_diffs) = Some ((calls, sr), outs) /\ flat_map entries_in (yielded outs) = [(1, 11); (4, 41); (3, 31); (4, 45); (2, 21)])
  /\ (exists ks sr outs, run (keys_poll Nat.compare) 8 ([], fresh ex_map_diffs) = Some ((ks, sr), outs) /\ elements (yielded outs) = [1; 4; 3; 2] /\ length (yielded outs) = 5)
  /\ (exists ks sr outs, run (entries_poll Nat.compare) 8 ([], fresh ex_map_diffs) = Some ((ks, sr), outs) /\ elements (yielded outs) = [(1, 10); (4, 40); (3, 30); (4, 44); (2, 20)]).
Proof. repeat split; vm_compute; repeat eexists. Qed.
