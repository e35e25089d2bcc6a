(** Properties of MutableBTreeMap, its subscribers and views, and of the SignalMap combinators
    (C25-C31, C60, C61, parts of C24, C32, C41 and C44). *)
From Verif Require Import Base Spec VecDiff VecSpec Slot Sort ElemSignal MapDiff MapSpec MapFacts MapComb MapCombFacts
  MapValueSignalFacts Mpsc MutMap MutMapSpec MutMapFacts MapViewFacts SigSlots SigFlatFacts Conc Handles.

(** The specification [apply_to_map] used below is what the diffs mean, entry by entry. *)
Theorem C25_spec_apply_to_map : forall K (cmp : K -> K -> comparison), total_order cmp ->
  forall V (d : mapdiff K V) m m', is_map cmp m ->
  (apply_to_map cmp d m = Some m' <-> is_map cmp m' /\ mdiff_means d m m').
Proof. exact @apply_map_iff. Qed.
Print Assumptions C25_spec_apply_to_map.

Example C25_spec_apply_to_map_ex : total_order Nat.compare /\ is_map Nat.compare [(1, 10); (4, 40)]
  /\ apply_to_map Nat.compare (MInsert 2 20) [(1, 10); (4, 40)] = Some [(1, 10); (2, 20); (4, 40)]
  /\ apply_to_map Nat.compare (MInsert 4 20) [(1, 10); (4, 40)] = None
  /\ apply_to_map Nat.compare (MReplace [(3, 1); (2, 5); (3, 7)]) [(1, 10)] = Some [(2, 5); (3, 7)].
Proof. split; [exact nat_order|]. split; [repeat constructor|]. repeat split. Qed.

(** A history used in the examples: two subscribers, one dropped, one that polls in between. *)
Definition ex_map_history : list (mevent nat nat) :=
  [MSubscribe; MOp (MOInsert 5 50); MPoll 0; MOp (MOInsertCloned 1 11); MSubscribe; MOp (MORemove 9); MDropSub 0;
   MOp (MOReplaceCloned [(4, 40); (2, 20); (4, 41)]); MPoll 1; MOp (MORemove 2); MOp (MOInsert 7 70); MClone; MDrop].

(** C25: no history makes the map panic; whatever a live subscriber received and has yet to receive
    reconstructs the contents. *)
Theorem C25_lossless : forall K V (cmp : K -> K -> comparison), total_order cmp ->
  forall (init : list (K * V)) es, exists st, mm_run cmp es (mm_new cmp init) = Some st
    /\ is_map cmp (mm_values st)
    /\ forall id s, nth_error (mm_chans st) id = Some s -> calive s = true ->
       mreplay cmp (ctotal s) = Some (mm_values st).
Proof. exact @mm_lossless. Qed.
Print Assumptions C25_lossless.

Example C25_lossless_ex : exists st s,
  mm_run Nat.compare ex_map_history (mm_new Nat.compare [(1, 10); (3, 30)]) = Some st
  /\ nth_error (mm_chans st) 1 = Some s /\ calive s = true /\ mm_values st = [(4, 41); (7, 70)]
  /\ length (ctotal s) = 4.
Proof. vm_compute. do 2 eexists. repeat split. Qed.

(** C25: a prefix of the diffs gives the contents of the corresponding earlier moment. *)
Theorem C25_prefix : forall K V (cmp : K -> K -> comparison), total_order cmp ->
  forall (init : list (K * V)) es1 es2 st1 st2 id s1,
  mm_run cmp es1 (mm_new cmp init) = Some st1 -> mm_run cmp (es1 ++ es2) (mm_new cmp init) = Some st2 ->
  nth_error (mm_chans st1) id = Some s1 -> calive s1 = true ->
  exists s2 more, nth_error (mm_chans st2) id = Some s2 /\ ctotal s2 = ctotal s1 ++ more
    /\ mreplay cmp (ctotal s1) = Some (mm_values st1).
Proof. exact @mm_prefix. Qed.
Print Assumptions C25_prefix.

Example C25_prefix_ex : exists st1 s1,
  mm_run Nat.compare (firstn 9 ex_map_history) (mm_new Nat.compare [(1, 10); (3, 30)]) = Some st1
  /\ nth_error (mm_chans st1) 1 = Some s1 /\ calive s1 = true /\ mm_values st1 = [(2, 20); (4, 41)].
Proof. vm_compute. do 2 eexists. repeat split. Qed.

(** C25: enough polls deliver everything. *)
Theorem C25_catches_up : forall K V (cmp : K -> K -> comparison), total_order cmp ->
  forall (init : list (K * V)) es st id s,
  mm_run cmp es (mm_new cmp init) = Some st ->
  nth_error (mm_chans st) id = Some s -> calive s = true ->
  exists n st' s', mm_run cmp (es ++ repeat (MPoll id) n) (mm_new cmp init) = Some st'
    /\ nth_error (mm_chans st') id = Some s' /\ mm_values st' = mm_values st
    /\ mreplay cmp (yielded (cgot s')) = Some (mm_values st).
Proof. exact @mm_catches_up. Qed.
Print Assumptions C25_catches_up.

Example C25_catches_up_ex : exists st s,
  mm_run Nat.compare (ex_map_history ++ repeat (MPoll 1) 3) (mm_new Nat.compare [(1, 10); (3, 30)]) = Some st
  /\ nth_error (mm_chans st) 1 = Some s
  /\ mreplay Nat.compare (yielded (cgot s)) = Some [(4, 41); (7, 70)].
Proof. vm_compute. do 2 eexists. repeat split. Qed.

(** C26: contents, returned value and messages of every operation. Every live subscriber gets
    exactly [ds] (and is woken if it waits), a dropped one gets nothing. *)
Theorem C26_operations : forall K V (cmp : K -> K -> comparison), total_order cmp ->
  forall (init : list (K * V)) es st (o : mop K V),
  mm_run cmp es (mm_new cmp init) = Some st -> 0 < mm_owners st ->
  exists st' r ds, mm_op cmp o st = Some (st', r) /\ mm_event cmp (MOp o) st = Some st'
    /\ is_map cmp (mm_values st') /\ mop_means o (mm_values st) (mm_values st') r
    /\ mop_sends o (mm_values st) (mm_values st') ds
    /\ forall id s, nth_error (mm_chans st) id = Some s ->
       exists s', nth_error (mm_chans st') id = Some s' /\ cgot s' = cgot s /\ calive s' = calive s
         /\ ctotal s' = (if calive s then ctotal s ++ ds else ctotal s)
         /\ (calive s = true -> cwaiting s = true -> ds <> [] -> cwoken s' = true).
Proof. exact @mm_operation. Qed.
Print Assumptions C26_operations.

Example C26_operations_ex : exists st st',
  mm_run Nat.compare ex_map_history (mm_new Nat.compare [(1, 10); (3, 30)]) = Some st /\ 0 < mm_owners st
  /\ mm_op Nat.compare (MOInsert 4 44) st = Some (st', ROld (Some 41)) /\ mm_values st' = [(4, 44); (7, 70)].
Proof. vm_compute. do 2 eexists. repeat split; auto. Qed.

(** A new subscriber has one Replace with the current entries waiting for it, or nothing if there are none. *)
Theorem C26_subscribe : forall K V (cmp : K -> K -> comparison) (init : list (K * V)) es st,
  mm_run cmp es (mm_new cmp init) = Some st -> 0 < mm_owners st ->
  exists st' s, mm_event cmp MSubscribe st = Some st' /\ mm_chans st' = mm_chans st ++ [s] /\ mm_values st' = mm_values st /\ calive s = true /\ cgot s = []
    /\ cqueue s = match mm_values st with [] => [] | m => [MReplace m] end.
Proof. exact @mm_first. Qed.
Print Assumptions C26_subscribe.

Example C26_subscribe_ex : exists st, mm_run Nat.compare [MOp (MOInsert 4 40); MOp (MORemove 1)] (mm_new Nat.compare [(1, 10)]) = Some st
  /\ 0 < mm_owners st /\ mm_values st = [(4, 40)].
Proof. eexists. split; [reflexivity|]. cbn. auto. Qed.

(** C27: signal_vec_keys, for every source of diffs that can be applied and whose Replace diffs are
    sorted (as those of a MutableBTreeMap are). *)
Theorem C27_signal_vec_keys : forall K V (cmp : K -> K -> comparison), total_order cmp ->
  forall script, good_map_script cmp script -> ascending_entries cmp (yielded script) ->
  forall n, exists ks sr outs m,
    run (keys_poll (V := V) cmp) n ([], fresh script) = Some ((ks, sr), outs)
    /\ mconveyed cmp sr = Some m
    /\ replay (yielded outs) = Some (map fst m)
    /\ ascending cmp (map fst m).
Proof. exact @keys_mirror. Qed.
Print Assumptions C27_signal_vec_keys.

(** C27: on the diffs of a subscriber of a MutableBTreeMap, whatever happened to the map. *)
Theorem C27_keys_of_mutable_map : forall K V (cmp : K -> K -> comparison), total_order cmp ->
  forall (init : list (K * V)) es st id s script n,
  mm_run cmp es (mm_new cmp init) = Some st -> nth_error (mm_chans st) id = Some s -> calive s = true ->
  yielded script = ctotal s ->
  exists ks sr outs, run (keys_poll cmp) n ([], fresh script) = Some ((ks, sr), outs)
    /\ (yielded (past sr) = ctotal s -> replay (yielded outs) = Some (map fst (mm_values st))).
Proof. exact @keys_of_map. Qed.
Print Assumptions C27_keys_of_mutable_map.

(** A source used in the examples. *)
Definition ex_map_script : list (poll (option (mapdiff nat nat))) :=
  [Ready (Some (MReplace [(1, 10); (4, 40); (6, 60)])); Pending; Ready (Some (MInsert 5 50)); Ready (Some (MRemove 1));
   Ready (Some (MUpdate 4 44)); Pending; Ready (Some (MInsert 0 7)); Ready None].
Example ex_map_script_good : good_map_script Nat.compare ex_map_script /\ ascending_entries Nat.compare (yielded ex_map_script)
  /\ distinct_entries (yielded ex_map_script).
Proof.
  split; [vm_compute; discriminate|]. split; intros es [H|[H|[H|[H|[H|[]]]]]]; try discriminate; injection H as <-.
  - repeat constructor.
  - repeat constructor; simpl; intuition discriminate.
Qed.

Example C27_signal_vec_keys_ex : exists st sr outs,
  run (keys_poll Nat.compare) 20 ([], fresh ex_map_script) = Some ((st, sr), outs)
  /\ replay (yielded outs) = Some [0; 4; 5; 6].
Proof. vm_compute. do 3 eexists. repeat split. Qed.

Example C27_keys_of_mutable_map_ex : exists st s,
  mm_run Nat.compare ex_map_history (mm_new Nat.compare [(1, 10); (3, 30)]) = Some st
  /\ nth_error (mm_chans st) 1 = Some s /\ calive s = true
  /\ yielded (map (fun d => Ready (Some d)) (ctotal s)) = ctotal s.
Proof. vm_compute. do 2 eexists. repeat split. Qed.

(** C28: entries_cloned, under the same conditions. *)
Theorem C28_entries : forall K V (cmp : K -> K -> comparison), total_order cmp ->
  forall script, good_map_script cmp script -> ascending_entries cmp (yielded script) ->
  forall n, exists ks sr outs m,
    run (entries_poll (V := V) cmp) n ([], fresh script) = Some ((ks, sr), outs)
    /\ mconveyed cmp sr = Some m
    /\ replay (yielded outs) = Some m
    /\ is_map cmp m.
Proof. exact @entries_mirror. Qed.
Print Assumptions C28_entries.

Theorem C28_entries_of_mutable_map : forall K V (cmp : K -> K -> comparison), total_order cmp ->
  forall (init : list (K * V)) es st id s script n,
  mm_run cmp es (mm_new cmp init) = Some st -> nth_error (mm_chans st) id = Some s -> calive s = true ->
  yielded script = ctotal s ->
  exists ks sr outs, run (entries_poll cmp) n ([], fresh script) = Some ((ks, sr), outs)
    /\ (yielded (past sr) = ctotal s -> replay (yielded outs) = Some (mm_values st)).
Proof. exact @entries_of_map. Qed.
Print Assumptions C28_entries_of_mutable_map.

Example C28_entries_ex : exists st sr outs,
  run (entries_poll Nat.compare) 20 ([], fresh ex_map_script) = Some ((st, sr), outs)
  /\ replay (yielded outs) = Some [(0, 7); (4, 44); (5, 50); (6, 60)].
Proof. vm_compute. do 3 eexists. repeat split. Qed.

(** C29: map_value. *)
Theorem C29_map_value : forall K A B (cmp : K -> K -> comparison) (f : A -> B) script,
  good_map_script cmp script -> forall n, exists calls sr outs m,
    run (map_value_poll f) n ([], fresh script) = Some ((calls, sr), outs)
    /\ mconveyed cmp sr = Some m
    /\ mreplay cmp (yielded outs) = Some (map (fun '(k, v) => (k, f v)) m)
    /\ calls = flat_map mvalues_of (yielded (past sr)).
Proof. exact @map_value_mirror. Qed.
Print Assumptions C29_map_value.

Example C29_map_value_ex : exists st sr outs,
  run (map_value_poll (fun v => v + 1)) 20 ([], fresh ex_map_script) = Some ((st, sr), outs)
  /\ mreplay Nat.compare (yielded outs) = Some [(0, 8); (4, 45); (5, 51); (6, 61)] /\ length st = 6.
Proof. vm_compute. do 3 eexists. repeat split. Qed.

(** C30: map_value_signal. [vs]: the most recent value of the signal of every key; at rest it is
    what the consumer has, otherwise the queued diffs lead to it. *)
Theorem C30_map_value_signal : forall K V B (cmp : K -> K -> comparison), total_order cmp ->
  forall (inner_of : V -> list (poll (option B))), (forall v, has_initial (inner_of v)) ->
  forall source, good_map_script cmp source -> forall n, exists st outs vs shown,
    run (mvs_poll cmp inner_of) n (mvs_init source) = Some (st, outs)
    /\ mconveyed cmp (snd (mvs_signal st)) = Some (map (fun '(k, m) => (k, ms_origin m)) (mvs_signals st))
    /\ Forall2 (fun e v => fst e = fst v /\ plays (inner_of (ms_origin (snd e))) (snd (ms_signal (snd e)))
                           /\ latest (snd (ms_signal (snd e))) = Some (snd v))
               (mvs_signals st) vs
    /\ mreplay cmp (yielded outs) = Some shown
    /\ (last_out outs Pending \/ last_out outs (Ready None) -> shown = vs)
    /\ apply_all (apply_to_map cmp) shown (mvs_pending st) = Some vs.
Proof. exact @map_value_signal_mirror. Qed.
Print Assumptions C30_map_value_signal.

(** C24, C61: neither the source nor the signal of a key is polled after its end; map_value_signal
    ends exactly when all of them have ended. *)
Theorem C24_C61_map_value_signal_ends : forall K V B (cmp : K -> K -> comparison), total_order cmp ->
  forall (inner_of : V -> list (poll (option B))), (forall v, has_initial (inner_of v)) ->
  forall source, good_map_script cmp source -> forall n st outs,
    run (mvs_poll cmp inner_of) n (mvs_init source) = Some (st, outs) ->
    obeys_end (past (snd (mvs_signal st)))
    /\ Forall (fun e => obeys_end (past (snd (ms_signal (snd e))))) (mvs_signals st)
    /\ (last_out outs (Ready None) ->
          ended (snd (mvs_signal st)) /\ Forall (fun e => ended (snd (ms_signal (snd e)))) (mvs_signals st))
    /\ (last_out outs Pending ->
          ~ (ended (snd (mvs_signal st)) /\ Forall (fun e => ended (snd (ms_signal (snd e)))) (mvs_signals st))).
Proof. exact @map_value_signal_ends. Qed.
Print Assumptions C24_C61_map_value_signal_ends.

(** C61: a poll of map_value_signal that answers Pending has polled the source and the signal of
    every key, unless they have ended, and all of them answered Pending. *)
Theorem C61_map_value_signal_wakes : forall K V B (cmp : K -> K -> comparison), total_order cmp ->
  forall (inner_of : V -> list (poll (option B))), (forall v, has_initial (inner_of v)) ->
  forall source, good_map_script cmp source -> forall n st outs st',
    run (mvs_poll cmp inner_of) n (mvs_init source) = Some (st, outs) -> ~ In (Ready None) outs ->
    mvs_poll cmp inner_of st = Some (st', Pending) ->
    listening (snd (mvs_signal st)) (snd (mvs_signal st'))
    /\ Forall2 (fun e e' => listening (snd (ms_signal (snd e))) (snd (ms_signal (snd e')))) (mvs_signals st) (mvs_signals st').
Proof. exact @map_value_signal_wakes. Qed.
Print Assumptions C61_map_value_signal_wakes.

(** The signal of value [v] shows [v], then [v + 100]. *)
Example C30_map_value_signal_ex :
  let inner_of := fun v => [Ready (Some v); Pending; Ready (Some (v + 100)); Ready None] in
  (forall v, has_initial (inner_of v)) /\ good_map_script Nat.compare ex_map_script
  /\ (exists st outs, run (mvs_poll Nat.compare inner_of) 20 (mvs_init ex_map_script) = Some (st, outs)
      /\ mreplay Nat.compare (yielded outs) = Some [(0, 107); (4, 144); (5, 150); (6, 160)]
      /\ last_out outs (Ready None)).
Proof.
  split; [intros v; do 2 eexists; reflexivity|]. split; [vm_compute; discriminate|].
  vm_compute. do 2 eexists. split; [reflexivity|]. split; [reflexivity|].
  match goal with |- exists p, ?l = _ => exists (removelast l) end. reflexivity.
Qed.

Example C61_map_value_signal_wakes_ex :
  let inner_of := fun v : nat => [Ready (Some v); Pending; Pending; Pending; Ready (Some (v + 100))] in
  let source := [Ready (Some (MReplace [(1, 10); (4, 40)])); Pending; Ready (Some (MRemove 1)); Pending; Pending] in
  exists st outs st', run (mvs_poll Nat.compare inner_of) 2 (mvs_init source) = Some (st, outs)
    /\ ~ In (Ready None) outs /\ mvs_poll Nat.compare inner_of st = Some (st', Pending).
Proof. vm_compute. do 3 eexists. split; [reflexivity|]. split; [|reflexivity]. intuition discriminate. Qed.

(** C31: key_cloned is wrong when a Replace mentions the watched key twice: it shows the first
    value, the map has the last one. *)
Theorem C31_key_cloned_refuted : exists script : list (poll (option (mapdiff nat nat))),
  good_map_script Nat.compare script /\
  exists n st sr outs,
    run (key_poll Nat.eqb 1) n (true, fresh script) = Some ((st, sr), outs)
    /\ mconveyed Nat.compare sr = Some [(1, 20)]
    /\ last_out outs Pending /\ latest_of outs = Some (Some 10).
Proof.
  exists [Ready (Some (MReplace [(1, 10); (1, 20)])); Pending; Pending]. split; [vm_compute; discriminate|]. exists 2.
  vm_compute. do 3 eexists. split; [reflexivity|]. split; [reflexivity|]. split; [|reflexivity].
  match goal with |- exists p, ?l = _ => exists (removelast l) end. reflexivity.
Qed.
Print Assumptions C31_key_cloned_refuted.

(** C31, when no Replace mentions a key twice: after every poll the last output is the value of the
    key in the map received so far, None if it is absent. Missing: the sources that repeat a key. *)
Theorem C31_key_cloned_partial : forall K V (cmp : K -> K -> comparison), total_order cmp ->
  forall key_eq, lawful key_eq -> forall (k : K) script,
  good_map_script cmp script -> distinct_entries (yielded script) ->
  forall n, exists first sr outs m,
    run (key_poll (V := V) key_eq k) n (true, fresh script) = Some ((first, sr), outs)
    /\ mconveyed cmp sr = Some m
    /\ (outs <> [] -> exists o, latest_of outs = Some o /\ forall v, o = Some v <-> In (k, v) m).
Proof. exact @key_cloned_mirror. Qed.
Print Assumptions C31_key_cloned_partial.

(** C31 in full for the subscribers of a MutableBTreeMap, which never repeat a key. *)
Theorem C31_key_of_mutable_map : forall K V (cmp : K -> K -> comparison), total_order cmp ->
  forall (key_eq : K -> K -> bool) (k : K) (init : list (K * V)) es st id s script n,
  lawful key_eq ->
  mm_run cmp es (mm_new cmp init) = Some st -> nth_error (mm_chans st) id = Some s -> calive s = true ->
  yielded script = ctotal s ->
  exists first sr outs, run (key_poll key_eq k) n (true, fresh script) = Some ((first, sr), outs)
    /\ (outs <> [] -> yielded (past sr) = ctotal s ->
        exists o, latest_of outs = Some o /\ forall v, o = Some v <-> In (k, v) (mm_values st)).
Proof. exact @key_of_map. Qed.
Print Assumptions C31_key_of_mutable_map.

Example C31_key_cloned_partial_ex : lawful Nat.eqb /\ exists st sr outs,
  run (key_poll Nat.eqb 4) 3 (true, fresh ex_map_script) = Some ((st, sr), outs)
  /\ outs = [Ready (Some (Some 40)); Ready (Some (Some 44)); Ready None].
Proof. split; [exact Nat.eqb_eq|]. vm_compute. do 3 eexists. repeat split. Qed.

(** C31, C32: the first answer of key_cloned is a value, whatever the source does. *)
Theorem C31_C32_key_cloned_initial : forall K V key_eq (k : K) (script : list (poll (option (mapdiff K V)))) n, exists st outs,
  run (key_poll key_eq k) n (true, fresh script) = Some (st, outs) /\ (outs <> [] -> has_initial outs).
Proof. exact @key_cloned_initial. Qed.
Print Assumptions C31_C32_key_cloned_initial.

(** C24: key_cloned polls its source again after its end when the end came in the same poll as a
    change (or in the first poll); it then waits for the source for ever. *)
Theorem C24_C61_key_cloned_refuted : exists script : list (poll (option (mapdiff nat nat))),
  exists n st sr outs,
    run (key_poll Nat.eqb 1) n (true, fresh script) = Some ((st, sr), outs)
    /\ past sr = [Ready (Some (MInsert 1 10)); Ready None; Pending]
    /\ ~ obeys_end (past sr) /\ last_out outs Pending.
Proof.
  exists [Ready (Some (MInsert 1 10)); Ready None]. exists 2. vm_compute. do 3 eexists. split; [reflexivity|]. split; [reflexivity|]. split.
  - intros H. specialize (H [Ready (Some (MInsert 1 10))] [Pending] eq_refl). discriminate.
  - match goal with |- exists p, ?l = _ => exists (removelast l) end. reflexivity.
Qed.
Print Assumptions C24_C61_key_cloned_refuted.

(** C24, C61 for key_cloned, for sources that answer their end to a poll of its own. Missing: the
    other sources. *)
Theorem C24_C61_key_cloned_partial : forall K V key_eq (k : K) (script : list (poll (option (mapdiff K V)))) n first sr outs,
  ends_alone script ->
  run (key_poll key_eq k) n (true, fresh script) = Some ((first, sr), outs) ->
  (last_out outs Pending -> awaits sr) /\ (last_out outs (Ready None) <-> ended sr) /\ obeys_end (past sr).
Proof. exact @key_cloned_ends. Qed.
Print Assumptions C24_C61_key_cloned_partial.

Example C24_C61_key_cloned_partial_ex :
  ends_alone [Ready (Some (MInsert 1 10)); Pending; @Ready (option (mapdiff nat nat)) None].
Proof.
  intros p q H. destruct p as [|a [|b [|c p]]]; try discriminate; injection H; intros; subst.
  - exists [Ready (Some (MInsert 1 10))]. reflexivity.
  - destruct p; discriminate.
Qed.

(** C61 for key_cloned, whatever the source does: Pending means that the source was polled and
    answered Pending, and an end that the source has ended. *)
Theorem C61_key_cloned_rearms : forall K V key_eq (k : K), rearms (key_poll (V := V) key_eq k) snd.
Proof. exact @key_cloned_rearms. Qed.
Print Assumptions C61_key_cloned_rearms.

Theorem C61_key_cloned_end : forall K V key_eq (k : K) (script : list (poll (option (mapdiff K V)))) n first sr outs,
  run (key_poll key_eq k) n (true, fresh script) = Some ((first, sr), outs) ->
  last_out outs (Ready None) -> ended sr.
Proof. exact @key_cloned_end_sound. Qed.
Print Assumptions C61_key_cloned_end.

(** C24, C61 for map_value, signal_vec_keys and entries_cloned. *)
Theorem C24_C61_map_value : forall K A B (f : A -> B), single_source_ok (map_value_poll (K := K) f) [].
Proof. exact @map_value_end. Qed.
Print Assumptions C24_C61_map_value.
Theorem C24_C61_keys : forall K V (cmp : K -> K -> comparison), single_source_ok (keys_poll (V := V) cmp) [].
Proof. exact @keys_end. Qed.
Print Assumptions C24_C61_keys.
Theorem C24_C61_entries : forall K V (cmp : K -> K -> comparison), single_source_ok (entries_poll (V := V) cmp) [].
Proof. exact @entries_end. Qed.
Print Assumptions C24_C61_entries.
Theorem C61_rearms : forall K V A B (cmp : K -> K -> comparison) (f : A -> B),
  rearms (map_value_poll (K := K) f) snd /\ rearms (keys_poll (V := V) cmp) snd /\ rearms (entries_poll (V := V) cmp) snd.
Proof. exact @map_rearms. Qed.
Print Assumptions C61_rearms.

(** C60: a waiting subscriber of a map is woken by every message and by the drop of the last
    handle, and by nothing else; it ends only after that, with everything received. *)
Theorem C60_woken : forall K V (cmp : K -> K -> comparison), total_order cmp ->
  forall (init : list (K * V)) es st id s, mm_run cmp es (mm_new cmp init) = Some st ->
  nth_error (mm_chans st) id = Some s -> calive s = true ->
  (last_out (cgot s) Pending -> (cwoken s = true <-> cqueue s <> [] \/ mm_owners st = 0))
  /\ (In (Ready None) (cgot s) -> mm_owners st = 0 /\ cqueue s = []).
Proof. exact @mm_wakes. Qed.
Print Assumptions C60_woken.

Theorem C60_polls : forall K V (cmp : K -> K -> comparison),
  forall (init : list (K * V)) es st id s, mm_run cmp es (mm_new cmp init) = Some st ->
  nth_error (mm_chans st) id = Some s -> calive s = true ->
  exists st' s', mm_event cmp (MPoll id) st = Some st' /\ nth_error (mm_chans st') id = Some s' /\
    match cqueue s with
    | d :: q => cgot s' = cgot s ++ [Ready (Some d)] /\ cqueue s' = q
    | [] => cqueue s' = [] /\ (mm_owners st = 0 -> cgot s' = cgot s ++ [Ready None])
            /\ (0 < mm_owners st -> cgot s' = cgot s ++ [Pending])
    end.
Proof. exact @mm_polls. Qed.
Print Assumptions C60_polls.

(** C60: after a change of the contents the map keeps no connection to a dropped subscriber. *)
Theorem C60_forgets : forall K V (cmp : K -> K -> comparison), total_order cmp ->
  forall (init : list (K * V)) es st (o : mop K V) st' id, mm_run cmp es (mm_new cmp init) = Some st -> 0 < mm_owners st ->
  mm_event cmp (MOp o) st = Some st' -> mm_values st' <> mm_values st -> In id (mm_senders st') ->
  exists s, nth_error (mm_chans st') id = Some s /\ calive s = true.
Proof. exact @mm_forgets. Qed.
Print Assumptions C60_forgets.

Example C60_ex :
  (exists st s, mm_run Nat.compare (ex_map_history ++ [MPoll 1; MPoll 1; MPoll 1; MPoll 1; MOp (MOInsert 0 0)]) (mm_new Nat.compare [(1, 10)]) = Some st
     /\ nth_error (mm_chans st) 1 = Some s /\ last_out (cgot s) Pending /\ cqueue s <> [] /\ cwoken s = true)
  /\ (exists st s, mm_run Nat.compare (ex_map_history ++ [MPoll 1; MPoll 1; MPoll 1; MPoll 1; MDrop]) (mm_new Nat.compare [(1, 10)]) = Some st
     /\ nth_error (mm_chans st) 1 = Some s /\ last_out (cgot s) Pending /\ mm_owners st = 0 /\ cwoken s = true)
  /\ (exists st st', mm_run Nat.compare [MSubscribe; MSubscribe; MDropSub 0] (mm_new Nat.compare [(1, 10)]) = Some st
     /\ mm_event Nat.compare (MOp (MORemove 1)) st = Some st' /\ mm_senders st = [0; 1] /\ mm_senders st' = [1]).
Proof.
  split; [|split].
  - vm_compute. do 2 eexists. split; [reflexivity|]. split; [reflexivity|]. split; [|split; [discriminate|reflexivity]].
    match goal with |- exists p, ?l = _ => exists (removelast l) end. reflexivity.
  - vm_compute. do 2 eexists. split; [reflexivity|]. split; [reflexivity|]. split; [|split; reflexivity].
    match goal with |- exists p, ?l = _ => exists (removelast l) end. reflexivity.
  - vm_compute. do 2 eexists. repeat split.
Qed.

(** C41: SignalMap always shows its entries once, then ends. *)
Theorem C41_map_always : forall K V (es : list (K * V)) n, exists st, run map_always_poll n (Some es) =
  Some (st, match n with 0 => [] | 1 => [Ready (Some (MReplace es))]
            | _ => [Ready (Some (MReplace es)); Ready None] end).
Proof. exact @map_always_run. Qed.
Print Assumptions C41_map_always.

(** C60: "the last handle is gone" in terms of what was done. *)
Theorem C60_handles : forall K V (cmp : K -> K -> comparison), total_order cmp -> forall (init : list (K * V)) es st, mm_run cmp es (mm_new cmp init) = Some st ->
  (0 < mm_owners st -> mm_owners st + count m_drops es = 1 + count m_clones es) /\ (mm_owners st = 0 <-> all_dropped m_clones m_drops es).
Proof. exact @mm_handles. Qed.
Print Assumptions C60_handles.

Example C60_handles_ex : (exists st, mm_run Nat.compare [MClone; MDrop; MSubscribe; MClone] (mm_new Nat.compare [(1, 10)]) = Some st /\ mm_owners st = 2)
  /\ all_dropped m_clones m_drops ([MClone; MOp (MORemove 2); MDrop; MDrop; MClone] : list (mevent nat nat)).
Proof. split; [eexists; split; reflexivity|]. exists [MClone; MOp (MORemove 2); MDrop; MDrop], [MClone]. split; reflexivity. Qed.
