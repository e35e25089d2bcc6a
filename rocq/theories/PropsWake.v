(** C23, C43: what is polled by the very call that answers Pending. [rearms m source] says: in
    whatever state the call starts, if it answers Pending then the source was polled during the
    call, and its last answer was Pending - so it holds the waker of that call. *)
From Verif Require Import Base Spec VecDiff Slot Sig SigSlots VecSimple VecToSignal Sort WakeFacts.

(** ** One source *)
Theorem C23_vec_rearms : forall A B (g : A -> B) (p : A -> bool) (f : A -> option B) (compare : A -> A -> comparison),
  rearms (vmap_poll g) snd
  /\ rearms (filter_poll p) snd
  /\ rearms (filter_map_poll f) snd
  /\ rearms (@enumerate_poll A) snd
  /\ rearms (@stream_vec_poll A) snd
  /\ rearms (@vdebug_poll A) snd
  /\ rearms (sort_poll compare) snd.
Proof.
  intros A B g p f compare.
  split; [exact (emit_rearms _)|]. split; [exact (emit_rearms _)|]. split; [exact (emit_rearms _)|].
  split; [exact (emit_rearms _)|]. split; [exact (emit_rearms _)|]. split; [exact (emit_rearms _)|].
  exact (sort_rearms compare).
Qed.
Print Assumptions C23_vec_rearms.

Theorem C23_C43_vec_to_signal_rearms : forall A B (callback : list A -> B) (sum : list A -> A),
  rearms (tsm_poll callback) (fun st => snd (tsm_signal st))
  /\ rearms (@tsc_poll A) (fun st => snd (tsm_signal st))
  /\ rearms (sum_poll sum) (fun st => snd (tsm_signal st))
  /\ rearms (@len_poll A) (fun st => snd (len_signal st)).
Proof.
  intros A B callback sum. split; [exact (tsm_rearms _)|]. split; [exact (tsm_rearms _)|].
  split; [exact (sum_rearms _)|exact len_rearms].
Qed.
Print Assumptions C23_C43_vec_to_signal_rearms.

Theorem C43_signal_rearms : forall A B (f : A -> B) (eqb : A -> A -> bool) (v : A) (fd : A -> A * B)
  (fm : A -> option B) (test : A -> bool),
  rearms (map_poll f) snd
  /\ rearms not_poll snd
  /\ rearms (@inspect_poll A) snd
  /\ rearms (@debug_poll A) snd
  /\ rearms (@to_stream_poll A) snd
  /\ rearms (@to_signal_vec_poll A) snd
  /\ rearms (eq_poll eqb v) snd
  /\ rearms (neq_poll eqb v) snd
  /\ rearms (dedupe_map_poll eqb fd) snd
  /\ rearms (dedupe_poll eqb) snd
  /\ rearms (sig_filter_map_poll fm) snd
  /\ rearms (wait_for_poll eqb v) snd
  /\ rearms (@to_future_poll A) snd
  /\ rearms (stop_if_poll test) snd
  /\ rearms (@from_future_poll A) (fun st => snd (ff_future st))
  /\ rearms (@from_stream_poll A) (fun st => snd (fs_stream st))
  /\ rearms (@sample_poll A B) ss_stream.
Proof.
  intros A B f eqb v fd fm test.
  do 12 (split; [exact (emit_rearms _)|]).
  split; [exact to_future_rearms|]. split; [exact (stop_if_rearms test)|].
  split; [exact from_future_rearms|]. split; [exact from_stream_rearms|exact sample_rearms].
Qed.
Print Assumptions C43_signal_rearms.

(** result, option: only a signal can make them answer Pending. *)
Theorem C43_result_option_rearms : forall A E,
  (forall st st' : maybe_signal A E, result_poll st = Some (st', Pending) ->
     exists s s', st = MSignal s /\ st' = MSignal s' /\ armed s s')
  /\ (forall st st' : maybe_signal A (option A), option_poll st = Some (st', Pending) ->
     exists s s', st = MSignal s /\ st' = MSignal s' /\ armed s s').
Proof. intros A E. split; [exact (maybe_rearms _ _)|exact (maybe_rearms _ _)]. Qed.
Print Assumptions C43_result_option_rearms.

(** A call that answers Pending exists, after a run that is not trivial. *)
Example C43_rearms_ex :
  (exists st st', run (sig_filter_map_poll (fun n => if Nat.even n then Some n else None)) 2
        ((true, []), fresh [Ready (Some 1); Ready (Some 2); Ready (Some 3); Pending]) = Some (st, [Ready (Some None); Ready (Some (Some 2))])
     /\ sig_filter_map_poll (fun n => if Nat.even n then Some n else None) st = Some (st', Pending))
  /\ (exists st st', run (len_poll (A := nat)) 1
        (mkLen (some_slot [Ready (Some (Push 7)); Pending; Ready (Some (UpdateAt 0 8)); Pending]) true 0) = Some (st, [Ready (Some 1)])
     /\ len_poll st = Some (st', Pending)).
Proof. split; do 2 eexists; split; reflexivity. Qed.

(** ** Several sources *)

(** In the poll that answers Pending after any run: the input has ended or was polled and
    answered Pending last; and so was the newest future, unless it is finished. *)
Theorem C43_map_future_rearms : forall A B (callback : nat -> A -> list (poll B)) script n st outs st',
  run (map_future_poll callback) n (map_future_init script) = Some (st, outs) ->
  map_future_poll callback st = Some (st', Pending) ->
  listening (snd (mf_signal st)) (snd (mf_signal st'))
  /\ (forall older k f, made (mf_future st') = older ++ [(k, f)] -> results (past f) = [] ->
        armed (source_no (made (mf_future st)) (length older)) f).
Proof. exact @map_future_wakes. Qed.
Print Assumptions C43_map_future_rearms.

(** throttle waits for the newest future if that is unfinished, and for the input otherwise. *)
Theorem C43_throttle_rearms : forall A (callback : nat -> list (poll unit)) (script : list (poll (option A))) n st outs st',
  run (throttle_poll callback) n (throttle_init script) = Some (st, outs) ->
  throttle_poll callback st = Some (st', Pending) ->
  (forall older k f, made (th_future st') = older ++ [(k, f)] -> results (past f) = [] ->
     armed (source_no (made (th_future st)) (length older)) f)
  /\ ((forall older k f, made (th_future st') = older ++ [(k, f)] -> results (past f) <> []) ->
     armed (snd (th_signal st)) (snd (th_signal st'))).
Proof. exact @throttle_wakes. Qed.
Print Assumptions C43_throttle_rearms.

Theorem C43_switch_rearms : forall A B (inner_of : nat -> A -> list (poll (option B))) script n st outs st',
  (forall k a, has_initial (inner_of k a)) ->
  run (switch_poll inner_of) n (switch_init script) = Some (st, outs) ->
  switch_poll inner_of st = Some (st', Pending) ->
  listening (snd (fl_signal st)) (snd (fl_signal st'))
  /\ (forall older a f, made (fl_inner st') = older ++ [(a, f)] ->
        listening (source_no (made (fl_inner st)) (length older)) f).
Proof. exact @switch_wakes. Qed.
Print Assumptions C43_switch_rearms.

Theorem C43_map_mut_rearms : forall A B (f : list A -> list A * B) (scripts : list (list (poll (option A)))) n is outs is',
  run (map_mut_poll f) n (map_mut_init scripts) = Some (is, outs) ->
  map_mut_poll f is = Some (is', Pending) ->
  Forall2 listening (map (fun i => snd (mr_signal i)) is) (map (fun i => snd (mr_signal i)) is').
Proof. exact @map_mut_wakes. Qed.
Print Assumptions C43_map_mut_rearms.

Theorem C43_map_ref_rearms : forall A B (f : list A -> B) (scripts : list (list (poll (option A)))) n is outs is',
  run (map_ref_poll f) n (map_mut_init scripts) = Some (is, outs) ->
  map_ref_poll f is = Some (is', Pending) ->
  Forall2 listening (map (fun i => snd (mr_signal i)) is) (map (fun i => snd (mr_signal i)) is').
Proof. intros A B f. exact (map_mut_wakes (fun vs => (vs, f vs))). Qed.
Print Assumptions C43_map_ref_rearms.

(** for_each waits for the future of the value it handed out last, or for the input. *)
Theorem C43_for_each_rearms : forall A (f : nat -> A -> list (poll unit)) script n st st',
  run_future (for_each_poll f) n (for_each_init script) = Some (st, None) ->
  for_each_poll f st = Some (st', Pending) ->
  (forall older k g, made (snd st') = older ++ [(k, g)] -> results (past g) = [] ->
     armed (source_no (made (snd st)) (length older)) g)
  /\ ((forall older k g, made (snd st') = older ++ [(k, g)] -> results (past g) <> []) ->
     armed (fst st) (fst st')).
Proof. exact @for_each_wakes. Qed.
Print Assumptions C43_for_each_rearms.

Example C43_several_ex :
  (exists st st', run (switch_poll (fun _ a => [Ready (Some (a * 10)); Pending])) 1 (switch_init [Ready (Some 1); Pending])
       = Some (st, [Ready (Some 10)])
     /\ switch_poll (fun _ a => [Ready (Some (a * 10)); Pending]) st = Some (st', Pending))
  /\ (exists st st', run (throttle_poll (fun _ => [Pending; Pending; Ready tt])) 1 (throttle_init [Ready (Some 1); Ready (Some 2)])
       = Some (st, [Ready (Some 1)])
     /\ throttle_poll (fun _ => [Pending; Pending; Ready tt]) st = Some (st', Pending))
  /\ (exists st st', run_future (for_each_poll (fun _ _ => [Pending; Pending; Ready tt])) 1 (for_each_init [Ready (Some 1); Ready (Some 2)])
       = Some (st, None)
     /\ for_each_poll (fun _ _ => [Pending; Pending; Ready tt]) st = Some (st', Pending))
  /\ (exists st st', run (map_future_poll (fun _ _ => [Pending; Pending; Ready 5])) 1 (map_future_init [Ready (Some 1)])
       = Some (st, [Ready (Some None)])
     /\ map_future_poll (fun _ _ => [Pending; Pending; Ready 5]) st = Some (st', Pending))
  /\ (exists st st', run (map_ref_poll (fun l => list_sum l)) 1 (map_mut_init [[Ready (Some 1); Pending]; [Ready (Some 2); Ready None]])
       = Some (st, [Ready (Some 3)])
     /\ map_ref_poll (fun l => list_sum l) st = Some (st', Pending)).
Proof. repeat split; do 2 eexists; split; reflexivity. Qed.
