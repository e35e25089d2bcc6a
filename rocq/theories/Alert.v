(** Which sources a signal built by combinators has asked for a wake-up when it answers Pending (C72).

    As in Compose.v, what a combinator did is the run of its model on the answers that its inputs gave. *)
From Verif Require Import Base Spec VecDiff VecSpec MapDiff MapSpec VecSimple Sig SigSlots Slot Chain ElemSignal Flatten SwitchVec MapComb MapValueSignalFacts
  DelayRemove Views Compose.

(** [before], [after]: the answers that something had given before a poll of whoever uses it, and after that poll. It is going to wake the task: it was polled,
    and Pending was the last answer. It need not if it has ended. *)
Definition asked {X} (before after : list (poll (option X))) : Prop :=
  In (Ready None) after \/ exists p, after = before ++ p ++ [Pending].

(** ** Combinators with one input: those of Compose.v, and *)
(** not, SignalDebug, DedupeMap, FilterMap, WaitFor, StopIf (signal.rs 606-609, 740-760, 1456-1478, 1532-1571, 1373-1402, 1098-1133; Sig.v), Enumerate
    (signal_vec.rs 1333-1456; VecSimple.v) *)
Inductive single : forall a b : kind, mach (item a) (item b) -> Prop :=
| s_comb a b m pre Rm : comb a b m pre Rm -> single a b m
| s_not : single (KSig bool) (KSig bool) (mkMach _ tt not_poll)
| s_debug A : single (KSig A) (KSig A) (mkMach _ tt (@debug_poll A))
| s_dedupe_map A B (eqb : A -> A -> bool) (f : A -> A * B) : single (KSig A) (KSig B) (mkMach _ (None, []) (dedupe_map_poll eqb f))
| s_filter_map A B (f : A -> option B) : single (KSig A) (KSig (option B)) (mkMach _ (true, []) (sig_filter_map_poll f))
| s_stop_if A (test : A -> bool) : single (KSig A) (KSig A) (mkMach _ (false, []) (stop_if_poll test))
| s_enumerate A : single (KVec A) (KVec (nat * A)) (mkMach _ en_init (@enumerate_poll A)).

(** ** The relation *)
(** [waits k before after W]: [before] and [after] are the answers of something before and after a poll of whoever uses it; [W] says that every source in use,
    down to the shared containers, was polled in this time and answered Pending last, unless it has ended. *)
Inductive waits : forall k : kind, answers k -> answers k -> Prop -> Prop :=
(* Any source. *)
| w_source k before after : waits k before after (asked before after)
(* What has ended needs no source any more. *)
| w_over k before after : In (Ready None) after -> waits k before after True
(* The last poll of a combinator begins in state [st]. *)
| w_single a b m inp n st sr outs st' sr' before more W :
    single a b m -> run (mpoll m) n (minit m, fresh inp) = Some ((st, sr), outs) -> ~ In (Ready None) outs -> outs = before ++ more ->
    mpoll m (st, sr) = Some ((st', sr'), Pending) -> waits a (past sr) (past sr') W ->
    waits b before (outs ++ [Pending]) W

| w_map_mut A B (f : list A -> list A * B) inps n is outs is' before more (W : nat -> Prop) :
    run (map_mut_poll f) n (map_mut_init inps) = Some (is, outs) -> outs = before ++ more -> map_mut_poll f is = Some (is', Pending) ->
    (forall i x x', nth_error is i = Some x -> nth_error is' i = Some x' -> waits (KSig A) (past (snd (mr_signal x))) (past (snd (mr_signal x'))) (W i)) ->
    waits (KSig B) before (outs ++ [Pending]) (forall i, i < length is' -> W i)

(* map_future: the input, and the newest future if it is not finished. *)
| w_map_future A B (callback : nat -> A -> list (poll B)) inp n st outs st' before more W :
    run (map_future_poll callback) n (map_future_init inp) = Some (st, outs) -> outs = before ++ more -> map_future_poll callback st = Some (st', Pending) ->
    waits (KSig A) (past (snd (mf_signal st))) (past (snd (mf_signal st'))) W ->
    waits (KSig (option B)) before (outs ++ [Pending])
      (W /\ forall older k f, made (mf_future st') = older ++ [(k, f)] -> results (past f) = [] -> armed (source_no (made (mf_future st)) (length older)) f)

(* throttle: the newest future, and once that is finished the input. *)
| w_throttle A (callback : nat -> list (poll unit)) inp n (st : th_state A) outs st' before more W :
    run (throttle_poll callback) n (throttle_init inp) = Some (st, outs) -> outs = before ++ more -> throttle_poll callback st = Some (st', Pending) ->
    waits (KSig A) (past (snd (th_signal st))) (past (snd (th_signal st'))) W ->
    waits (KSig A) before (outs ++ [Pending])
      ((forall older k f, made (th_future st') = older ++ [(k, f)] -> results (past f) = [] -> armed (source_no (made (th_future st)) (length older)) f)
       /\ ((forall older k f, made (th_future st') = older ++ [(k, f)] -> results (past f) <> []) -> W))

(* switch, flatten *)
| w_switch A B (inner_of : nat -> A -> list (poll (option B))) inp n st outs st' before more W (V : Prop) :
    (forall k a, has_initial (inner_of k a)) ->
    run (switch_poll inner_of) n (switch_init inp) = Some (st, outs) -> outs = before ++ more -> switch_poll inner_of st = Some (st', Pending) ->
    waits (KSig A) (past (snd (fl_signal st))) (past (snd (fl_signal st'))) W ->
    (forall older a f, made (fl_inner st') = older ++ [(a, f)] -> waits (KSig B) (past (source_no (made (fl_inner st)) (length older))) (past f) V) ->
    waits (KSig B) before (outs ++ [Pending]) (W /\ (made (fl_inner st') <> [] -> V))

(* chain, if no input empties itself although it is empty (C23_chain_refuted) *)
| w_chain A left right n st outs (st' : chain_state A) before more W V :
    good_vec_script left -> good_vec_script right -> never_empties_empty (yielded left) -> never_empties_empty (yielded right) ->
    run chain_poll n (chain_init left right) = Some (st, outs) -> ~ In (Ready None) outs -> outs = before ++ more -> chain_poll st = Some (st', Pending) ->
    waits (KVec A) (past (snd (ch_left st))) (past (snd (ch_left st'))) W ->
    waits (KVec A) (past (snd (ch_right st))) (past (snd (ch_right st'))) V ->
    waits (KVec A) before (outs ++ [Pending]) (W /\ V)

(* map_signal: the signals of all elements *)
| w_map_signal K B (inner_of : K -> list (poll (option B))) inp n st outs st' before more W (V : nat -> Prop) :
    (forall k, has_initial (inner_of k)) -> good_vec_script inp ->
    run (map_signal_poll inner_of) n (map_signal_init inp) = Some (st, outs) -> ~ In (Ready None) outs -> outs = before ++ more ->
    map_signal_poll inner_of st = Some (st', Pending) ->
    waits (KVec K) (past (snd (mas_signal st))) (past (snd (mas_signal st'))) W ->
    (forall i x x', nth_error (mas_signals st) i = Some x -> nth_error (mas_signals st') i = Some x' ->
       waits (KSig B) (past (snd (ms_signal x))) (past (snd (ms_signal x'))) (V i)) ->
    waits (KVec B) before (outs ++ [Pending]) (W /\ forall i, i < length (mas_signals st') -> V i)

(* filter_signal_cloned and flatten: [l] lists the states of the sources of the elements before the poll, with those of new elements put in, and those of
   removed elements taken out. *)
| w_filter_signal K (inner_of : K -> list (poll (option bool))) inp n st outs st' before more W (V : nat -> Prop) :
    (forall k, has_initial (inner_of k)) -> good_vec_script inp ->
    run (filter_signal_poll inner_of) n (filter_signal_init inp) = Some (st, outs) -> ~ In (Ready None) outs -> outs = before ++ more ->
    filter_signal_poll inner_of st = Some (st', Pending) ->
    waits (KVec K) (past (snd (fis_signal st))) (past (snd (fis_signal st'))) W ->
    (forall new l i x x', yielded (past (snd (fis_signal st'))) = yielded (past (snd (fis_signal st))) ++ new ->
       carried (fun k => fresh (inner_of k)) new (map (fun f => snd (fs_signal f)) (fis_signals st)) = Some l ->
       nth_error l i = Some x -> nth_error (fis_signals st') i = Some x' -> waits (KSig bool) (past x) (past (snd (fs_signal x'))) (V i)) ->
    waits (KVec K) before (outs ++ [Pending]) (W /\ forall i, i < length (fis_signals st') -> V i)
| w_flatten K A (inner_of : K -> list (poll (option (vecdiff A)))) inp n st outs st' before more W (V : nat -> Prop) :
    (forall k, good_vec_script (inner_of k)) -> good_vec_script inp ->
    run (flatten_vec_poll inner_of) n (flatten_vec_init inp) = Some (st, outs) -> ~ In (Ready None) outs -> outs = before ++ more ->
    flatten_vec_poll inner_of st = Some (st', Pending) ->
    waits (KVec K) (past (snd (fla_signal st))) (past (snd (fla_signal st'))) W ->
    (forall new l i x x', yielded (past (snd (fla_signal st'))) = yielded (past (snd (fla_signal st))) ++ new ->
       carried (fun k => fresh (inner_of k)) new (map (fun f => snd (fv_signal_vec f)) (fla_inner st)) = Some l ->
       nth_error l i = Some x -> nth_error (fla_inner st') i = Some x' -> waits (KVec A) (past x) (past (snd (fv_signal_vec x'))) (V i)) ->
    waits (KVec A) before (outs ++ [Pending]) (W /\ forall i, i < length (fla_inner st') -> V i)

(* delay_remove: the input, and the futures of the elements that are being removed *)
| w_delay_remove K (future_of : K -> list (poll unit)) inp n st outs st' before more W :
    good_vec_script inp -> run (delay_remove_poll future_of) n (delay_remove_init inp) = Some (st, outs) -> ~ In (Ready None) outs -> outs = before ++ more ->
    delay_remove_poll future_of st = Some (st', Pending) ->
    waits (KVec K) (past (snd (dlr_signal st))) (past (snd (dlr_signal st'))) W ->
    waits (KVec K) before (outs ++ [Pending])
      (W /\ Forall2 (fun f f' => dr_removing f' = true -> armed (dr_future f) (dr_future f')) (dlr_futures st) (dlr_futures st'))

| w_switch_vec A B (inner_of : nat -> A -> list (poll (option (vecdiff B)))) inp n st outs st' before more W (V : Prop) :
    (forall k a, good_vec_script (inner_of k a)) ->
    run (switch_vec_poll inner_of) n (switch_vec_init inp) = Some (st, outs) -> ~ In (Ready None) outs -> outs = before ++ more ->
    switch_vec_poll inner_of st = Some (st', Pending) ->
    waits (KSig A) (past (snd (swv_signal st))) (past (snd (swv_signal st'))) W ->
    (forall older a f, made (swv_inner st') = older ++ [(a, f)] -> waits (KVec B) (past (source_no (made (swv_inner st)) (length older))) (past f) V) ->
    waits (KVec B) before (outs ++ [Pending]) (W /\ (made (swv_inner st') <> [] -> V))

| w_map_value_signal K (cmp : K -> K -> comparison) A B (inner_of : A -> list (poll (option B))) inp n st outs st' before more W (V : nat -> Prop) :
    total_order cmp -> (forall v, has_initial (inner_of v)) -> good_map_script cmp inp ->
    run (mvs_poll cmp inner_of) n (mvs_init inp) = Some (st, outs) -> ~ In (Ready None) outs -> outs = before ++ more ->
    mvs_poll cmp inner_of st = Some (st', Pending) ->
    waits (KMap cmp A) (past (snd (mvs_signal st))) (past (snd (mvs_signal st'))) W ->
    (forall i x x', nth_error (mvs_signals st) i = Some x -> nth_error (mvs_signals st') i = Some x' ->
       waits (KSig B) (past (snd (ms_signal (snd x)))) (past (snd (ms_signal (snd x')))) (V i)) ->
    waits (KMap cmp B) before (outs ++ [Pending]) (W /\ forall i, i < length (mvs_signals st') -> V i).
