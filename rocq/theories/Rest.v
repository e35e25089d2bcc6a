(** A task that sleeps: which value the signal it polls is meant to show (C73).

    Compose.v takes for granted that no source is going to wake anybody. All that is known to the user is that the task was not woken since its last poll. So
    here a source need be silent only if the waker that it holds is that of the last poll ([asked], Alert.v). *)
From Coq Require Import Permutation.
From Verif Require Import Base Conc Spec Mpsc VecDiff VecSpec MapDiff MapSpec SortSpec Shared Mutable MutableFacts7 Broadcaster Sig SigSlots SigFlatFacts
  VecToSignal VecSimple Sort Chain ElemSignal Flatten SwitchVec MapComb MapValueSignalFacts Slot Views FlattenSpec FilterSignalSpec Compose Alert.

(** [rests k before after R]: a task was polled, and in this poll the answers of something went from [before] to [after]; since then the task was not woken.
    [R] is what should be shown in the present state of the sources. *)
Inductive rests : forall k : kind, answers k -> answers k -> (shown k -> Prop) -> Prop :=
| r_mutable_vec A (v : list A) acts st id s before :
    exec vec_step (sh_init v) acts = Some st -> nth_error (chans st) id = Some s -> calive s = true ->
    ready st = true -> failing st = false -> poisoned st = false -> (asked before (cgot s) -> cwoken s = false) ->
    rests (KVec A) before (cgot s) (fun l => l = contents st)
| r_mutable_map K (cmp : K -> K -> comparison) A (m : list (K * A)) acts st id s before :
    total_order cmp -> is_map cmp m -> exec (Shared.map_step cmp) (sh_init m) acts = Some st -> nth_error (chans st) id = Some s -> calive s = true ->
    ready st = true -> (asked before (cgot s) -> cwoken s = false) ->
    rests (KMap cmp A) before (cgot s) (fun l => l = contents st)
| r_mutable A (d : A) l s k before :
    exec mu_step (mu_init d) l = Some s -> mu_quiet s -> k < m_nsig s -> g_pc (m_sig s k) = GIdle -> g_raced (m_sig s k) = false ->
    (asked before (g_ans (m_sig s k)) -> ~ In (k, g_polls (m_sig s k)) (m_woken s)) ->
    (In (Ready None) (g_ans (m_sig s k)) -> g_changed (m_sig s k) = false) ->
    rests (KSig A) before (g_ans (m_sig s k)) (fun v => v = val_of s k)
(* Any other source that keeps its promises. *)
| r_other k before outs (R : shown k -> Prop) :
    valid k (yielded outs) -> (asked before outs -> exists x, says k (yielded outs) x /\ R x) -> rests k before outs R
(* What has ended is as in Compose.v. *)
| r_over k before outs R : gives k outs R -> In (Ready None) outs -> rests k before outs R
(* A Broadcaster. Its input is polled with the waker of the Broadcaster, which wakes all its signals; [earlier]: the answers of the input before its last poll. *)
| r_broadcaster A B (f0 : A -> B) l s i before earlier more (R : A -> Prop) :
    exec bc_step (bc_init f0) l = Some s -> bc_idle s -> i < b_n s -> k_alive (b_kids s i) = true ->
    k_raced (b_kids s i) = false -> (asked before (k_ans (b_kids s i)) -> k_woken (b_kids s i) = false) ->
    b_log s = earlier ++ more -> more <> [] -> rests (KSig A) earlier (b_log s) R ->
    rests (KSig B) before (k_ans (b_kids s i)) (fun b => exists a, R a /\ b = k_fn (b_kids s i) a)

(* Combinators: the last poll begins in state [st] and ends in [st'] with Pending; all answers of the inputs up to then are in the script. *)
| r_comb a b m pre Rm inp n st sr outs st' before more R :
    comb a b m pre Rm -> pre (yielded inp) -> run (mpoll m) n (minit m, fresh inp) = Some ((st, sr), outs) -> ~ In (Ready None) outs -> outs = before ++ more ->
    mpoll m (st, sr) = Some ((st', mkSrc inp []), Pending) -> rests a (past sr) inp R ->
    rests b before (outs ++ [Pending]) (fun y => exists x, R x /\ Rm x y)

| r_map_ref A B (f : list A -> B) inps n is outs is' before more (R : nat -> A -> Prop) :
    inps <> [] -> Forall has_initial inps ->
    run (map_ref_poll f) n (map_mut_init inps) = Some (is, outs) -> ~ In (Ready None) outs -> outs = before ++ more -> map_ref_poll f is = Some (is', Pending) ->
    map (fun i => past (snd (mr_signal i))) is' = inps ->
    (forall i x x', nth_error is i = Some x -> nth_error is' i = Some x' -> rests (KSig A) (past (snd (mr_signal x))) (past (snd (mr_signal x'))) (R i)) ->
    rests (KSig B) before (outs ++ [Pending]) (fun b => exists vs, length vs = length inps /\ (forall i v, nth_error vs i = Some v -> R i v) /\ b = f vs)

| r_switch A B (inner_of : nat -> A -> list (poll (option B))) inp n st outs st' before more (R : A -> Prop) (Q : A -> B -> Prop) :
    (forall k a, has_initial (inner_of k a)) ->
    run (switch_poll inner_of) n (switch_init inp) = Some (st, outs) -> ~ In (Ready None) outs -> outs = before ++ more ->
    switch_poll inner_of st = Some (st', Pending) -> past (snd (fl_signal st')) = inp ->
    rests (KSig A) (past (snd (fl_signal st))) inp R ->
    (forall older a f, made (fl_inner st') = older ++ [(a, f)] -> rests (KSig B) (past (source_no (made (fl_inner st)) (length older))) (past f) (Q a)) ->
    rests (KSig B) before (outs ++ [Pending]) (fun b => exists a, R a /\ Q a b)

| r_chain A left right n st outs (st' : chain_state A) before more (R1 R2 : list A -> Prop) :
    good_vec_script left -> good_vec_script right -> never_empties_empty (yielded left) -> never_empties_empty (yielded right) ->
    run chain_poll n (chain_init left right) = Some (st, outs) -> ~ In (Ready None) outs -> outs = before ++ more -> chain_poll st = Some (st', Pending) ->
    past (snd (ch_left st')) = left -> past (snd (ch_right st')) = right ->
    rests (KVec A) (past (snd (ch_left st))) left R1 -> rests (KVec A) (past (snd (ch_right st))) right R2 ->
    rests (KVec A) before (outs ++ [Pending]) (fun l => exists l1 l2, R1 l1 /\ R2 l2 /\ l = l1 ++ l2)

| r_map_signal K B (inner_of : K -> list (poll (option B))) inp n st outs st' before more (R : list K -> Prop) (Q : K -> B -> Prop) :
    (forall k, has_initial (inner_of k)) -> good_vec_script inp ->
    run (map_signal_poll inner_of) n (map_signal_init inp) = Some (st, outs) -> ~ In (Ready None) outs -> outs = before ++ more ->
    map_signal_poll inner_of st = Some (st', Pending) -> past (snd (mas_signal st')) = inp ->
    rests (KVec K) (past (snd (mas_signal st))) inp R ->
    (forall i x x', nth_error (mas_signals st) i = Some x -> nth_error (mas_signals st') i = Some x' ->
       rests (KSig B) (past (snd (ms_signal x))) (past (snd (ms_signal x'))) (Q (ms_origin x'))) ->
    rests (KVec B) before (outs ++ [Pending]) (fun l => exists ks, R ks /\ Forall2 Q ks l)

| r_filter_signal K (inner_of : K -> list (poll (option bool))) inp n st outs st' before more (R : list K -> Prop) (Q : K -> bool -> Prop) :
    (forall k, has_initial (inner_of k)) -> good_vec_script inp ->
    filter_fine inner_of inp (S n) ->
    run (filter_signal_poll inner_of) n (filter_signal_init inp) = Some (st, outs) -> ~ In (Ready None) outs -> outs = before ++ more ->
    filter_signal_poll inner_of st = Some (st', Pending) -> past (snd (fis_signal st')) = inp ->
    rests (KVec K) (past (snd (fis_signal st))) inp R ->
    (forall new l i x x', yielded inp = yielded (past (snd (fis_signal st))) ++ new ->
       carried (fun k => fresh (inner_of k)) new (map (fun f => snd (fs_signal f)) (fis_signals st)) = Some l ->
       nth_error l i = Some x -> nth_error (fis_signals st') i = Some x' -> rests (KSig bool) (past x) (past (snd (fs_signal x'))) (Q (fs_value x'))) ->
    rests (KVec K) before (outs ++ [Pending]) (fun l => exists ks bs, R ks /\ Forall2 Q ks bs /\ l = map fst (filter snd (combine ks bs)))

| r_flatten K A (inner_of : K -> list (poll (option (vecdiff A)))) inp n st outs st' before more (R : list K -> Prop) (Q : K -> list A -> Prop) :
    (forall k, good_vec_script (inner_of k)) -> good_vec_script inp -> flatten_fine inner_of inp (S n) ->
    run (flatten_vec_poll inner_of) n (flatten_vec_init inp) = Some (st, outs) -> ~ In (Ready None) outs -> outs = before ++ more ->
    flatten_vec_poll inner_of st = Some (st', Pending) -> past (snd (fla_signal st')) = inp ->
    rests (KVec K) (past (snd (fla_signal st))) inp R ->
    (forall new l i x x', yielded inp = yielded (past (snd (fla_signal st))) ++ new ->
       carried (fun k => fresh (inner_of k)) new (map (fun f => snd (fv_signal_vec f)) (fla_inner st)) = Some l ->
       nth_error l i = Some x -> nth_error (fla_inner st') i = Some x' -> rests (KVec A) (past x) (past (snd (fv_signal_vec x'))) (Q (fv_origin x'))) ->
    rests (KVec A) before (outs ++ [Pending]) (fun l => exists ks ls, R ks /\ Forall2 Q ks ls /\ l = concat ls)

| r_switch_vec A B (inner_of : nat -> A -> list (poll (option (vecdiff B)))) inp n st outs st' before more (R : A -> Prop) (Q : A -> list B -> Prop) :
    (forall k a, good_vec_script (inner_of k a)) ->
    run (switch_vec_poll inner_of) n (switch_vec_init inp) = Some (st, outs) -> ~ In (Ready None) outs -> outs = before ++ more ->
    switch_vec_poll inner_of st = Some (st', Pending) -> past (snd (swv_signal st')) = inp ->
    (forall older a f, made (swv_inner st') = older ++ [(a, f)] -> past f <> [Ready None]) ->
    rests (KSig A) (past (snd (swv_signal st))) inp R ->
    (forall older a f, made (swv_inner st') = older ++ [(a, f)] -> rests (KVec B) (past (source_no (made (swv_inner st)) (length older))) (past f) (Q a)) ->
    rests (KVec B) before (outs ++ [Pending]) (fun l => exists a, R a /\ Q a l)

| r_map_value_signal K (cmp : K -> K -> comparison) V B (inner_of : V -> list (poll (option B))) inp n st outs st' before more
    (R : list (K * V) -> Prop) (Q : V -> B -> Prop) :
    total_order cmp -> (forall v, has_initial (inner_of v)) -> good_map_script cmp inp ->
    run (mvs_poll cmp inner_of) n (mvs_init inp) = Some (st, outs) -> ~ In (Ready None) outs -> outs = before ++ more ->
    mvs_poll cmp inner_of st = Some (st', Pending) -> past (snd (mvs_signal st')) = inp ->
    rests (KMap cmp V) (past (snd (mvs_signal st))) inp R ->
    (forall i x x', nth_error (mvs_signals st) i = Some x -> nth_error (mvs_signals st') i = Some x' ->
       rests (KSig B) (past (snd (ms_signal (snd x)))) (past (snd (ms_signal (snd x')))) (Q (ms_origin (snd x')))) ->
    rests (KMap cmp B) before (outs ++ [Pending]) (fun l => exists es, R es /\ Forall2 (fun e x => fst e = fst x /\ Q (snd e) (snd x)) es l).
