(** Signals built from several shared sources: which value each of them is meant to show.

    A combinator learns about its inputs only through the answers that they give to its polls. So what a combinator
    has done so far is the run of its model on the answers that its inputs have given so far, whatever other
    threads did between those answers. [gives k outs R] says how the answers [outs] of a signal came about, from
    the subscribers of shared containers (Shared.v, Mutable.v) up through the combinators, and that the signal is
    meant to show a value with property [R] in the present state of the containers. *)
From Coq Require Import Permutation.
From Verif Require Import Base Conc Spec Mpsc VecDiff VecSpec MapDiff MapSpec SortSpec Shared Mutable MutableFacts7 Broadcaster Sig SigSlots SigFlatFacts
  VecToSignal VecSimple Sort Chain ElemSignal Flatten SwitchVec MapComb Slot Views FlattenSpec FilterSignalSpec.

(** ** Signal, SignalVec, SignalMap *)
Inductive kind : Type :=
| KSig (A : Type) : kind
| KVec (A : Type) : kind
| KMap {K : Type} (cmp : K -> K -> comparison) (A : Type) : kind.

(** What its answers carry. *)
Definition item (k : kind) : Type := match k with KSig A => A | KVec A => vecdiff A | @KMap K _ A => mapdiff K A end.
(** What it shows. *)
Definition shown (k : kind) : Type := match k with KSig A => A | KVec A => list A | @KMap K _ A => list (K * A) end.
(** What the values or diffs received say: the last value; the result of applying all of them. *)
Definition says (k : kind) : list (item k) -> shown k -> Prop :=
  match k with
  | KSig A => fun vs v => exists before, vs = before ++ [v]
  | KVec A => fun ds l => replay ds = Some l
  | KMap cmp A => fun ds l => mreplay cmp ds = Some l
  end.
(** The diffs can be applied. *)
Definition valid (k : kind) : list (item k) -> Prop :=
  match k with
  | KSig A => fun _ => True
  | KVec A => fun ds => replay ds <> None
  | KMap cmp A => fun ds => mreplay cmp ds <> None /\ ascending_entries cmp ds
  end.
Definition answers (k : kind) : Type := list (poll (option (item k))).
(** Up to date for the moment: Pending was the last answer, or it has ended. *)
Definition caught_up {X} (outs : list (poll (option X))) : Prop := last_out outs Pending \/ In (Ready None) outs.

(** ** Combinators with one input *)
(** inspect, eq, neq, to_signal_vec (signal.rs 1219-1242, 1139-1173, 1179-1213, 1408-1421; Sig.v) *)
Definition inspect_mach {A} : mach A A := mkMach _ [] (@inspect_poll A).
Definition eq_mach {A} (eqb : A -> A -> bool) (v : A) : mach A bool := mkMach _ None (eq_poll eqb v).
Definition neq_mach {A} (eqb : A -> A -> bool) (v : A) : mach A bool := mkMach _ None (neq_poll eqb v).
Definition to_vec_mach {A} : mach (list A) (vecdiff A) := mkMach _ tt (@to_signal_vec_poll A).

(** [comb a b m pre Rm]: from [a] to [b], by machine [m]; what it shows is related by [Rm] to what its input shows; as long as
    the diffs of its input are as [pre] says. *)
Definition any {X} (x : X) : Prop := True.
Inductive comb : forall a b : kind, mach (item a) (item b) -> (list (item a) -> Prop) -> (shown a -> shown b -> Prop) -> Prop :=
(* Signal to Signal *)
| c_map A B (f : A -> B) : comb (KSig A) (KSig B) (map_mach f) any (fun a b => b = f a)
| c_inspect A : comb (KSig A) (KSig A) inspect_mach any (fun a b => b = a)
| c_eq A (eqb : A -> A -> bool) v : comb (KSig A) (KSig bool) (eq_mach eqb v) any (fun a b => b = eqb a v)
| c_neq A (eqb : A -> A -> bool) v : comb (KSig A) (KSig bool) (neq_mach eqb v) any (fun a b => b = negb (eqb a v))
| c_dedupe A (eqb : A -> A -> bool) : lawful eqb -> comb (KSig A) (KSig A) (dedupe_mach eqb) any (fun a b => b = a)
(* Signal to SignalVec *)
| c_to_vec A : comb (KSig (list A)) (KVec A) to_vec_mach any (fun l l' => l' = l)
(* SignalVec to SignalVec *)
| c_vmap A B (f : A -> B) : comb (KVec A) (KVec B) (vmap_mach f) any (fun l l' => l' = map f l)
| c_debug A : comb (KVec A) (KVec A) debug_mach any (fun l l' => l' = l)
| c_filter A (p : A -> bool) : comb (KVec A) (KVec A) (filter_mach p) (backward_moves_ok p) (fun l l' => l' = filter p l)
| c_filter_map A B (f : A -> option B) : comb (KVec A) (KVec B) (filter_map_mach f) (backward_moves_ok (fun a => match f a with Some _ => true | None => false end))
    (fun l l' => l' = flat_map (fun a => match f a with Some b => [b] | None => [] end) l)
| c_sort A (compare : A -> A -> comparison) : total_preorder compare -> comb (KVec A) (KVec A) (sort_mach compare) any (stable_sort_of compare)
(* SignalVec to Signal *)
| c_to_signal A B (f : list A -> B) : comb (KVec A) (KSig B) (to_signal_mach f) any (fun l b => b = f l)
| c_sum A (sum : list A -> A) : (forall l l', Permutation l l' -> sum l = sum l') -> comb (KVec A) (KSig A) (sum_mach sum) any (fun l b => b = sum l)
| c_len A : comb (KVec A) (KSig nat) len_mach any (fun l b => b = length l)
| c_is_empty A : comb (KVec A) (KSig bool) is_empty_mach any (fun l b => b = true <-> l = [])
(* SignalMap *)
| c_map_value K (cmp : K -> K -> comparison) A B (f : A -> B) : total_order cmp ->
    comb (KMap cmp A) (KMap cmp B) (map_value_mach f) any (fun l l' => l' = map (fun '(k, v) => (k, f v)) l)
| c_keys K (cmp : K -> K -> comparison) A : total_order cmp -> comb (KMap cmp A) (KVec K) (keys_mach cmp) any (fun l l' => l' = map fst l)
| c_entries K (cmp : K -> K -> comparison) A : total_order cmp -> comb (KMap cmp A) (KVec (K * A)) (entries_mach cmp) any (fun l l' => l' = l)
| c_key K (cmp : K -> K -> comparison) A (key_eq : K -> K -> bool) k : total_order cmp -> lawful key_eq ->
    comb (KMap cmp A) (KSig (option A)) (key_mach key_eq k) any (fun l o => forall v, o = Some v <-> In (k, v) l).

(** ** The relation *)
Inductive gives : forall k : kind, answers k -> (shown k -> Prop) -> Prop :=

(* A SignalVec of a MutableVec. No call is in progress; whoever polled it has not been woken since it last said Pending. *)
| g_mutable_vec A (v : list A) acts st id s :
    exec vec_step (sh_init v) acts = Some st -> nth_error (chans st) id = Some s -> calive s = true ->
    ready st = true -> failing st = false -> poisoned st = false -> cwoken s = false ->
    gives (KVec A) (cgot s) (fun l => l = contents st)

(* A SignalMap of a MutableBTreeMap, in the same way. *)
| g_mutable_map K (cmp : K -> K -> comparison) A (m : list (K * A)) acts st id s :
    total_order cmp -> is_map cmp m -> exec (Shared.map_step cmp) (sh_init m) acts = Some st -> nth_error (chans st) id = Some s -> calive s = true ->
    ready st = true -> cwoken s = false ->
    gives (KMap cmp A) (cgot s) (fun l => l = contents st)

(* A Signal of a Mutable: no call is in progress, the signal has not been woken since it last answered; and its last poll did
   not race with a waker (C46_woken_refuted), and if it has ended then not with a change pending (C47_last_value_refuted). *)
| g_mutable A (d : A) l s k :
    exec mu_step (mu_init d) l = Some s -> mu_quiet s -> k < m_nsig s -> g_pc (m_sig s k) = GIdle -> g_raced (m_sig s k) = false ->
    ~ In (k, g_polls (m_sig s k)) (m_woken s) -> (In (Ready None) (g_ans (m_sig s k)) -> g_changed (m_sig s k) = false) ->
    gives (KSig A) (g_ans (m_sig s k)) (fun v => v = val_of s k)

(* Any other source that keeps its promises. *)
| g_other k outs (R : shown k -> Prop) :
    valid k (yielded outs) -> (caught_up outs -> exists x, says k (yielded outs) x /\ R x) -> gives k outs R

(* A combinator with one input. *)
| g_comb a b m pre Rm inp n st outs R :
    comb a b m pre Rm -> gives a inp R -> pre (yielded inp) ->
    run (mpoll m) n (minit m, fresh inp) = Some ((st, mkSrc inp []), outs) ->
    gives b outs (fun y => exists x, R x /\ Rm x y)

(* A signal of a Broadcaster, by signal_ref with function k_fn: no poll and no call of a waker is in progress, it was not woken
   since its last poll, and that poll did not race (C54_overlap_refuted). *)
| g_broadcaster A B (f0 : A -> B) l s i (R : A -> Prop) :
    exec bc_step (bc_init f0) l = Some s -> bc_idle s -> i < b_n s -> k_alive (b_kids s i) = true ->
    k_raced (b_kids s i) = false -> k_woken (b_kids s i) = false -> gives (KSig A) (b_log s) R ->
    gives (KSig B) (k_ans (b_kids s i)) (fun b => exists a, R a /\ b = k_fn (b_kids s i) a)

(* map_ref! and map_mut!, and, or: any number of inputs. *)
| g_map_ref A B (f : list A -> B) inps n is outs (R : nat -> A -> Prop) :
    inps <> [] -> Forall has_initial inps -> (forall i inp, nth_error inps i = Some inp -> gives (KSig A) inp (R i)) ->
    run (map_ref_poll f) n (map_mut_init inps) = Some (is, outs) -> map (fun i => past (snd (mr_signal i))) is = inps ->
    gives (KSig B) outs (fun b => exists vs, length vs = length inps /\ (forall i v, nth_error vs i = Some v -> R i v) /\ b = f vs)

(* switch, flatten: the k-th inner signal, made for value a, answers as inner_of k a says. *)
| g_switch A B (inner_of : nat -> A -> list (poll (option B))) inp n st outs (R : A -> Prop) (Q : A -> B -> Prop) :
    gives (KSig A) inp R -> (forall k a, has_initial (inner_of k a)) ->
    run (switch_poll inner_of) n (switch_init inp) = Some (st, outs) -> past (snd (fl_signal st)) = inp ->
    (forall older a f, made (fl_inner st) = older ++ [(a, f)] -> gives (KSig B) (past f) (Q a)) ->
    gives (KSig B) outs (fun b => exists a, R a /\ Q a b)

(* chain. It misses wake-ups when an input empties itself although it is empty (C23_chain_refuted). *)
| g_chain A left right n st outs (R1 R2 : list A -> Prop) :
    gives (KVec A) left R1 -> gives (KVec A) right R2 -> never_empties_empty (yielded left) -> never_empties_empty (yielded right) ->
    run chain_poll n (chain_init left right) = Some (st, outs) -> past (snd (ch_left st)) = left -> past (snd (ch_right st)) = right ->
    gives (KVec A) outs (fun l => exists l1 l2, R1 l1 /\ R2 l2 /\ l = l1 ++ l2)

(* map_signal: every element has a signal; [Q k] is what the signal of element k is meant to show. *)
| g_map_signal K B (inner_of : K -> list (poll (option B))) inp n st outs (R : list K -> Prop) (Q : K -> B -> Prop) :
    gives (KVec K) inp R -> (forall k, has_initial (inner_of k)) ->
    run (map_signal_poll inner_of) n (map_signal_init inp) = Some (st, outs) -> past (snd (mas_signal st)) = inp ->
    (forall m, In m (mas_signals st) -> gives (KSig B) (past (snd (ms_signal m))) (Q (ms_origin m))) ->
    gives (KVec B) outs (fun l => exists ks, R ks /\ Forall2 Q ks l)

(* filter_signal_cloned, if no element moves towards the front right after one that is filtered out (C15_filter_signal_refuted). *)
| g_filter_signal K (inner_of : K -> list (poll (option bool))) inp n st outs (R : list K -> Prop) (Q : K -> bool -> Prop) :
    gives (KVec K) inp R -> (forall k, has_initial (inner_of k)) ->
    filter_fine inner_of inp n ->
    run (filter_signal_poll inner_of) n (filter_signal_init inp) = Some (st, outs) -> past (snd (fis_signal st)) = inp ->
    (forall f, In f (fis_signals st) -> gives (KSig bool) (past (snd (fs_signal f))) (Q (fs_value f))) ->
    gives (KVec K) outs (fun l => exists ks bs, R ks /\ Forall2 Q ks bs /\ l = map fst (filter snd (combine ks bs)))

(* flatten of a SignalVec of SignalVecs, if elements are removed one by one only when they are empty, and moved past empty ones only
   (C13_flatten_refuted). *)
| g_flatten K A (inner_of : K -> list (poll (option (vecdiff A)))) inp n st outs (R : list K -> Prop) (Q : K -> list A -> Prop) :
    gives (KVec K) inp R -> (forall k, good_vec_script (inner_of k)) -> flatten_fine inner_of inp n ->
    run (flatten_vec_poll inner_of) n (flatten_vec_init inp) = Some (st, outs) -> past (snd (fla_signal st)) = inp ->
    (forall f, In f (fla_inner st) -> gives (KVec A) (past (snd (fv_signal_vec f))) (Q (fv_origin f))) ->
    gives (KVec A) outs (fun l => exists ks ls, R ks /\ Forall2 Q ks ls /\ l = concat ls)

(* switch_signal_vec, unless the present inner SignalVec ended at once (C22_switch_signal_vec_refuted). *)
| g_switch_vec A B (inner_of : nat -> A -> list (poll (option (vecdiff B)))) inp n st outs (R : A -> Prop) (Q : A -> list B -> Prop) :
    gives (KSig A) inp R -> (forall k a, good_vec_script (inner_of k a)) ->
    run (switch_vec_poll inner_of) n (switch_vec_init inp) = Some (st, outs) -> past (snd (swv_signal st)) = inp ->
    (forall older a f, made (swv_inner st) = older ++ [(a, f)] -> past f <> [Ready None]) ->
    (forall older a f, made (swv_inner st) = older ++ [(a, f)] -> gives (KVec B) (past f) (Q a)) ->
    gives (KVec B) outs (fun l => exists a, R a /\ Q a l)

(* map_value_signal of a SignalMap *)
| g_map_value_signal K (cmp : K -> K -> comparison) V B (inner_of : V -> list (poll (option B))) inp n st outs
    (R : list (K * V) -> Prop) (Q : V -> B -> Prop) :
    total_order cmp -> gives (KMap cmp V) inp R -> (forall v, has_initial (inner_of v)) ->
    run (mvs_poll cmp inner_of) n (mvs_init inp) = Some (st, outs) -> past (snd (mvs_signal st)) = inp ->
    (forall e, In e (mvs_signals st) -> gives (KSig B) (past (snd (ms_signal (snd e)))) (Q (ms_origin (snd e)))) ->
    gives (KMap cmp B) outs (fun l => exists es, R es /\ Forall2 (fun e x => fst e = fst x /\ Q (snd e) (snd x)) es l).
