(** SignalMap combinators: always, map_value, map_value_signal, key_cloned (signal_map.rs 183-467), and
    the SignalVec views of a MutableBTreeMap: signal_vec_keys, entries_cloned / signal_vec_entries
    (signal_map.rs 950-1040). *)
From Verif Require Import Base Spec VecDiff Slot Sort ElemSignal MapDiff.

(** ** signal_map.rs 183-217: Always *)
(** State: the field [map], as the list of the entries that its iterator yields. 196-206. *)
Definition map_always_poll {K V} (m : option (list (K * V)))
  : option (option (list (K * V)) * poll (option (mapdiff K V))) :=
  match m with
  | Some entries => Some (None, Ready (Some (MReplace entries)))
  | None => Some (None, Ready None)
  end.

(** ** signal_map.rs 220-242: MapValue *)
(** State: the log of the calls made to the closure (ghost). poll_map_change (237-241). *)
Definition map_value_step {K A B} (f : A -> B) (calls : list A) (change : mapdiff K A)
  : option (list A * option (mapdiff K B)) :=
  let '(out, c) := md_map f change in Some (calls ++ c, Some out).
Definition map_value_poll {K A B} (f : A -> B) := emit_poll (@map_value_step K A B f).

(** ** signal_map.rs 394-467: MapWatchKeySignal (key_cloned) *)
Section KeyCloned.
  Context {K V : Type} (key_eq : K -> K -> bool) (watch_key : K).

  (** 416-441: one change; the state is the local variable [changed]. *)
  Definition key_step (changed : option (option V)) (change : mapdiff K V) : option (option (option V)) :=
    Some match change with
         | MReplace entries => Some (option_map snd (find (fun entry => key_eq (fst entry) watch_key) entries))
         | MInsert key value | MUpdate key value => if key_eq key watch_key then Some (Some value) else changed
         | MRemove key => if key_eq key watch_key then Some None else changed
         | MClear => Some None
         end.

  (** 409-466: poll_change. The state: the field [first], and the source, which is no Option field:
      it is polled in every call. *)
  Definition key_poll (st : bool * src (option (mapdiff K V)))
    : option ((bool * src (option (mapdiff K V))) * poll (option (option V))) :=
    let '(first, signal_map) := st in
    let? (changed, signal_map', is_done) := loop_drain key_step None (past signal_map) (todo signal_map) in
    match changed with
    | Some change => Some ((false, signal_map'), Ready (Some change))
    | None =>
        if first then Some ((false, signal_map'), Ready (Some None))
        else if is_done then Some ((first, signal_map'), Ready None)
        else Some ((first, signal_map'), Pending)
    end.
End KeyCloned.

(** ** signal_map.rs 277-392: MapValueSignal *)
Section MapValueSignal.
  Context {K V B : Type} (cmp : K -> K -> comparison) (inner_of : V -> list (poll (option B))).

  (** 321-326: the closure over the entries of a Replace: [callback(value)], its first poll, and the
      insertion into [signals]. *)
  Fixpoint mvs_replace (signals : list (K * msig V B)) (entries : list (K * V))
    : option (list (K * msig V B) * list (K * B)) :=
    match entries with
    | [] => Some (signals, [])
    | (key, value) :: entries' =>
        let? (m, first) := ms_new inner_of value in
        let? (signals', polls) := mvs_replace (bt_insert cmp key m signals) entries' in
        Some (signals', (key, first) :: polls)
    end.

  (** 315-356: one change. The state: [signals] and the PendingBuilder (247-268). *)
  Definition mvs_step (s : list (K * msig V B) * list (mapdiff K B)) (change : mapdiff K V)
    : option (list (K * msig V B) * list (mapdiff K B)) :=
    let '(signals, pending) := s in
    match change with
    | MReplace entries =>
        let? (signals', polls) := mvs_replace [] entries in
        Some (signals', pending ++ [MReplace polls])
    | MInsert key value =>
        let? (m, first) := ms_new inner_of value in
        Some (bt_insert cmp key m signals, pending ++ [MInsert key first])
    | MUpdate key value =>
        let? (m, first) := ms_new inner_of value in
        let? _ := bt_get cmp key signals in
        Some (bt_insert cmp key m signals, pending ++ [MUpdate key first])
    | MRemove key => Some (bt_remove cmp key signals, pending ++ [MRemove key])
    | MClear => Some ([], pending ++ [MClear])
    end.

  (** 361-379: the loop over [signals], in key order. Returns [signals], the PendingBuilder and
      [has_pending]. *)
  Fixpoint mvs_poll_signals (pending : list (mapdiff K B)) (signals : list (K * msig V B))
    : list (K * msig V B) * list (mapdiff K B) * bool :=
    match signals with
    | [] => ([], pending, false)
    | (key, m) :: signals' =>
        let '(m', pending', has) :=
          match poll_slot (ms_signal m) with
          | (Some (Ready (Some value)), sl) => (mkMsig (ms_origin m) sl, pending ++ [MUpdate key value], false)
          | (Some (Ready None), sl) => (mkMsig (ms_origin m) (drop_slot sl), pending, false)
          | (Some Pending, sl) => (mkMsig (ms_origin m) sl, pending, true)
          | (None, sl) => (mkMsig (ms_origin m) sl, pending, false)
          end in
        let '(signals'', pending'', has') := mvs_poll_signals pending' signals' in
        ((key, m') :: signals'', pending'', has || has')
    end.

  (** 280-287: the fields of MapValueSignal *)
  Record mvs_state := mkMvs {
    mvs_signal : slot (option (mapdiff K V)); mvs_signals : list (K * msig V B); mvs_pending : list (mapdiff K B) }.

  (** 297-391: poll_map_change *)
  Definition mvs_poll (st : mvs_state) : option (mvs_state * poll (option (mapdiff K B))) :=
    match mvs_pending st with
    | diff :: rest => Some (mkMvs (mvs_signal st) (mvs_signals st) rest, Ready (Some diff))
    | [] =>
        let? ((signals, new_pending), signal', done) := drain_slot mvs_step (mvs_signals st, []) (mvs_signal st) in
        let '(signals', new_pending', has_pending) := mvs_poll_signals new_pending signals in
        match new_pending' with
        | first :: rest => Some (mkMvs signal' signals' rest, Ready (Some first))
        | [] => if done && negb has_pending then Some (mkMvs signal' signals' [], Ready None)
                else Some (mkMvs signal' signals' [], Pending)
        end
    end.

  (** 112-122: map_value_signal (constructor) *)
  Definition mvs_init (source : list (poll (option (mapdiff K V)))) : mvs_state := mkMvs (some_slot source) [] [].
End MapValueSignal.
Arguments mvs_state K V B : clear implicits.
Arguments mkMvs {K V B} mvs_signal mvs_signals mvs_pending.
Arguments mvs_signal {K V B} m.
Arguments mvs_signals {K V B} m.
Arguments mvs_pending {K V B} m.
Arguments mvs_init {K V B} source.

(** ** signal_map.rs 950-1040: MutableBTreeMapKeys and MutableBTreeMapEntries *)
Section Views.
  Context {K V : Type} (cmp : K -> K -> comparison).

  (** std: slice::binary_search *)
  Definition binary_search (keys : list K) (key : K) : option search :=
    binary_search_by (fun k => Some (cmp k key)) keys.
  (** [.unwrap_err()] and [.unwrap()] *)
  Definition search_err (keys : list K) (key : K) : option nat :=
    let? r := binary_search keys key in match r with NotFound i => Some i | Found _ => None end.
  Definition search_ok (keys : list K) (key : K) : option nat :=
    let? r := binary_search keys key in match r with Found i => Some i | NotFound _ => None end.

  (** 966-989: MutableBTreeMapKeys::poll_vec_change, for one change. The state: the field [keys]. *)
  Definition keys_step (keys : list K) (change : mapdiff K V) : option (list K * option (vecdiff K)) :=
    match change with
    | MReplace entries =>
        let keys' := map fst entries in
        Some (keys', Some (Replace keys'))
    | MInsert key _ =>
        let? index := search_err keys key in
        let? keys' := vinsert index key keys in
        Some (keys', Some (InsertAt index key))
    | MUpdate _ _ => Some (keys, None)
    | MRemove key =>
        let? index := search_ok keys key in
        let? (_, keys') := vremove index keys in
        Some (keys', Some (RemoveAt index))
    | MClear => Some ([], Some Clear)
    end.
  (** 963-994 *)
  Definition keys_poll := emit_poll keys_step.

  (** 1013-1037: MutableBTreeMapEntries::poll_vec_change, for one change. *)
  Definition entries_step (keys : list K) (change : mapdiff K V) : option (list K * option (vecdiff (K * V))) :=
    match change with
    | MReplace entries => Some (map fst entries, Some (Replace entries))
    | MInsert key value =>
        let? index := search_err keys key in
        let? keys' := vinsert index key keys in
        Some (keys', Some (InsertAt index (key, value)))
    | MUpdate key value =>
        let? index := search_ok keys key in
        Some (keys, Some (UpdateAt index (key, value)))
    | MRemove key =>
        let? index := search_ok keys key in
        let? (_, keys') := vremove index keys in
        Some (keys', Some (RemoveAt index))
    | MClear => Some ([], Some Clear)
    end.
  (** 1011-1039 *)
  Definition entries_poll := emit_poll entries_step.
End Views.
