(** signal_vec.rs 1485-1874: MapSignal and FilterSignalCloned. The source yields values of type
    [K], from which the closure makes signals ([inner_of]). A closure that returns different
    signals for equal values is covered by a type [K] that tells these values apart. *)
From Verif Require Import Base Spec VecDiff Slot.

(** signal_vec.rs 1485-1490: [unwrap(signal.poll_change(cx))] for a signal just made by the
    closure; [None] = panic. *)
Definition first_value {B} (script : list (poll (option B))) : option (B * slot (option B)) :=
  match poll_slot (some_slot script) with
  | (Some (Ready (Some value)), signal') => Some (value, signal')
  | _ => None
  end.

(** ** signal_vec.rs 1492-1623: MapSignal *)

(** An element of [signals] (1499); [ms_origin]: the value it was made for (ghost). *)
Record msig (K B : Type) := mkMsig { ms_origin : K; ms_signal : slot (option B) }.
Arguments mkMsig {K B} ms_origin ms_signal.
Arguments ms_origin {K B} m.
Arguments ms_signal {K B} m.

Section MapSignal.
  Context {K B : Type} (inner_of : K -> list (poll (option B))).

  (** signal_vec.rs 1537-1539: [callback(value)] and its first poll. *)
  Definition ms_new (value : K) : option (msig K B * B) :=
    let? (first, signal) := first_value (inner_of value) in
    Some (mkMsig value signal, first).

  (** signal_vec.rs 1536-1541: the same for all values of a Replace. *)
  Fixpoint ms_new_all (values : list K) : option (list (msig K B) * list B) :=
    match values with
    | [] => Some ([], [])
    | value :: values' =>
        let? (m, first) := ms_new value in
        let? (ms, firsts) := ms_new_all values' in
        Some (m :: ms, first :: firsts)
    end.

  (** signal_vec.rs 1530-1585: one change. The state: [signals] and the PendingBuilder. *)
  Definition map_signal_step (s : list (msig K B) * list (vecdiff B)) (change : vecdiff K)
    : option (list (msig K B) * list (vecdiff B)) :=
    let '(signals, pending) := s in
    match change with
    | Replace values =>
        let? (signals', firsts) := ms_new_all values in
        Some (signals', pending ++ [Replace firsts])
    | InsertAt index value =>
        let? (m, first) := ms_new value in
        let? signals' := vinsert index m signals in
        Some (signals', pending ++ [InsertAt index first])
    | UpdateAt index value =>
        let? (m, first) := ms_new value in
        let? signals' := vset index m signals in
        Some (signals', pending ++ [UpdateAt index first])
    | Push value =>
        let? (m, first) := ms_new value in
        Some (signals ++ [m], pending ++ [Push first])
    | Move old_index new_index =>
        let? (value, signals') := vremove old_index signals in
        let? signals'' := vinsert new_index value signals' in
        Some (signals'', pending ++ [Move old_index new_index])
    | RemoveAt index =>
        let? (_, signals') := vremove index signals in
        Some (signals', pending ++ [RemoveAt index])
    | Pop =>
        let? (_, signals') := vpop signals in
        Some (signals', pending ++ [Pop])
    | Clear => Some ([], pending ++ [Clear])
    end.

  (** signal_vec.rs 1594-1609: the loop over [signals], from [index] on. Returns [signals], the
      PendingBuilder and [has_pending]. *)
  Fixpoint poll_signals (index : nat) (pending : list (vecdiff B)) (signals : list (msig K B))
    : list (msig K B) * list (vecdiff B) * bool :=
    match signals with
    | [] => ([], pending, false)
    | m :: signals' =>
        let '(m', pending', has) :=
          match poll_slot (ms_signal m) with
          | (Some (Ready (Some value)), sl) => (mkMsig (ms_origin m) sl, pending ++ [UpdateAt index value], false)
          | (Some (Ready None), sl) => (mkMsig (ms_origin m) (drop_slot sl), pending, false)
          | (Some Pending, sl) => (mkMsig (ms_origin m) sl, pending, true)
          | (None, sl) => (mkMsig (ms_origin m) sl, pending, false)
          end in
        let '(signals'', pending'', has') := poll_signals (S index) pending' signals' in
        (m' :: signals'', pending'', has || has')
    end.

  (** signal_vec.rs 1495-1502: the fields of MapSignal *)
  Record map_signal_state := mkMapSig {
    mas_signal : slot (option (vecdiff K)); mas_signals : list (msig K B); mas_pending : list (vecdiff B) }.

  (** signal_vec.rs 1510-1622: poll_vec_change *)
  Definition map_signal_poll (st : map_signal_state) : option (map_signal_state * poll (option (vecdiff B))) :=
    match mas_pending st with
    | diff :: rest => Some (mkMapSig (mas_signal st) (mas_signals st) rest, Ready (Some diff))
    | [] =>
        let? ((signals, new_pending), signal', done) := drain_slot map_signal_step (mas_signals st, []) (mas_signal st) in
        let '(signals', new_pending', has_pending) := poll_signals 0 new_pending signals in
        match new_pending' with
        | first :: rest => Some (mkMapSig signal' signals' rest, Ready (Some first))
        | [] => if done && negb has_pending then Some (mkMapSig signal' signals' [], Ready None)
                else Some (mkMapSig signal' signals' [], Pending)
        end
    end.

  (** signal_vec.rs 210-220: map_signal (constructor): no signals, nothing pending. *)
  Definition map_signal_init (source : list (poll (option (vecdiff K)))) : map_signal_state :=
    mkMapSig (some_slot source) [] [].
End MapSignal.
Arguments map_signal_state K B : clear implicits.
Arguments mkMapSig {K B} mas_signal mas_signals mas_pending.
Arguments mas_signal {K B} m.
Arguments mas_signals {K B} m.
Arguments mas_pending {K B} m.
Arguments map_signal_init {K B} source.

(** ** signal_vec.rs 1625-1874: FilterSignalCloned *)

(** signal_vec.rs 1626-1631: FilterSignalClonedState *)
Record fsig (K : Type) := mkFsig { fs_signal : slot (option bool); fs_value : K; fs_exists : bool }.
Arguments mkFsig {K} fs_signal fs_value fs_exists.
Arguments fs_signal {K} f.
Arguments fs_value {K} f.
Arguments fs_exists {K} f.

Section FilterSignal.
  Context {K : Type} (inner_of : K -> list (poll (option bool))).

  (** signal_vec.rs 1645-1647: find_index; slicing panics if [index > len]. *)
  Definition fs_find_index (signals : list (fsig K)) (index : nat) : option nat :=
    if index <=? length signals then Some (length (filter fs_exists (firstn index signals))) else None.

  (** signal_vec.rs 1680-1687: [callback(value)], its first poll, and the new state. *)
  Definition fs_new (value : K) : option (fsig K) :=
    let? (poll, signal) := first_value (inner_of value) in
    Some (mkFsig signal value poll).

  (** signal_vec.rs 1679-1690: the same for all values of a Replace; [filter] keeps the values
      whose signal is true. *)
  Fixpoint fs_new_all (values : list K) : option (list (fsig K) * list K) :=
    match values with
    | [] => Some ([], [])
    | value :: values' =>
        let? f := fs_new value in
        let? (fs, kept) := fs_new_all values' in
        Some (f :: fs, if fs_exists f then value :: kept else kept)
    end.

  (** signal_vec.rs 1672-1809: one change. The state: [signals] and the PendingBuilder. *)
  Definition filter_signal_step (s : list (fsig K) * list (vecdiff K)) (change : vecdiff K)
    : option (list (fsig K) * list (vecdiff K)) :=
    let '(signals, pending) := s in
    match change with
    | Replace values =>
        let? (signals', kept) := fs_new_all values in
        Some (signals', pending ++ [Replace kept])
    | InsertAt index value =>
        let? f := fs_new value in
        let? signals' := vinsert index f signals in
        if fs_exists f then
          let? i := fs_find_index signals' index in
          Some (signals', pending ++ [InsertAt i value])
        else Some (signals', pending)
    | UpdateAt index value =>
        let? f := fs_new value in
        let? old := nth_error signals index in
        let? signals' := vset index f signals in
        if fs_exists f then
          let? i := fs_find_index signals' index in
          if fs_exists old then Some (signals', pending ++ [UpdateAt i value])
          else Some (signals', pending ++ [InsertAt i value])
        else
          if fs_exists old then
            let? i := fs_find_index signals' index in
            Some (signals', pending ++ [RemoveAt i])
          else Some (signals', pending)
    | Push value =>
        let? f := fs_new value in
        if fs_exists f then Some (signals ++ [f], pending ++ [Push value])
        else Some (signals ++ [f], pending)
    | Move old_index new_index =>
        let? (state, signals') := vremove old_index signals in
        let? signals'' := vinsert new_index state signals' in
        if fs_exists state then
          let? o := fs_find_index signals'' old_index in
          let? n := fs_find_index signals'' new_index in
          Some (signals'', pending ++ [Move o n])
        else Some (signals'', pending)
    | RemoveAt index =>
        let? (state, signals') := vremove index signals in
        if fs_exists state then
          let? i := fs_find_index signals' index in
          Some (signals', pending ++ [RemoveAt i])
        else Some (signals', pending)
    | Pop =>
        let? (state, signals') := vpop signals in
        if fs_exists state then Some (signals', pending ++ [Pop]) else Some (signals', pending)
    | Clear => Some ([], pending ++ [Clear])
    end.

  (** signal_vec.rs 1822-1858: the loop over [signals], from [real_index] on. Returns [signals],
      the PendingBuilder and [has_pending]. *)
  Fixpoint poll_filters (real_index : nat) (pending : list (vecdiff K)) (signals : list (fsig K))
    : option (list (fsig K) * list (vecdiff K) * bool) :=
    match signals with
    | [] => Some ([], pending, false)
    | f :: signals' =>
        let old := fs_exists f in
        let? (new, signal', ended) := drain_slot (fun _ exists_ => Some exists_) old (fs_signal f) in
        let pending' := if Bool.eqb new old then pending
                        else if new then pending ++ [InsertAt real_index (fs_value f)]
                        else pending ++ [RemoveAt real_index] in
        let? (signals'', pending'', has) :=
          poll_filters (if new then real_index + 1 else real_index) pending' signals' in
        Some (mkFsig signal' (fs_value f) new :: signals'', pending'', negb ended || has)
    end.

  (** signal_vec.rs 1636-1642: the fields of FilterSignalCloned *)
  Record filter_signal_state := mkFilSig {
    fis_signal : slot (option (vecdiff K)); fis_signals : list (fsig K); fis_pending : list (vecdiff K) }.

  (** signal_vec.rs 1657-1873: poll_vec_change *)
  Definition filter_signal_poll (st : filter_signal_state) : option (filter_signal_state * poll (option (vecdiff K))) :=
    match fis_pending st with
    | diff :: rest => Some (mkFilSig (fis_signal st) (fis_signals st) rest, Ready (Some diff))
    | [] =>
        let? ((signals, new_pending), signal', done) := drain_slot filter_signal_step (fis_signals st, []) (fis_signal st) in
        let? (signals', new_pending', has_pending) := poll_filters 0 new_pending signals in
        match new_pending' with
        | first :: rest => Some (mkFilSig signal' signals' rest, Ready (Some first))
        | [] => if done && negb has_pending then Some (mkFilSig signal' signals' [], Ready None)
                else Some (mkFilSig signal' signals' [], Pending)
        end
    end.

  (** signal_vec.rs 333-343: filter_signal_cloned (constructor): no signals, nothing pending. *)
  Definition filter_signal_init (source : list (poll (option (vecdiff K)))) : filter_signal_state :=
    mkFilSig (some_slot source) [] [].
End FilterSignal.
Arguments filter_signal_state K : clear implicits.
Arguments mkFilSig {K} fis_signal fis_signals fis_pending.
Arguments fis_signal {K} f.
Arguments fis_signals {K} f.
Arguments fis_pending {K} f.
Arguments filter_signal_init {K} source.
