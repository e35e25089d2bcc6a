(** Combinators that turn a SignalVec into a Signal: to_signal_map, to_signal_cloned, len,
    is_empty, sum (signal_vec.rs). *)
From Verif Require Import Base Slot VecDiff.

(** ** signal_vec.rs 1239-1327: ToSignalMap *)

(** The match on one change (1267-1303). *)
Definition tsm_change {A} (values : list A) (change : vecdiff A) : option (list A) :=
  match change with
  | Replace new_values => Some new_values
  | InsertAt index value => vinsert index value values
  | UpdateAt index value => vset index value values
  | RemoveAt index => let? (_, values') := vremove index values in Some values'
  | Move old_index new_index =>
      let? (old, values') := vremove old_index values in vinsert new_index old values'
  | Push value => Some (values ++ [value])
  | Pop => let? (_, values') := vpop values in Some values'
  | Clear => Some []
  end.

(** Fields [signal], [first], [values]. *)
Record tsm_state (A : Type) := mkTsm {
  tsm_signal : slot (option (vecdiff A)); tsm_first : bool; tsm_values : list A }.
Arguments mkTsm {A} tsm_signal tsm_first tsm_values.
Arguments tsm_signal {A} t.
Arguments tsm_first {A} t.
Arguments tsm_values {A} t.

(** signal_vec.rs 266-275: to_signal_map *)
Definition tsm_init {A} (script : list (poll (option (vecdiff A)))) : tsm_state A :=
  mkTsm (some_slot script) true [].

(** poll_change (1252-1326). *)
Definition tsm_poll {A B} (callback : list A -> B) (st : tsm_state A)
  : option (tsm_state A * poll (option B)) :=
  let step (s : list A * bool) change :=
    let? values' := tsm_change (fst s) change in Some (values', true) in
  let? (s', signal', done) := drain_slot step (tsm_values st, false) (tsm_signal st) in
  let '(values', changed) := s' in
  if changed || tsm_first st then
    Some (mkTsm signal' false values', Ready (Some (callback values')))
  else if done then Some (mkTsm signal' (tsm_first st) values', Ready None)
  else Some (mkTsm signal' (tsm_first st) values', Pending).

(** signal_vec.rs 1214-1233: ToSignalCloned is ToSignalMap with [|x| x.to_vec()] (278-284). *)
Definition tsc_poll {A} := @tsm_poll A (list A) (fun x => x).

(** ** signal_vec.rs 1914-1989: Len *)

(** The match on one change (1941-1969): (len, changed) after it. *)
Definition len_change {A} (s : nat * bool) (change : vecdiff A) : option (nat * bool) :=
  let '(len, changed) := s in
  match change with
  | Replace values =>
      let new_len := length values in
      if negb (len =? new_len) then Some (new_len, true) else Some (len, changed)
  | InsertAt _ _ | Push _ => Some (len + 1, true)
  | UpdateAt _ _ | Move _ _ => Some (len, changed)
  | RemoveAt _ | Pop => let? len' := usub len 1 in Some (len', true)
  | Clear => if negb (len =? 0) then Some (0, true) else Some (len, changed)
  end.

(** Fields [signal], [first], [len]. *)
Record len_state (A : Type) := mkLen {
  len_signal : slot (option (vecdiff A)); len_first : bool; len_len : nat }.
Arguments mkLen {A} len_signal len_first len_len.
Arguments len_signal {A} l.
Arguments len_first {A} l.
Arguments len_len {A} l.

(** signal_vec.rs 519-525: len *)
Definition len_init {A} (script : list (poll (option (vecdiff A)))) : len_state A :=
  mkLen (some_slot script) true 0.

(** poll_change (1925-1988). *)
Definition len_poll {A} (st : len_state A) : option (len_state A * poll (option nat)) :=
  let? (s', signal', done) := drain_slot len_change (len_len st, false) (len_signal st) in
  let '(len', changed) := s' in
  if changed || len_first st then
    Some (mkLen signal' false len', Ready (Some len'))
  else if done then Some (mkLen signal' (len_first st) len', Ready None)
  else Some (mkLen signal' (len_first st) len', Pending).

(** ** signal_vec.rs 1880-1908: IsEmpty *)

(** Fields [len], [old]. *)
Record ie_state (A : Type) := mkIe { ie_len : len_state A; ie_old : option bool }.
Arguments mkIe {A} ie_len ie_old.
Arguments ie_len {A} i.
Arguments ie_old {A} i.

(** PartialEq of Option<bool>. *)
Definition obool_eqb (a b : option bool) : bool :=
  match a, b with
  | Some x, Some y => Bool.eqb x y
  | None, None => true
  | _, _ => false
  end.

(** signal_vec.rs 528-533: is_empty *)
Definition ie_init {A} (script : list (poll (option (vecdiff A)))) : ie_state A :=
  mkIe (len_init script) None.

(** poll_change (1889-1907). *)
Definition ie_poll {A} (st : ie_state A) : option (ie_state A * poll (option bool)) :=
  let? (len', answer) := len_poll (ie_len st) in
  match answer with
  | Ready (Some len) =>
      let new := Some (len =? 0) in
      if negb (obool_eqb (ie_old st) new) then Some (mkIe len' new, Ready new)
      else Some (mkIe len' (ie_old st), Pending)
  | Ready None => Some (mkIe len' (ie_old st), Ready None)
  | Pending => Some (mkIe len' (ie_old st), Pending)
  end.

(** ** signal_vec.rs 2178-2270: SumSignal *)

(** The match on one change (2205-2245): (values, changed) after it. *)
Definition sum_change {A} (s : list A * bool) (change : vecdiff A) : option (list A * bool) :=
  let '(values, changed) := s in
  match change with
  | Replace new_values => Some (new_values, true)
  | InsertAt index value => let? values' := vinsert index value values in Some (values', true)
  | Push value => Some (values ++ [value], true)
  | UpdateAt index value => let? values' := vset index value values in Some (values', true)
  | Move old_index new_index =>
      let? (value, values') := vremove old_index values in
      let? values'' := vinsert new_index value values' in
      Some (values'', changed)
  | RemoveAt index => let? (_, values') := vremove index values in Some (values', true)
  | Pop => let? (_, values') := vpop values in Some (values', true)
  | Clear => Some ([], true)
  end.

(** Fields [signal], [first], [values]; same layout as ToSignalMap, so the record is shared.
    signal_vec.rs 358-366: sum *)
Definition sum_init {A} (script : list (poll (option (vecdiff A)))) : tsm_state A :=
  mkTsm (some_slot script) true [].

(** poll_change (2191-2269). [sum] is the item type's [Sum::sum]. *)
Definition sum_poll {A} (sum : list A -> A) (st : tsm_state A)
  : option (tsm_state A * poll (option A)) :=
  let? (s', signal', done) := drain_slot sum_change (tsm_values st, false) (tsm_signal st) in
  let '(values', changed) := s' in
  if changed || tsm_first st then
    Some (mkTsm signal' false values', Ready (Some (sum values')))
  else if done then Some (mkTsm signal' (tsm_first st) values', Ready None)
  else Some (mkTsm signal' (tsm_first st) values', Pending).
