(** signal_vec.rs 975-1209: Flatten. The outer SignalVec yields values of type [K], from which
    [inner_of] makes the inner SignalVecs; Flatten itself is the case where the values are the
    SignalVecs. *)
From Verif Require Import Base Spec VecDiff Slot.

(** signal_vec.rs 976-980: FlattenState; [fv_origin]: the outer value it was made for (ghost). *)
Record fstate (K A : Type) := mkFv { fv_origin : K; fv_signal_vec : slot (option (vecdiff A)); fv_len : nat }.
Arguments mkFv {K A} fv_origin fv_signal_vec fv_len.
Arguments fv_origin {K A} f.
Arguments fv_signal_vec {K A} f.
Arguments fv_len {K A} f.

Section Flatten.
  Context {K A : Type} (inner_of : K -> list (poll (option (vecdiff A)))).

  (** signal_vec.rs 983-988: FlattenState::new *)
  Definition fv_new (value : K) : fstate K A := mkFv value (some_slot (inner_of value)) 0.

  (** signal_vec.rs 990-1006: update_len, the new length; [None] = underflow. *)
  Definition update_len (len : nat) (diff : vecdiff A) : option nat :=
    match diff with
    | Replace values => Some (length values)
    | InsertAt _ _ | Push _ => Some (len + 1)
    | RemoveAt _ | Pop => usub len 1
    | Clear => Some 0
    | UpdateAt _ _ | Move _ _ => Some len
    end.

  (** signal_vec.rs 1012-1032: poll_values; returns the state and [output]. *)
  Definition poll_values (state : fstate K A) : option (fstate K A * list A) :=
    let step (s : nat * list A) diff :=
      let? len' := update_len (fst s) diff in
      let? output' := apply_to_vec diff (snd s) in
      Some (len', output') in
    let? (s', signal_vec', _) := drain_slot step (fv_len state, []) (fv_signal_vec state) in
    Some (mkFv (fv_origin state) signal_vec' (fst s'), snd s').

  (** signal_vec.rs 1040-1078: what poll_pending pushes for one diff. *)
  Definition pushed (prev_len old_len : nat) (diff : vecdiff A) : option (list (vecdiff A)) :=
    match diff with
    | Replace values =>
        Some (map (fun index => RemoveAt (prev_len + index)) (rev (seq 0 old_len))
              ++ map (fun iv => InsertAt (prev_len + fst iv) (snd iv)) (combine (seq 0 (length values)) values))
    | InsertAt index value => Some [InsertAt (prev_len + index) value]
    | UpdateAt index value => Some [UpdateAt (prev_len + index) value]
    | RemoveAt index => Some [RemoveAt (prev_len + index)]
    | Move old_index new_index => Some [Move (prev_len + old_index) (prev_len + new_index)]
    | Push value => Some [InsertAt (prev_len + old_len) value]
    | Pop => let? last := usub old_len 1 in Some [RemoveAt (prev_len + last)]
    | Clear => Some (map (fun index => RemoveAt (prev_len + index)) (rev (seq 0 old_len)))
    end.

  (** signal_vec.rs 1034-1091: poll_pending. The PendingBuilder (1461-1482) is a list: [first]
      followed by [rest]. Returns the state, the builder and [done]. *)
  Definition poll_pending (prev_len : nat) (pending : list (vecdiff A)) (state : fstate K A)
    : option (fstate K A * list (vecdiff A) * bool) :=
    let step (s : nat * list (vecdiff A)) diff :=
      let old_len := fst s in
      let? len' := update_len old_len diff in
      let? ds := pushed prev_len old_len diff in
      Some (len', snd s ++ ds) in
    let? (s', signal_vec', done) := drain_slot step (fv_len state, pending) (fv_signal_vec state) in
    Some (mkFv (fv_origin state) signal_vec' (fst s'), snd s', done).

  (** signal_vec.rs 1187-1195: the loop over [inner]. Returns [inner], the builder, and whether
      all are done. *)
  Fixpoint poll_inner (prev_len : nat) (pending : list (vecdiff A)) (inner : list (fstate K A))
    : option (list (fstate K A) * list (vecdiff A) * bool) :=
    match inner with
    | [] => Some ([], pending, true)
    | state :: inner' =>
        let? (state', pending', done) := poll_pending prev_len pending state in
        let? (inner'', pending'', done') := poll_inner (prev_len + fv_len state') pending' inner' in
        Some (state' :: inner'', pending'', done && done')
    end.

  (** signal_vec.rs 1136-1138: poll_values of every state, in order. *)
  Fixpoint poll_all_values (inner : list (fstate K A)) : option (list (fstate K A) * list A) :=
    match inner with
    | [] => Some ([], [])
    | state :: inner' =>
        let? (state', values) := poll_values state in
        let? (inner'', values') := poll_all_values inner' in
        Some (state' :: inner'', values ++ values')
    end.

  (** signal_vec.rs 1131-1171: one outer diff; the second component: [return], or [continue]. *)
  Definition flatten_step (inner : list (fstate K A)) (diff : vecdiff K)
    : option (list (fstate K A) * option (vecdiff A)) :=
    match diff with
    | Replace values =>
        let? (inner', values') := poll_all_values (map fv_new values) in
        Some (inner', Some (Replace values'))
    | InsertAt index value => let? inner' := vinsert index (fv_new value) inner in Some (inner', None)
    | UpdateAt index value => let? inner' := vset index (fv_new value) inner in Some (inner', None)
    | RemoveAt index => let? (_, inner') := vremove index inner in Some (inner', None)
    | Move old_index new_index =>
        let? (value, inner') := vremove old_index inner in
        let? inner'' := vinsert new_index value inner' in
        Some (inner'', None)
    | Push value => Some (inner ++ [fv_new value], None)
    | Pop => let? (_, inner') := vpop inner in Some (inner', None)
    | Clear => Some ([], Some Clear)
    end.

  (** signal_vec.rs 1096-1101: the fields of Flatten *)
  Record flatten_state := mkFlat {
    fla_signal : slot (option (vecdiff K)); fla_inner : list (fstate K A); fla_pending : list (vecdiff A) }.

  (** signal_vec.rs 1117-1208: poll_vec_change *)
  Definition flatten_vec_poll (st : flatten_state) : option (flatten_state * poll (option (vecdiff A))) :=
    match fla_pending st with
    | diff :: rest => Some (mkFlat (fla_signal st) (fla_inner st) rest, Ready (Some diff))
    | [] =>
        let? (inner, signal', r) := emit_slot flatten_step (fla_inner st) (fla_signal st) in
        match r with
        | Ready (Some diff) => Some (mkFlat signal' inner [], Ready (Some diff))
        | _ =>
            let top_done := match r with Ready None => true | _ => false end in
            let? (inner', pending, inner_done) := poll_inner 0 [] inner in
            match pending with
            | first :: rest => Some (mkFlat signal' inner' rest, Ready (Some first))
            | [] => if inner_done && top_done then Some (mkFlat signal' inner' [], Ready None)
                    else Some (mkFlat signal' inner' [], Pending)
            end
        end
    end.

  (** signal_vec.rs 370-378: flatten (constructor): no inner SignalVecs, nothing pending. *)
  Definition flatten_vec_init (outer : list (poll (option (vecdiff K)))) : flatten_state :=
    mkFlat (some_slot outer) [] [].
End Flatten.
Arguments flatten_state K A : clear implicits.
Arguments mkFlat {K A} fla_signal fla_inner fla_pending.
Arguments fla_signal {K A} f.
Arguments fla_inner {K A} f.
Arguments fla_pending {K A} f.
Arguments flatten_vec_init {K A} outer.
