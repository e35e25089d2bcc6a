(** signal.rs 1640-1789: SwitchSignalVec. *)
From Verif Require Import Base VecDiff Slot SigSlots.

(** signal.rs 1644-1653: the fields. The closure gets the number of inner SignalVecs made before
    as an extra argument, so that it may return different ones for equal values; all of them stay
    in the log ([futs]). *)
Record switch_vec_state (A B : Type) := mkSwv {
  swv_signal : slot (option A); swv_inner : futs A (option (vecdiff B)); swv_len : nat }.
Arguments mkSwv {A B} swv_signal swv_inner swv_len.
Arguments swv_signal {A B} s.
Arguments swv_inner {A B} s.
Arguments swv_len {A B} s.

(** signal.rs 1683-1691: new_signal_vec; returns [len] and the answer. *)
Definition new_signal_vec {B} (len : nat) : nat * poll (option (vecdiff B)) :=
  if len =? 0 then (len, Pending) else (0, Ready (Some (Replace []))).

(** signal.rs 1693-1709: calculate_len, the new length; [None] = underflow. *)
Definition calculate_len {B} (len : nat) (vec_diff : vecdiff B) : option nat :=
  match vec_diff with
  | Replace values => Some (length values)
  | InsertAt _ _ | Push _ => Some (len + 1)
  | RemoveAt _ | Pop => usub len 1
  | Clear => Some 0
  | UpdateAt _ _ | Move _ _ => Some len
  end.

(** signal.rs 1660-1788: poll_vec_change. The drain of the outer signal keeps the last value
    ([signal_value]). *)
Definition switch_vec_poll {A B} (inner_of : nat -> A -> list (poll (option (vecdiff B)))) (st : switch_vec_state A B)
  : option (switch_vec_state A B * poll (option (vecdiff B))) :=
  let? (signal_value, signal', signal_done) :=
    drain_slot (fun (_ : option A) value => Some (Some value)) None (swv_signal st) in
  match signal_value with
  | Some value =>
      let created := set_fut (swv_inner st) value (inner_of (length (made (swv_inner st))) value) in
      match poll_fut created with
      | (None, inner') =>
          if signal_done then Some (mkSwv signal' inner' (swv_len st), Ready None)
          else let '(len', o) := new_signal_vec (swv_len st) in Some (mkSwv signal' inner' len', o)
      | (Some Pending, inner') =>
          let '(len', o) := new_signal_vec (swv_len st) in Some (mkSwv signal' inner' len', o)
      | (Some (Ready None), inner') =>
          if signal_done then Some (mkSwv signal' (unset_fut inner') (swv_len st), Ready None)
          else let '(len', o) := new_signal_vec (swv_len st) in Some (mkSwv signal' (unset_fut inner') len', o)
      | (Some (Ready (Some vec_diff)), inner') =>
          if swv_len st =? 0 then
            let? len' := calculate_len (swv_len st) vec_diff in
            Some (mkSwv signal' inner' len', Ready (Some vec_diff))
          else
            let? values := apply_to_vec vec_diff [] in
            Some (mkSwv signal' inner' (length values), Ready (Some (Replace values)))
      end
  | None =>
      match poll_fut (swv_inner st) with
      | (None, inner') =>
          if signal_done then Some (mkSwv signal' inner' (swv_len st), Ready None)
          else Some (mkSwv signal' inner' (swv_len st), Pending)
      | (Some Pending, inner') => Some (mkSwv signal' inner' (swv_len st), Pending)
      | (Some (Ready None), inner') =>
          if signal_done then Some (mkSwv signal' (unset_fut inner') (swv_len st), Ready None)
          else Some (mkSwv signal' (unset_fut inner') (swv_len st), Pending)
      | (Some (Ready (Some vec_diff)), inner') =>
          let? len' := calculate_len (swv_len st) vec_diff in
          Some (mkSwv signal' inner' len', Ready (Some vec_diff))
      end
  end.

(** signal.rs 448-458: switch_signal_vec (constructor) *)
Definition switch_vec_init {A B} (script : list (poll (option A))) : switch_vec_state A B :=
  mkSwv (some_slot script) no_futs 0.
