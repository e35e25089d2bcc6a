(** Signal combinators that are one polling loop over one input which they never drop
    (signal/signal.rs). A combinator whose body polls once and always answers is written with
    the same loop: its step always emits, so the loop does not iterate. *)
From Verif Require Import Base VecDiff.

(** ** signal.rs 1075-1092: Map *)
(** poll_change (1087-1091). *)
Definition map_step {A B} (callback : A -> B) (s : unit) (value : A) : option (unit * option B) :=
  Some (tt, Some (callback value)).
Definition map_poll {A B} (callback : A -> B) := emit_poll (map_step callback).

(** signal.rs 606-609: not *)
Definition not_poll := map_poll negb.

(** ** signal.rs 1219-1242: Inspect *)
(** State: the log of the calls made to the closure (ghost). poll_change (1231-1241). *)
Definition inspect_step {A} (calls : list A) (value : A) : option (list A * option A) :=
  Some (calls ++ [value], Some value).
Definition inspect_poll {A} := emit_poll (@inspect_step A).

(** ** signal.rs 740-760: SignalDebug *)
(** poll_change (751-759) forwards the answer; the log::trace! call has no effect here. *)
Definition debug_step {A} (s : unit) (value : A) : option (unit * option A) := Some (tt, Some value).
Definition debug_poll {A} := emit_poll (@debug_step A).

(** ** signal.rs 1022-1034: SignalStream; also signal_vec.rs 1995-2007 (SignalVecStream) and
    signal_map.rs 473-485 (SignalMapStream): poll_next forwards the answer. *)
Definition to_stream_step {A} (s : unit) (value : A) : option (unit * option A) := Some (tt, Some value).
Definition to_stream_poll {A} := emit_poll (@to_stream_step A).

(** ** signal.rs 1408-1421: SignalSignalVec *)
(** poll_vec_change (1418-1420). *)
Definition to_signal_vec_step {A} (s : unit) (values : list A) : option (unit * option (vecdiff A)) :=
  Some (tt, Some (Replace values)).
Definition to_signal_vec_poll {A} := emit_poll (@to_signal_vec_step A).

(** PartialEq of Option<bool>. *)
Definition opt_bool_eqb (a b : option bool) : bool :=
  match a, b with
  | Some x, Some y => Bool.eqb x y
  | None, None => true
  | _, _ => false
  end.

(** ** signal.rs 1139-1173: Eq *)
(** State: the field [matches] (None at first, 175-182). One iteration of poll_change
    (1155-1171); [eqb] is the item's PartialEq. *)
Definition eq_step {A} (eqb : A -> A -> bool) (value : A) (matches : option bool) (new_value : A)
  : option (option bool * option bool) :=
  let new := Some (eqb new_value value) in
  if negb (opt_bool_eqb matches new) then Some (new, new) else Some (matches, None).
Definition eq_poll {A} (eqb : A -> A -> bool) (value : A) := emit_poll (eq_step eqb value).

(** ** signal.rs 1179-1213: Neq *)
(** Same with [!=], i.e. the negation of [==] (1195-1211). *)
Definition neq_step {A} (eqb : A -> A -> bool) (value : A) (matches : option bool) (new_value : A)
  : option (option bool * option bool) :=
  let new := Some (negb (eqb new_value value)) in
  if negb (opt_bool_eqb matches new) then Some (new, new) else Some (matches, None).
Definition neq_poll {A} (eqb : A -> A -> bool) (value : A) := emit_poll (neq_step eqb value).

(** ** signal.rs 1425-1450: fn dedupe *)
(** State: the field [old_value] and the log of the values the closure was called with
    (ghost). [f] takes [&mut value]: it returns the value as it leaves it, and its result. *)
Definition dedupe_step {A B} (eqb : A -> A -> bool) (f : A -> A * B)
  (s : option A * list A) (new_value : A) : option ((option A * list A) * option B) :=
  let '(old_value, calls) := s in
  let has_changed := match old_value with
                     | Some old => negb (eqb old new_value)
                     | None => true
                     end in
  if has_changed then
    let '(new_value', output) := f new_value in
    Some ((Some new_value', calls ++ [new_value]), Some output)
  else Some ((old_value, calls), None).

(** signal.rs 1456-1478: DedupeMap *)
Definition dedupe_map_poll {A B} (eqb : A -> A -> bool) (callback : A -> A * B) :=
  emit_poll (dedupe_step eqb callback).
(** signal.rs 1484-1502: Dedupe, closure [|value| *value]; 1508-1526: DedupeCloned, closure
    [|value| value.clone()]. Copies and clones are the value itself. *)
Definition dedupe_poll {A} (eqb : A -> A -> bool) := emit_poll (dedupe_step eqb (fun a : A => (a, a))).

(** ** signal.rs 1532-1571: FilterMap *)
(** State: the field [first] and the log of the calls made to the closure (ghost). One
    iteration of poll_change (1549-1569). *)
Definition sig_fm_step {A B} (callback : A -> option B) (s : bool * list A) (value : A)
  : option ((bool * list A) * option (option B)) :=
  let '(first, calls) := s in
  match callback value with
  | Some b => Some ((false, calls ++ [value]), Some (Some b))
  | None => if first then Some ((false, calls ++ [value]), Some None)
            else Some ((first, calls ++ [value]), None)
  end.
Definition sig_filter_map_poll {A B} (callback : A -> option B) := emit_poll (sig_fm_step callback).

(** ** signal.rs 1373-1402: WaitFor *)
(** poll (1387-1401): skips the values that differ from [value]; the answer [Ready x] means
    that the future completes with [x]. *)
Definition wait_for_step {A} (eqb : A -> A -> bool) (value : A) (s : unit) (new_value : A)
  : option (unit * option A) :=
  if negb (eqb new_value value) then Some (tt, None) else Some (tt, Some new_value).
Definition wait_for_poll {A} (eqb : A -> A -> bool) (value : A) := emit_poll (wait_for_step eqb value).

(** ** signal.rs 1041-1069: SignalFuture *)
(** State: the field [value] and the signal. poll (1051-1068); [None] = the unwrap panics. *)
Definition to_future_poll {A} (st : option A * src (option A))
  : option ((option A * src (option A)) * poll A) :=
  let '(value, sr) := st in
  match loop_drain (fun (_ : option A) (new_value : A) => Some (Some new_value)) value (past sr) (todo sr) with
  | None => None
  | Some (value', sr', true) => match value' with
                                | Some v => Some ((None, sr'), Ready v)
                                | None => None
                                end
  | Some (value', sr', false) => Some ((value', sr'), Pending)
  end.

(** ** signal.rs 1098-1133: StopIf *)
(** State: the field [stopped], the log of the calls made to the closure (ghost), and the
    signal. poll_change (1110-1132). *)
Definition stop_if_poll {A} (test : A -> bool) (st : (bool * list A) * src (option A))
  : option (((bool * list A) * src (option A)) * poll (option A)) :=
  let '((stopped, calls), signal) := st in
  if stopped then Some (st, Ready None)
  else
    let '(r, signal') := poll_src signal in
    match r with
    | Ready (Some value) =>
        Some (((if test value then true else stopped, calls ++ [value]), signal'), Ready (Some value))
    | Ready None => Some (((true, calls), signal'), Ready None)
    | Pending => Some (((stopped, calls), signal'), Pending)
    end.

(** ** Futures: a task polls a future until it completes, at most [n] times. *)
Fixpoint run_future {St X} (m : St -> option (St * poll X)) (n : nat) (s : St)
  : option (St * option X) :=
  match n with
  | 0 => Some (s, None)
  | S n' => match m s with
            | None => None
            | Some (s', Ready x) => Some (s', Some x)
            | Some (s', Pending) => run_future m n' s'
            end
  end.
