(** Signal combinators with [Option<source>] fields, nested signals and futures
    (signal/signal.rs, internal.rs, signal/macros.rs). *)
From Verif Require Import Base Slot.

(** ** signal.rs 766-806: FromFuture *)
(** Fields [future], [first]. poll_change (776-800). *)
Record ff_state (A : Type) := mkFf { ff_future : slot A; ff_first : bool }.
Arguments mkFf {A} ff_future ff_first.
Arguments ff_future {A} f.
Arguments ff_first {A} f.

Definition from_future_init {A} (script : list (poll A)) : ff_state A := mkFf (some_slot script) true.

Definition from_future_poll {A} (st : ff_state A) : option (ff_state A * poll (option (option A))) :=
  let '(r, future') := poll_slot (ff_future st) in
  match r with
  | None => Some (mkFf future' (ff_first st), Ready None)
  | Some (Ready value) => Some (mkFf (drop_slot future') (ff_first st), Ready (Some (Some value)))
  | Some Pending =>
      if ff_first st then Some (mkFf future' false, Ready (Some None))
      else Some (mkFf future' (ff_first st), Pending)
  end.

(** ** signal.rs 812-872: FromStream *)
(** Fields [stream], [first]. poll_change (821-866). *)
Record fs_state (A : Type) := mkFs { fs_stream : slot (option A); fs_first : bool }.
Arguments mkFs {A} fs_stream fs_first.
Arguments fs_stream {A} f.
Arguments fs_first {A} f.

Definition from_stream_init {A} (script : list (poll (option A))) : fs_state A :=
  mkFs (some_slot script) true.

Definition from_stream_poll {A} (st : fs_state A) : option (fs_state A * poll (option (option A))) :=
  let step (_ : option A) (new_value : A) := Some (Some new_value) in
  let? (value, stream', done) := drain_slot step None (fs_stream st) in
  match value with
  | Some v => Some (mkFs stream' false, Ready (Some (Some v)))
  | None =>
      if fs_first st then Some (mkFs stream' false, Ready (Some None))
      else if done then Some (mkFs stream' (fs_first st), Ready None)
      else Some (mkFs stream' (fs_first st), Pending)
  end.

(** ** signal.rs 877-897: Always *)
(** State: the field [value]; poll_change (887-889) takes it. *)
Definition sig_always_poll {A} (value : option A) : option (option A * poll (option A)) :=
  Some (None, Ready value).

(** ** signal.rs 903-923: First *)
(** State: the field [signal]. poll_change (911-922). *)
Definition first_poll {A} (signal : slot (option A)) : option (slot (option A) * poll (option A)) :=
  match poll_slot signal with
  | (Some r, signal') => Some (drop_slot signal', r)
  | (None, signal') => Some (signal', Ready None)
  end.

(** ** signal.rs 640-734: MaybeSignalState, ResultSignal, OptionSignal *)
Inductive maybe_signal (A E : Type) :=
| MSignal (s : src (option A))
| MValue (v : option E).
Arguments MSignal {A E} s.
Arguments MValue {A E} v.

(** signal.rs 646-660 *)
Definition maybe_poll {A E C} (map_signal : A -> C) (map_value : E -> C) (st : maybe_signal A E)
  : option (maybe_signal A E * poll (option C)) :=
  match st with
  | MSignal s =>
      let '(r, s') := poll_src s in
      Some (MSignal s', match r with
                        | Pending => Pending
                        | Ready v => Ready (option_map map_signal v)
                        end)
  | MValue v =>
      match v with
      | Some value => Some (MValue None, Ready (Some (map_value value)))
      | None => Some (MValue None, Ready None)
      end
  end.

(** signal.rs 675-677 (poll_change), 689-698 (result) *)
Definition result_poll {A E} := @maybe_poll A E (A + E) inl inr.
Definition result_init {A E} (value : list (poll (option A)) + E) : maybe_signal A E :=
  match value with
  | inl script => MSignal (fresh script)
  | inr e => MValue (Some e)
  end.

(** signal.rs 712-714 (poll_change), 725-734 (option) *)
Definition option_poll {A} := @maybe_poll A (option A) (option A) Some (fun x => x).
Definition option_init {A} (value : option (list (poll (option A)))) : maybe_signal A (option A) :=
  match value with
  | Some script => MSignal (fresh script)
  | None => MValue (Some None)
  end.

(** ** signal.rs 950-994: SampleStreamCloned *)
(** Fields [signal], [stream], [value]. poll_next (965-993); [None] = unreachable!. *)
Record ss_state (A B : Type) := mkSs {
  ss_signal : slot (option A); ss_stream : src (option B); ss_value : option A }.
Arguments mkSs {A B} ss_signal ss_stream ss_value.
Arguments ss_signal {A B} s.
Arguments ss_stream {A B} s.
Arguments ss_value {A B} s.

Definition sample_init {A B} (signal : list (poll (option A))) (stream : list (poll (option B)))
  : ss_state A B := mkSs (some_slot signal) (fresh stream) None.

Definition sample_poll {A B} (st : ss_state A B) : option (ss_state A B * poll (option (A * B))) :=
  let '(r, stream') := poll_src (ss_stream st) in
  match r with
  | Pending => Some (mkSs (ss_signal st) stream' (ss_value st), Pending)
  | Ready None => Some (mkSs (ss_signal st) stream' (ss_value st), Ready None)
  | Ready (Some item) =>
      let step (_ : option A) (value : A) := Some (Some value) in
      let? (value', signal', _) := drain_slot step (ss_value st) (ss_signal st) in
      match value' with
      | Some v => Some (mkSs signal' stream' value', Ready (Some (v, item)))
      | None => None
      end
  end.

(** ** Futures made by closures *)

(** [Option<Future>] fields that closures fill: the log of all futures made so far, newest
    last, and whether the newest one is still in the field. A future that is replaced or
    completed stays in the log (ghost) and is never polled again. *)
Record futs (K X : Type) := mkFuts { made : list (K * src X); held : bool }.
Arguments mkFuts {K X} made held.
Arguments made {K X} f.
Arguments held {K X} f.

Definition no_futs {K X} : futs K X := mkFuts [] false.
(** [field.set(Some(future))]; [key] is what the future was made for (ghost). *)
Definition set_fut {K X} (fs : futs K X) (key : K) (script : list (poll X)) : futs K X :=
  mkFuts (made fs ++ [(key, fresh script)]) true.
(** [field.set(None)] *)
Definition unset_fut {K X} (fs : futs K X) : futs K X := mkFuts (made fs) false.
(** [field.map(|future| future.poll())] *)
Definition poll_fut {K X} (fs : futs K X) : option (poll X) * futs K X :=
  if held fs then
    match rev (made fs) with
    | [] => (None, fs)
    | (key, sr) :: older =>
        let '(r, sr') := poll_src sr in
        (Some r, mkFuts (rev older ++ [(key, sr')]) true)
    end
  else (None, fs).

(** ** signal.rs 1248-1310: MapFuture *)
(** Fields [signal], [future], [first]. The closure gets the number of futures made before as
    an extra argument, so that it may return different futures for equal values. *)
Record mf_state (A B : Type) := mkMf {
  mf_signal : slot (option A); mf_future : futs A B; mf_first : bool }.
Arguments mkMf {A B} mf_signal mf_future mf_first.
Arguments mf_signal {A B} m.
Arguments mf_future {A B} m.
Arguments mf_first {A B} m.

Definition map_future_init {A B} (script : list (poll (option A))) : mf_state A B :=
  mkMf (some_slot script) no_futs true.

(** poll_change (1263-1309). *)
Definition map_future_poll {A B} (callback : nat -> A -> list (poll B)) (st : mf_state A B)
  : option (mf_state A B * poll (option (option B))) :=
  let step fs value := Some (set_fut fs value (callback (length (made fs)) value)) in
  let? (future', signal', done) := drain_slot step (mf_future st) (mf_signal st) in
  let settle (future'' : futs A B) (done : bool) :=
    if mf_first st then Some (mkMf signal' future'' false, Ready (Some None))
    else if done then Some (mkMf signal' future'' (mf_first st), Ready None)
    else Some (mkMf signal' future'' (mf_first st), Pending) in
  match poll_fut future' with
  | (None, future'') => settle future'' done
  | (Some (Ready value), future'') =>
      Some (mkMf signal' (unset_fut future'') false, Ready (Some (Some value)))
  | (Some Pending, future'') => settle future'' false
  end.

(** ** signal.rs 1316-1367: Throttle *)
(** Fields [signal], [future]. *)
Record th_state (A : Type) := mkTh { th_signal : slot (option A); th_future : futs unit unit }.
Arguments mkTh {A} th_signal th_future.
Arguments th_signal {A} t.
Arguments th_future {A} t.

Definition throttle_init {A} (script : list (poll (option A))) : th_state A :=
  mkTh (some_slot script) no_futs.

(** poll_change (1330-1366). *)
Definition throttle_poll {A} (callback : nat -> list (poll unit)) (st : th_state A)
  : option (th_state A * poll (option A)) :=
  let continue (future' : futs unit unit) :=
    let '(r, signal') := poll_slot (th_signal st) in
    match r with
    | None => Some (mkTh signal' future', Ready None)
    | Some (Ready None) => Some (mkTh (drop_slot signal') future', Ready None)
    | Some (Ready (Some value)) =>
        let future1 := set_fut future' tt (callback (length (made future'))) in
        match poll_fut future1 with
        | (Some (Ready _), future2) => Some (mkTh signal' (unset_fut future2), Ready (Some value))
        | (_, future2) => Some (mkTh signal' future2, Ready (Some value))
        end
    | Some Pending => Some (mkTh signal' future', Pending)
    end in
  match poll_fut (th_future st) with
  | (None, future') => continue future'
  | (Some (Ready _), future') => continue (unset_fut future')
  | (Some Pending, future') => Some (mkTh (th_signal st) future', Pending)
  end.

(** ** signal.rs 1579-1638: Flatten *)
(** Fields [signal], [inner]. The outer signal yields values from which [inner_of] makes the
    inner signals: Switch (929-944) is Flatten over Map, [inner_of] is its closure, with the
    number of inner signals made before as an extra argument; Flatten itself is the case where
    the outer signal yields the scripts. All inner signals stay in the log. *)
Record fl_state (A B : Type) := mkFl { fl_signal : slot (option A); fl_inner : futs A (option B) }.
Arguments mkFl {A B} fl_signal fl_inner.
Arguments fl_signal {A B} f.
Arguments fl_inner {A B} f.

Definition switch_init {A B} (script : list (poll (option A))) : fl_state A B :=
  mkFl (some_slot script) no_futs.

(** poll_change (1605-1637). *)
Definition switch_poll {A B} (inner_of : nat -> A -> list (poll (option B))) (st : fl_state A B)
  : option (fl_state A B * poll (option B)) :=
  let '(r, signal1) := poll_slot (fl_signal st) in
  let '(signal', inner1, done) :=
    match r with
    | None => (signal1, fl_inner st, true)
    | Some (Ready None) => (drop_slot signal1, fl_inner st, true)
    | Some (Ready (Some new_inner)) =>
        (signal1, set_fut (fl_inner st) new_inner (inner_of (length (made (fl_inner st))) new_inner), false)
    | Some Pending => (signal1, fl_inner st, false)
    end in
  let settle (inner' : futs A (option B)) :=
    if done then Some (mkFl signal' inner', Ready None) else Some (mkFl signal' inner', Pending) in
  match poll_fut inner1 with
  | (Some (Ready None), inner2) => settle (unset_fut inner2)
  | (Some (Ready (Some v)), inner2) => Some (mkFl signal' inner2, Ready (Some v))
  | (Some Pending, inner2) => Some (mkFl signal' inner2, Pending)
  | (None, inner2) => settle inner2
  end.

Definition flatten_poll {B} := @switch_poll (list (poll (option B))) B (fun _ script => script).

(** ** internal.rs 20-135, signal/macros.rs 1-96: map_ref! and map_mut! *)
(** One MapRef1 per input: the field [signal] (Option<S>) and the field [value]. All inputs are
    given the same item type (a sum type covers the general case). *)
Record mr_input (A : Type) := mkMr { mr_signal : slot (option A); mr_value : option A }.
Arguments mkMr {A} mr_signal mr_value.
Arguments mr_signal {A} m.
Arguments mr_value {A} m.

Definition map_mut_init {A} (scripts : list (list (poll (option A)))) : list (mr_input A) :=
  map (fun s => mkMr (some_slot s) None) scripts.

(** internal.rs 66-99: MapRef1::poll; the result is PollResult { done, changed }. *)
Definition mr_poll {A} (i : mr_input A) : mr_input A * (bool * bool) :=
  let '(r, signal') := poll_slot (mr_signal i) in
  match r with
  | None => (mkMr signal' (mr_value i), (true, false))
  | Some (Ready None) => (mkMr (drop_slot signal') (mr_value i), (true, false))
  | Some (Ready (Some value)) => (mkMr signal' (Some value), (false, true))
  | Some Pending => (mkMr signal' (mr_value i), (false, false))
  end.

(** The inputs are polled in order; internal.rs 32-37 merges the results. With no input at all
    the macro does not exist; the fold starts with the neutral element. *)
Fixpoint mr_poll_all {A} (is : list (mr_input A)) : list (mr_input A) * (bool * bool) :=
  match is with
  | [] => ([], (true, false))
  | i :: is' =>
      let '(i', (d1, c1)) := mr_poll i in
      let '(is'', (d2, c2)) := mr_poll_all is' in
      (i' :: is'', (d1 && d2, c1 || c2))
  end.

(** internal.rs 101-109: value_ref / value_mut of every input; [None] = unreachable!. *)
Fixpoint mr_values {A} (is : list (mr_input A)) : option (list A) :=
  match is with
  | [] => Some []
  | i :: is' => match mr_value i, mr_values is' with
                | Some v, Some vs => Some (v :: vs)
                | _, _ => None
                end
  end.

Fixpoint mr_store {A} (is : list (mr_input A)) (vs : list A) : list (mr_input A) :=
  match is, vs with
  | i :: is', v :: vs' => mkMr (mr_signal i) (Some v) :: mr_store is' vs'
  | _, _ => is
  end.

(** macros.rs 1-96 (the generated closure) and internal.rs 116-135 (MapRefSignal). The body of
    map_mut! gets [&mut] references: it returns the values as it leaves them, and its result. *)
Definition map_mut_poll {A B} (f : list A -> list A * B) (is : list (mr_input A))
  : option (list (mr_input A) * poll (option B)) :=
  let '(is', (done, changed)) := mr_poll_all is in
  if changed then
    let? vs := mr_values is' in
    let '(vs', b) := f vs in
    Some (mr_store is' vs', Ready (Some b))
  else if done then Some (is', Ready None)
  else Some (is', Pending).

(** The body of map_ref! gets [&] references. *)
Definition map_ref_poll {A B} (f : list A -> B) := map_mut_poll (fun vs => (vs, f vs)).

(** signal.rs 614-635: and, or *)
Definition and_poll := map_ref_poll (fun vs => match vs with [a; b] => a && b | _ => false end).
Definition or_poll := map_ref_poll (fun vs => match vs with [a; b] => a || b | _ => false end).

(** ** signal.rs 1001-1016: ForEach (also signal_vec.rs 648-663 and signal_map.rs 491-506) *)
(** futures_util::stream::ForEach over the SignalStream, by its documentation and source: run
    the pending future; when there is none, take the next item and call the closure on it;
    complete when the stream ends. *)
Definition fe_state (A : Type) : Type := (src (option A) * futs A unit)%type.

Definition for_each_init {A} (script : list (poll (option A))) : fe_state A := (fresh script, no_futs).

(** The loop, entered without a pending future; recursion on the script. *)
Fixpoint fe_loop {A} (f : nat -> A -> list (poll unit)) (fs : futs A unit)
  (pst td : list (poll (option A))) {struct td} : fe_state A * poll unit :=
  match td with
  | [] => ((mkSrc (pst ++ [Pending]) [], fs), Pending)
  | Pending :: td' => ((mkSrc (pst ++ [Pending]) td', fs), Pending)
  | Ready None :: td' => ((mkSrc (pst ++ [Ready None]) td', fs), Ready tt)
  | Ready (Some a) :: td' =>
      match poll_fut (set_fut fs a (f (length (made fs)) a)) with
      | (Some (Ready _), fs') => fe_loop f (unset_fut fs') (pst ++ [Ready (Some a)]) td'
      | (_, fs') => ((mkSrc (pst ++ [Ready (Some a)]) td', fs'), Pending)
      end
  end.

Definition for_each_poll {A} (f : nat -> A -> list (poll unit)) (st : fe_state A)
  : option (fe_state A * poll unit) :=
  let '(sr, fs) := st in
  match poll_fut fs with
  | (None, fs') => Some (fe_loop f fs' (past sr) (todo sr))
  | (Some (Ready _), fs') => Some (fe_loop f (unset_fut fs') (past sr) (todo sr))
  | (Some Pending, fs') => Some ((sr, fs'), Pending)
  end.
