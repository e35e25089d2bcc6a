(** signal_vec.rs 2535-2774: DelayRemove. The source yields values of type [K], from which the
    closure makes the removal futures ([future_of]). *)
From Verif Require Import Base Spec VecDiff Slot.

(** signal_vec.rs 2536-2540: DelayRemoveState; [dr_value]: the value that it stands for (ghost). *)
Record dstate (K : Type) := mkDr { dr_value : K; dr_future : src unit; dr_removing : bool }.
Arguments mkDr {K} dr_value dr_future dr_removing.
Arguments dr_value {K} d.
Arguments dr_future {K} d.
Arguments dr_removing {K} d.

Section DelayRemove.
  Context {K : Type} (future_of : K -> list (poll unit)).

  (** signal_vec.rs 2544-2549: DelayRemoveState::new(callback(value)) *)
  Definition dr_new (value : K) : dstate K := mkDr value (fresh (future_of value)) false.

  (** signal_vec.rs 2570-2579: remove_index. Returns [futures], the VecDiff, and the state that
      is dropped (for the log). *)
  Definition remove_index (futures : list (dstate K)) (index : nat)
    : option (list (dstate K) * vecdiff K * dstate K) :=
    let? last := usub (length futures) 1 in
    if index =? last then
      let? (state, futures') := vpop futures in
      Some (futures', Pop, state)
    else
      let? (state, futures') := vremove index futures in
      Some (futures', RemoveAt index, state).

  (** [state.future.poll(cx).is_ready()] *)
  Definition poll_removal (state : dstate K) : bool * src unit :=
    let '(r, future') := poll_src (dr_future state) in
    (match r with Ready _ => true | Pending => false end, future').

  (** signal_vec.rs 2581-2591: should_remove; the assertion panics. *)
  Definition should_remove (state : dstate K) : option (bool * dstate K) :=
    if dr_removing state then None
    else let '(ready, future') := poll_removal state in
         if ready then Some (true, mkDr (dr_value state) future' false)
         else Some (false, mkDr (dr_value state) future' true).

  (** signal_vec.rs 2593-2609: find_index; [seen] and the position are counted up. *)
  Fixpoint find_from (seen pos : nat) (futures : list (dstate K)) (parent_index : nat) : option nat :=
    match futures with
    | [] => None
    | state :: futures' =>
        if dr_removing state then find_from seen (S pos) futures' parent_index
        else if seen =? parent_index then Some pos
        else find_from (S seen) (S pos) futures' parent_index
    end.
  Definition dr_find_index (futures : list (dstate K)) (parent_index : nat) : option nat :=
    find_from 0 0 futures parent_index.

  (** signal_vec.rs 2611-2613: find_last_index (Iterator::rposition: the last position). *)
  Fixpoint find_last_index (futures : list (dstate K)) : option nat :=
    match futures with
    | [] => None
    | state :: futures' =>
        match find_last_index futures' with
        | Some i => Some (S i)
        | None => if dr_removing state then None else Some 0
        end
    end.

  (** signal_vec.rs 2618-2624: the first loop of remove_existing_futures, from [index] on.
      Returns [futures] and [indexes]. *)
  Fixpoint start_removals (index : nat) (futures : list (dstate K)) : option (list (dstate K) * list nat) :=
    match futures with
    | [] => Some ([], [])
    | state :: futures' =>
        if dr_removing state then
          let? (futures'', indexes) := start_removals (S index) futures' in
          Some (state :: futures'', indexes)
        else
          let? (ready, state') := should_remove state in
          let? (futures'', indexes) := start_removals (S index) futures' in
          Some (state' :: futures'', if ready : bool then index :: indexes else indexes)
    end.

  (** The state of the loops: [futures], the PendingBuilder, and (ghost) the states dropped by
      remove_index. *)
  Definition dr_loop : Type := (list (dstate K) * list (vecdiff K) * list (dstate K))%type.

  (** signal_vec.rs 2627-2629 and 2756-2758: remove_index for each of the indexes. *)
  Fixpoint remove_indexes (indexes : list nat) (s : dr_loop) : option dr_loop :=
    match indexes with
    | [] => Some s
    | index :: indexes' =>
        let '(futures, pending, gone) := s in
        let? (futures', diff, state) := remove_index futures index in
        remove_indexes indexes' (futures', pending ++ [diff], gone ++ [state])
    end.

  (** signal_vec.rs 2615-2630: remove_existing_futures *)
  Definition remove_existing_futures (s : dr_loop) : option dr_loop :=
    let '(futures, pending, gone) := s in
    let? (futures', indexes) := start_removals 0 futures in
    remove_indexes (rev indexes) (futures', pending, gone).

  (** signal_vec.rs 2714-2718 and 2721-2725: should_remove, remove_index of one index. *)
  Definition remove_one (index : nat) (s : dr_loop) : option dr_loop :=
    let '(futures, pending, gone) := s in
    let? state := nth_error futures index in
    let? (ready, state') := should_remove state in
    let? futures' := vset index state' futures in
    if ready : bool then
      let? (futures'', diff, dropped) := remove_index futures' index in
      Some (futures'', pending ++ [diff], gone ++ [dropped])
    else Some (futures', pending, gone).

  (** [opt.unwrap_or_else(|| default)] *)
  Definition or_else (o : option nat) (default : nat) : nat := match o with Some i => i | None => default end.

  (** signal_vec.rs 2660-2729: one change. *)
  Definition delay_remove_step (s : dr_loop) (change : vecdiff K) : option dr_loop :=
    let '(futures, pending, gone) := s in
    match change with
    | Replace values =>
        if length futures =? 0 then Some (map dr_new values, pending ++ [Replace values], gone)
        else
          let? (futures', pending', gone') := remove_existing_futures s in
          Some (futures' ++ map dr_new values, pending' ++ map (fun value => Push value) values, gone')
    | InsertAt index value =>
        let i := or_else (dr_find_index futures index) (length futures) in
        let? futures' := vinsert i (dr_new value) futures in
        Some (futures', pending ++ [InsertAt i value], gone)
    | Push value => Some (futures ++ [dr_new value], pending ++ [Push value], gone)
    | UpdateAt index value =>
        let? i := dr_find_index futures index in
        let? futures' := vset i (dr_new value) futures in
        Some (futures', pending ++ [UpdateAt i value], gone)
    | Move old_index new_index =>
        let? o := dr_find_index futures old_index in
        let? (state, futures') := vremove o futures in
        let n := or_else (dr_find_index futures' new_index) (length futures') in
        let? futures'' := vinsert n state futures' in
        Some (futures'', pending ++ [Move o n], gone)
    | RemoveAt index =>
        let? i := dr_find_index futures index in
        remove_one i s
    | Pop =>
        let? i := find_last_index futures in
        remove_one i s
    | Clear => remove_existing_futures s
    end.

  (** signal_vec.rs 2744-2753: the loop over [futures], from [index] on. Returns [futures],
      [indexes] and [pending_removals]. *)
  Fixpoint poll_removals (index : nat) (futures : list (dstate K)) : list (dstate K) * list nat * bool :=
    match futures with
    | [] => ([], [], false)
    | state :: futures' =>
        let '(futures'', indexes, waiting) := poll_removals (S index) futures' in
        if dr_removing state then
          let '(ready, future') := poll_removal state in
          let state' := mkDr (dr_value state) future' true in
          if ready then (state' :: futures'', index :: indexes, waiting)
          else (state' :: futures'', indexes, true)
        else (state :: futures'', indexes, waiting)
    end.

  (** signal_vec.rs 2556-2562: the fields of DelayRemove; [dlr_gone] is a log: the states that
      remove_index has dropped. *)
  Record delay_remove_state := mkDlr {
    dlr_signal : slot (option (vecdiff K)); dlr_futures : list (dstate K);
    dlr_pending : list (vecdiff K); dlr_gone : list (dstate K) }.

  (** signal_vec.rs 2640-2773: poll_vec_change *)
  Definition delay_remove_poll (st : delay_remove_state) : option (delay_remove_state * poll (option (vecdiff K))) :=
    match dlr_pending st with
    | diff :: rest => Some (mkDlr (dlr_signal st) (dlr_futures st) rest (dlr_gone st), Ready (Some diff))
    | [] =>
        let? ((futures, new_pending, gone), signal', done) :=
          drain_slot delay_remove_step (dlr_futures st, [], dlr_gone st) (dlr_signal st) in
        let '(futures', indexes, pending_removals) := poll_removals 0 futures in
        let? (futures'', new_pending', gone') := remove_indexes (rev indexes) (futures', new_pending, gone) in
        match new_pending' with
        | first :: rest => Some (mkDlr signal' futures'' rest gone', Ready (Some first))
        | [] => if done && negb pending_removals then Some (mkDlr signal' futures'' [] gone', Ready None)
                else Some (mkDlr signal' futures'' [] gone', Pending)
        end
    end.

  (** signal_vec.rs 544-554: delay_remove (constructor): no futures, nothing pending. *)
  Definition delay_remove_init (source : list (poll (option (vecdiff K)))) : delay_remove_state :=
    mkDlr (some_slot source) [] [] [].
End DelayRemove.
Arguments delay_remove_state K : clear implicits.
Arguments mkDlr {K} dlr_signal dlr_futures dlr_pending dlr_gone.
Arguments dlr_signal {K} d.
Arguments dlr_futures {K} d.
Arguments dlr_pending {K} d.
Arguments dlr_gone {K} d.
Arguments delay_remove_init {K} source.
