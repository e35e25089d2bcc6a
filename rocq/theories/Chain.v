(** signal_vec.rs 690-972: Chain. *)
From Verif Require Import Base Spec VecDiff Slot.

(** The fields of Chain (694-702). *)
Record chain_state (A : Type) := mkChain {
  ch_left : slot (option (vecdiff A)); ch_right : slot (option (vecdiff A));
  ch_left_len : nat; ch_right_len : nat; ch_pending : list (vecdiff A) }.
Arguments mkChain {A} ch_left ch_right ch_left_len ch_right_len ch_pending.
Arguments ch_left {A} c.
Arguments ch_right {A} c.
Arguments ch_left_len {A} c.
Arguments ch_right_len {A} c.
Arguments ch_pending {A} c.

Section Chain.
  Context {A : Type}.
  Notation state := (chain_state A).

  (** pending.push_back, once for each element. *)
  Definition push_back (ds : list (vecdiff A)) (st : state) : state :=
    mkChain (ch_left st) (ch_right st) (ch_left_len st) (ch_right_len st) (ch_pending st ++ ds).
  Definition set_left_len (n : nat) (st : state) : state :=
    mkChain (ch_left st) (ch_right st) n (ch_right_len st) (ch_pending st).
  Definition set_right_len (n : nat) (st : state) : state :=
    mkChain (ch_left st) (ch_right st) (ch_left_len st) n (ch_pending st).
  Definition set_left (sl : slot (option (vecdiff A))) (st : state) : state :=
    mkChain sl (ch_right st) (ch_left_len st) (ch_right_len st) (ch_pending st).
  Definition set_right (sl : slot (option (vecdiff A))) (st : state) : state :=
    mkChain (ch_left st) sl (ch_left_len st) (ch_right_len st) (ch_pending st).

  (** [if let Some(change) = ... { self.pending.push_back(change); }] (751-753, 785-787) *)
  Definition push_some (r : option (state * option (vecdiff A))) : option state :=
    let? (st, o) := r in
    Some (match o with Some d => push_back [d] st | None => st end).

  (** signal_vec.rs 849-928: process_right_change *)
  Definition process_right_change (change : option (poll (option (vecdiff A)))) (st : state)
    : option (state * option (vecdiff A)) :=
    match change with
    | Some (Ready (Some d)) =>
        match d with
        | Replace values =>
            let removing := ch_right_len st in
            let st1 := set_right_len (length values) st in
            if ch_left_len st =? 0 then Some (st1, Some (Replace values))
            else Some (push_back (map Push values) (push_back (repeat Pop removing) st1), None)
        | InsertAt index value =>
            Some (set_right_len (ch_right_len st + 1) st, Some (InsertAt (index + ch_left_len st) value))
        | UpdateAt index value => Some (st, Some (UpdateAt (index + ch_left_len st) value))
        | Move old_index new_index =>
            Some (st, Some (Move (old_index + ch_left_len st) (new_index + ch_left_len st)))
        | RemoveAt index =>
            let? len := usub (ch_right_len st) 1 in
            Some (set_right_len len st, Some (RemoveAt (index + ch_left_len st)))
        | Push value => Some (set_right_len (ch_right_len st + 1) st, Some (Push value))
        | Pop =>
            let? len := usub (ch_right_len st) 1 in
            Some (set_right_len len st, Some Pop)
        | Clear =>
            let removing := ch_right_len st in
            let st1 := set_right_len 0 st in
            if ch_left_len st =? 0 then Some (st1, Some Clear)
            else Some (push_back (repeat Pop removing) st1, None)
        end
    | Some (Ready None) => Some (set_right (drop_slot (ch_right st)) st, None)
    | Some Pending => Some (st, None)
    | None => Some (st, None)
    end.

  (** [self.right.as_mut().as_pin_mut().map(|s| s.poll_vec_change(cx))] *)
  Definition poll_right (st : state) : option (poll (option (vecdiff A))) * state :=
    let '(r, sl) := poll_slot (ch_right st) in (r, set_right sl st).

  (** signal_vec.rs 719-757: process_replace *)
  Definition process_replace (left_values : list A) (st : state)
    : option (state * option (vecdiff A)) :=
    let '(r, st1) := poll_right st in
    match r with
    | Some (Ready (Some (Replace right_values))) =>
        Some (set_right_len (length right_values) (set_left_len (length left_values) st1),
              Some (Replace (left_values ++ right_values)))
    | change =>
        let removing := ch_left_len st1 in
        let st2 := set_left_len (length left_values) st1 in
        let '(st3, output) :=
          if ch_right_len st2 =? 0 then (st2, Some (Replace left_values))
          else (push_back (map (fun iv => InsertAt (fst iv) (snd iv))
                               (combine (seq 0 (length left_values)) left_values))
                  (push_back (map RemoveAt (rev (seq 0 removing))) st2), None) in
        let? st4 := push_some (process_right_change change st3) in
        Some (st4, output)
    end.

  (** signal_vec.rs 759-791: process_clear *)
  Definition process_clear (st : state) : option (state * option (vecdiff A)) :=
    let '(r, st1) := poll_right st in
    match r with
    | Some (Ready (Some Clear)) => Some (set_right_len 0 (set_left_len 0 st1), Some Clear)
    | change =>
        let removing := ch_left_len st1 in
        let st2 := set_left_len 0 st1 in
        let '(st3, output) :=
          if ch_right_len st2 =? 0 then (st2, Some Clear)
          else (push_back (map RemoveAt (rev (seq 0 removing))) st2, None) in
        let? st4 := push_some (process_right_change change st3) in
        Some (st4, output)
    end.

  (** signal_vec.rs 793-847: process_left *)
  Definition process_left (st0 : state) : option (state * option (vecdiff A)) :=
    let '(r, sl) := poll_slot (ch_left st0) in
    let st := set_left sl st0 in
    match r with
    | Some (Ready (Some change)) =>
        match change with
        | Replace values => process_replace values st
        | InsertAt index value => Some (set_left_len (ch_left_len st + 1) st, Some (InsertAt index value))
        | UpdateAt index value => Some (st, Some (UpdateAt index value))
        | Move old_index new_index => Some (st, Some (Move old_index new_index))
        | RemoveAt index =>
            let? len := usub (ch_left_len st) 1 in
            Some (set_left_len len st, Some (RemoveAt index))
        | Push value =>
            let index := ch_left_len st in
            let st1 := set_left_len (ch_left_len st + 1) st in
            if ch_right_len st =? 0 then Some (st1, Some (Push value))
            else Some (st1, Some (InsertAt index value))
        | Pop =>
            let? len := usub (ch_left_len st) 1 in
            let st1 := set_left_len len st in
            if ch_right_len st =? 0 then Some (st1, Some Pop)
            else Some (st1, Some (RemoveAt len))
        | Clear => process_clear st
        end
    | Some (Ready None) => Some (set_left (drop_slot sl) st, None)
    | Some Pending => Some (st, None)
    | None => Some (st, None)
    end.

  (** signal_vec.rs 930-933: process_right *)
  Definition process_right (st : state) : option (state * option (vecdiff A)) :=
    let '(r, st1) := poll_right st in process_right_change r st1.

  (** pending.pop_front() *)
  Definition pop_front (st : state) : option (vecdiff A * state) :=
    match ch_pending st with
    | [] => None
    | d :: ds => Some (d, mkChain (ch_left st) (ch_right st) (ch_left_len st) (ch_right_len st) ds)
    end.

  (** signal_vec.rs 942-971: poll_vec_change. The loop always returns in its first round. *)
  Definition chain_poll (st : state) : option (state * poll (option (vecdiff A))) :=
    match pop_front st with
    | Some (change, st') => Some (st', Ready (Some change))
    | None =>
        let? (st1, l) := process_left st in
        match l with
        | Some change => Some (st1, Ready (Some change))
        | None =>
            match pop_front st1 with
            | Some (change, st') => Some (st', Ready (Some change))
            | None =>
                let? (st2, r) := process_right st1 in
                match r with
                | Some change => Some (st2, Ready (Some change))
                | None =>
                    match pop_front st2 with
                    | Some (change, st') => Some (st', Ready (Some change))
                    | None =>
                        if negb (fst (ch_left st2)) && negb (fst (ch_right st2))
                        then Some (st2, Ready None)
                        else Some (st2, Pending)
                    end
                end
            end
        end
    end.
End Chain.

(** signal_vec.rs 253-263: chain *)
Definition chain_init {A} (left right : list (poll (option (vecdiff A)))) : chain_state A :=
  mkChain (some_slot left) (some_slot right) 0 0 [].
