(** signal_vec.rs 2302-2534: SortByCloned. *)
From Verif Require Import Base Spec VecDiff.

(** std: Result of slice::binary_search_by (Ok / Err). *)
Inductive search := Found (i : nat) | NotFound (i : nat).

(** std: slice::binary_search_by, the documented algorithm
    [while left < right { mid = left + (right - left) / 2; match f(s[mid]) { Less => left = mid + 1,
    Greater => right = mid, Equal => return Ok(mid) } } Err(left)]. The fuel is the length of the
    slice, which is enough for the loop to end. *)
Fixpoint search_loop {X} (f : X -> option comparison) (s : list X) (fuel left right : nat)
  : option search :=
  if left <? right then
    match fuel with
    | 0 => None
    | S fuel' =>
        let mid := left + Nat.div2 (right - left) in
        let? x := nth_error s mid in
        let? c := f x in
        match c with
        | Lt => search_loop f s fuel' (mid + 1) right
        | Gt => search_loop f s fuel' left mid
        | Eq => Some (Found mid)
        end
    end
  else Some (NotFound left).
Definition binary_search_by {X} (f : X -> option comparison) (s : list X) : option search :=
  search_loop f s (length s) 0 (length s).

(** std: slice::sort_unstable_by. Modelled as an insertion sort; the comparison used below is a
    strict total order on the (distinct) indexes, so every sorting algorithm gives the same list. *)
Fixpoint sort_insert {X} (f : X -> X -> option comparison) (x : X) (l : list X) : option (list X) :=
  match l with
  | [] => Some [x]
  | y :: l' =>
      let? c := f x y in
      match c with
      | Gt => let? r := sort_insert f x l' in Some (y :: r)
      | _ => Some (x :: l)
      end
  end.
Fixpoint sort_unstable_by {X} (f : X -> X -> option comparison) (l : list X) : option (list X) :=
  match l with
  | [] => Some []
  | x :: l' => let? r := sort_unstable_by f l' in sort_insert f x r
  end.

(** std: Ordering::then_with. *)
Definition then_with (c d : comparison) : comparison := match c with Eq => d | _ => c end.

Section SortBy.
  Context {A : Type} (compare : A -> A -> comparison).

  (** The closures at 2320 and 2413: [compare(&values[*i], &values[*j]).then_with(|| i.cmp(j))];
      indexing panics when out of range. *)
  Definition compare_at (values : list A) (i j : nat) : option comparison :=
    let? vi := nth_error values i in
    let? vj := nth_error values j in
    Some (then_with (compare vi vj) (Nat.compare i j)).

  (** signal_vec.rs 2316-2321: binary_search *)
  Definition sort_search (values : list A) (indexes : list nat) (index : nat) : option search :=
    let? value := nth_error values index in
    binary_search_by (fun i => let? vi := nth_error values i in
      Some (then_with (compare vi value) (Nat.compare i index))) indexes.

  (** signal_vec.rs 2323-2328: binary_search_insert *)
  Definition sort_search_insert (values : list A) (indexes : list nat) (index : nat) : option nat :=
    let? r := sort_search values indexes index in
    match r with Found _ => None | NotFound new_index => Some new_index end.

  (** signal_vec.rs 2330-2332: binary_search_remove *)
  Definition sort_search_remove (values : list A) (indexes : list nat) (index : nat) : option nat :=
    let? r := sort_search values indexes index in
    match r with Found i => Some i | NotFound _ => None end.

  (** signal_vec.rs 2334-2342: increment_indexes *)
  Definition increment_indexes (indexes : list nat) (start : nat) : list nat :=
    map (fun i => if start <=? i then i + 1 else i) indexes.

  (** signal_vec.rs 2344-2352: decrement_indexes *)
  Definition decrement_indexes (indexes : list nat) (start : nat) : list nat :=
    map (fun i => if start <? i then i - 1 else i) indexes.

  (** signal_vec.rs 2354-2370: insert_at *)
  Definition sort_insert_at (indexes : list nat) (sorted_index index : nat) (value : A)
    : option (list nat * vecdiff A) :=
    if sorted_index =? length indexes
    then Some (indexes ++ [index], Push value)
    else let? indexes' := vinsert sorted_index index indexes in
         Some (indexes', InsertAt sorted_index value).

  (** signal_vec.rs 2372-2385: remove_at *)
  Definition sort_remove_at (indexes : list nat) (sorted_index : nat)
    : option (list nat * vecdiff A) :=
    let? last := usub (length indexes) 1 in
    if sorted_index =? last
    then match vpop indexes with
         | Some (_, indexes') => Some (indexes', Pop)
         | None => Some (indexes, Pop)
         end
    else let? (_, indexes') := vremove sorted_index indexes in
         Some (indexes', RemoveAt sorted_index).

  (** The fields pending, values, indexes (2305-2307). *)
  Record sort_state := mkSort {
    so_pending : option (vecdiff A); so_values : list A; so_indexes : list nat }.

  (** new_indexes.iter().map(|i| new_values[*i].clone()).collect() (2417) *)
  Fixpoint pick (values : list A) (indexes : list nat) : option (list A) :=
    match indexes with
    | [] => Some []
    | i :: indexes' =>
        let? v := nth_error values i in
        let? r := pick values indexes' in
        Some (v :: r)
    end.

  (** signal_vec.rs 2402-2530: the body of the loop, for one change. Output [None] stands for
      [continue]. *)
  Definition sort_step (s : sort_state) (change : vecdiff A)
    : option (sort_state * option (vecdiff A)) :=
    let '(mkSort pending values indexes) := s in
    match change with
    | Replace new_values =>
        let? new_indexes :=
          sort_unstable_by (compare_at new_values) (seq 0 (length new_values)) in
        let? sorted := pick new_values new_indexes in
        Some (mkSort pending new_values new_indexes, Some (Replace sorted))
    | InsertAt index value =>
        let? values' := vinsert index value values in
        let indexes' := increment_indexes indexes index in
        let? sorted_index := sort_search_insert values' indexes' index in
        let? (indexes'', out) := sort_insert_at indexes' sorted_index index value in
        Some (mkSort pending values' indexes'', Some out)
    | Push value =>
        let index := length values in
        let values' := values ++ [value] in
        let? sorted_index := sort_search_insert values' indexes index in
        let? (indexes', out) := sort_insert_at indexes sorted_index index value in
        Some (mkSort pending values' indexes', Some out)
    | UpdateAt index value =>
        let? old_index := sort_search_remove values indexes index in
        let? (indexes', old_output) := sort_remove_at indexes old_index in
        let? values' := vset index value values in
        let? new_index := sort_search_insert values' indexes' index in
        if old_index =? new_index then
          let? indexes'' := vinsert new_index index indexes' in
          Some (mkSort pending values' indexes'', Some (UpdateAt new_index value))
        else
          let? (indexes'', new_output) := sort_insert_at indexes' new_index index value in
          Some (mkSort (Some new_output) values' indexes'', Some old_output)
    | RemoveAt index =>
        let? sorted_index := sort_search_remove values indexes index in
        let? (_, values') := vremove index values in
        let indexes' := decrement_indexes indexes index in
        let? (indexes'', out) := sort_remove_at indexes' sorted_index in
        Some (mkSort pending values' indexes'', Some out)
    | Move old_index new_index =>
        let? old_sorted_index := sort_search_remove values indexes old_index in
        let? (value, values') := vremove old_index values in
        let indexes1 := decrement_indexes indexes old_index in
        let? (_, indexes2) := vremove old_sorted_index indexes1 in
        let? values'' := vinsert new_index value values' in
        let indexes3 := increment_indexes indexes2 new_index in
        let? new_sorted_index := sort_search_insert values'' indexes3 new_index in
        let? indexes4 := vinsert new_sorted_index new_index indexes3 in
        if old_sorted_index =? new_sorted_index
        then Some (mkSort pending values'' indexes4, None)
        else Some (mkSort pending values'' indexes4, Some (Move old_sorted_index new_sorted_index))
    | Pop =>
        let? index := usub (length values) 1 in
        let? sorted_index := sort_search_remove values indexes index in
        let values' := match vpop values with Some (_, v) => v | None => values end in
        let? (indexes', out) := sort_remove_at indexes sorted_index in
        Some (mkSort pending values' indexes', Some out)
    | Clear => Some (mkSort pending [] [], Some Clear)
    end.

  (** signal_vec.rs 2396-2533: poll_vec_change *)
  Definition sort_poll (st : sort_state * src (option (vecdiff A)))
    : option ((sort_state * src (option (vecdiff A))) * poll (option (vecdiff A))) :=
    let '(mkSort pending values indexes, sr) := st in
    match pending with
    | Some value => Some ((mkSort None values indexes, sr), Ready (Some value))
    | None => emit_poll sort_step (mkSort None values indexes, sr)
    end.

  (** signal_vec.rs 484-494: sort_by_cloned *)
  Definition sort_init : sort_state := mkSort None [] [].
End SortBy.
Arguments mkSort {A} so_pending so_values so_indexes.
Arguments so_pending {A} s.
Arguments so_values {A} s.
Arguments so_indexes {A} s.
Arguments sort_init {A}.
