(** SignalVec combinators that are one polling loop over one source: always, from_stream,
    map, debug, filter, filter_map, enumerate (signal_vec.rs). *)
From Verif Require Import Base Spec VecDiff.

(** ** signal_vec.rs 589-613: Always *)
(** State: the field [values]. poll_vec_change (600-602) takes it. *)
Definition always_poll {A} (values : option (list A)) : option (option (list A) * poll (option (vecdiff A))) :=
  match values with
  | Some vs => Some (None, Ready (Some (Replace vs)))
  | None => Some (None, Ready None)
  end.

(** ** signal_vec.rs 619-642: StreamSignalVec *)
(** poll_vec_change (627-631): one poll of the stream; written with the generic loop, whose
    body emits at each item, so the loop never iterates. *)
Definition stream_vec_step {A} (s : unit) (value : A) : option (unit * option (vecdiff A)) :=
  Some (tt, Some (Push value)).
Definition stream_vec_poll {A} := emit_poll (@stream_vec_step A).

(** ** signal_vec.rs 669-687: Map *)
(** State: the log of the calls made to the closure (ghost). poll_vec_change (682-686). *)
Definition vmap_step {A B} (f : A -> B) (calls : list A) (change : vecdiff A)
  : option (list A * option (vecdiff B)) :=
  let '(out, c) := vd_map f change in Some (calls ++ c, Some out).
Definition vmap_poll {A B} (f : A -> B) := emit_poll (vmap_step f).

(** ** signal_vec.rs 2277-2296: SignalVecDebug *)
(** poll_vec_change (2287-2295) forwards the answer; the log::trace! call has no effect here. *)
Definition vdebug_step {A} (s : unit) (change : vecdiff A) : option (unit * option (vecdiff A)) :=
  Some (tt, Some change).
Definition vdebug_poll {A} := emit_poll (@vdebug_step A).

(** ** signal_vec.rs 2010-2172: filter and filter_map *)

(** signal_vec.rs 2010-2012: find_index; slicing panics if [index > len]. *)
Definition find_index (indexes : list bool) (index : nat) : option nat :=
  if index <=? length indexes
  then Some (length (filter (fun x => x) (firstn index indexes)))
  else None.

Definition is_some {A} (o : option A) : bool := match o with Some _ => true | None => false end.

(** Iterator::filter_map of std. *)
Fixpoint iter_filter_map {A B} (f : A -> option B) (l : list A) : list B :=
  match l with
  | [] => []
  | a :: l' => match f a with
               | Some b => b :: iter_filter_map f l'
               | None => iter_filter_map f l'
               end
  end.

(** State of Filter / FilterMap: the field [indexes] and the log of closure calls (ghost). *)
Record fm_state (A : Type) := mkFm { fm_indexes : list bool; fm_calls : list A }.
Arguments mkFm {A} fm_indexes fm_calls.
Arguments fm_indexes {A} f.
Arguments fm_calls {A} f.

(** signal_vec.rs 2014-2119: poll_filter_map, the body of the loop for one change.
    Output [None] stands for [continue]. *)
Definition filter_map_step {A B} (f : A -> option B) (st : fm_state A) (change : vecdiff A)
  : option (fm_state A * option (vecdiff B)) :=
  let indexes := fm_indexes st in
  let calls := fm_calls st in
  match change with
  | Replace values =>
      (* 2023-2033 *)
      Some (mkFm (map (fun v => is_some (f v)) values) (calls ++ values),
            Some (Replace (iter_filter_map f values)))
  | InsertAt index value =>
      (* 2035-2044 *)
      match f value with
      | Some v =>
          let? indexes' := vinsert index true indexes in
          let? i := find_index indexes' index in
          Some (mkFm indexes' (calls ++ [value]), Some (InsertAt i v))
      | None =>
          let? indexes' := vinsert index false indexes in
          Some (mkFm indexes' (calls ++ [value]), None)
      end
  | UpdateAt index value =>
      (* 2046-2065 *)
      match f value with
      | Some v =>
          let? old := nth_error indexes index in
          if old : bool then
            let? i := find_index indexes index in
            Some (mkFm indexes (calls ++ [value]), Some (UpdateAt i v))
          else
            let? indexes' := vset index true indexes in
            let? i := find_index indexes' index in
            Some (mkFm indexes' (calls ++ [value]), Some (InsertAt i v))
      | None =>
          let? old := nth_error indexes index in
          if old : bool then
            let? indexes' := vset index false indexes in
            let? i := find_index indexes' index in
            Some (mkFm indexes' (calls ++ [value]), Some (RemoveAt i))
          else
            Some (mkFm indexes (calls ++ [value]), None)
      end
  | Move old_index new_index =>
      (* 2068-2081 *)
      let? (b, indexes1) := vremove old_index indexes in
      if b : bool then
        let? indexes2 := vinsert new_index true indexes1 in
        let? o := find_index indexes2 old_index in
        let? n := find_index indexes2 new_index in
        Some (mkFm indexes2 calls, Some (Move o n))
      else
        let? indexes2 := vinsert new_index false indexes1 in
        Some (mkFm indexes2 calls, None)
  | RemoveAt index =>
      (* 2083-2090 *)
      let? (b, indexes1) := vremove index indexes in
      if b : bool then
        let? i := find_index indexes1 index in
        Some (mkFm indexes1 calls, Some (RemoveAt i))
      else
        Some (mkFm indexes1 calls, None)
  | Push value =>
      (* 2092-2101 *)
      match f value with
      | Some v => Some (mkFm (indexes ++ [true]) (calls ++ [value]), Some (Push v))
      | None => Some (mkFm (indexes ++ [false]) (calls ++ [value]), None)
      end
  | Pop =>
      (* 2103-2110 *)
      let? (b, indexes1) := vpop indexes in
      if b : bool then Some (mkFm indexes1 calls, Some Pop)
      else Some (mkFm indexes1 calls, None)
  | Clear =>
      (* 2112-2115 *)
      Some (mkFm [] calls, Some Clear)
  end.

(** SignalVecExt::filter / filter_map start with an empty [indexes] (signal_vec.rs 154-573). *)
Definition fm_init {A} : fm_state A := mkFm [] [].

(** signal_vec.rs 2163-2172: FilterMap::poll_vec_change *)
Definition filter_map_poll {A B} (f : A -> option B) := emit_poll (filter_map_step f).

(** signal_vec.rs 2141-2147: the closure that Filter passes to poll_filter_map *)
Definition filter_closure {A} (p : A -> bool) (value : A) : option A :=
  if p value then Some value else None.

(** signal_vec.rs 2133-2149: Filter::poll_vec_change *)
Definition filter_poll {A} (p : A -> bool) := filter_map_poll (filter_closure p).

(** ** signal_vec.rs 1333-1456: Enumerate *)

(** A [Mutable<Option<usize>>] is a cell: a position in the heap of all cells that this
    combinator ever allocated. [read_only()] (the handle delivered to the consumer) is the
    same cell. Only the value of the Mutable is modelled here, not its notifications. *)
Definition heap := list (option nat).

(** Mutable::set on a cell (out of range cannot happen for an allocated cell). *)
Definition cell_set (h : heap) (c : nat) (v : option nat) : heap :=
  firstn c h ++ match skipn c h with [] => [] | _ :: t => v :: t end.
Definition cell_get (h : heap) (c : nat) : option nat := nth c h None.

(** 1344-1348: increment_indexes *)
Fixpoint increment_cells (h : heap) (range : list nat) : heap :=
  match range with
  | [] => h
  | c :: r => increment_cells (cell_set h c (match cell_get h c with
                                             | Some v => Some (v + 1)
                                             | None => None
                                             end)) r
  end.

(** 1350-1354: decrement_indexes; [value - 1] panics on 0. *)
Fixpoint decrement_cells (h : heap) (range : list nat) : option heap :=
  match range with
  | [] => Some h
  | c :: r =>
      match cell_get h c with
      | Some v => let? v' := usub v 1 in decrement_cells (cell_set h c (Some v')) r
      | None => decrement_cells (cell_set h c None) r
      end
  end.

(** [for mutable in mutables.drain(..) { mutable.set(None) }] *)
Definition clear_cells (h : heap) (cells : list nat) : heap :=
  fold_left (fun h c => cell_set h c None) cells h.

(** [&mutables[a..b]]; panics unless a <= b <= len. *)
Definition slice {A} (a b : nat) (l : list A) : option (list A) :=
  if (a <=? b) && (b <=? length l) then Some (firstn (b - a) (skipn a l)) else None.

(** State: the heap and the field [mutables]. *)
Record en_state := mkEn { en_heap : heap; en_mutables : list nat }.

(** 1369-1376: enumerate().map(...) over the new values: one fresh cell per value. *)
Fixpoint alloc_cells {A} (h : heap) (index : nat) (values : list A) : heap * list nat * list (nat * A) :=
  match values with
  | [] => (h, [], [])
  | v :: vs =>
      let c := length h in
      let '(h', cs, out) := alloc_cells (h ++ [Some index]) (index + 1) vs in
      (h', c :: cs, (c, v) :: out)
  end.

(** 1343-1455: Enumerate::poll_vec_change, for one change. *)
Definition enumerate_step {A} (st : en_state) (change : vecdiff A)
  : option (en_state * option (vecdiff (nat * A))) :=
  let h := en_heap st in
  let ms := en_mutables st in
  match change with
  | Replace values =>
      (* 1361-1377 *)
      let h1 := clear_cells h ms in
      let '(h2, cs, out) := alloc_cells h1 0 values in
      Some (mkEn h2 cs, Some (Replace out))
  | InsertAt index value =>
      (* 1379-1388 *)
      let c := length h in
      let h1 := h ++ [Some index] in
      let? ms' := vinsert index c ms in
      let? range := slice (index + 1) (length ms') ms' in
      Some (mkEn (increment_cells h1 range) ms', Some (InsertAt index (c, value)))
  | UpdateAt index value =>
      (* 1390-1392 *)
      let? c := nth_error ms index in
      Some (st, Some (UpdateAt index (c, value)))
  | Push value =>
      (* 1394-1401 *)
      let c := length h in
      Some (mkEn (h ++ [Some (length ms)]) (ms ++ [c]), Some (Push (c, value)))
  | Move old_index new_index =>
      (* 1403-1421 *)
      let? (c, ms1) := vremove old_index ms in
      let? ms2 := vinsert new_index c ms1 in
      let? h1 :=
        (if old_index <? new_index then
           let? range := slice old_index new_index ms2 in decrement_cells h range
         else if new_index <? old_index then
           let? range := slice (new_index + 1) (old_index + 1) ms2 in Some (increment_cells h range)
         else Some h) in
      Some (mkEn (cell_set h1 c (Some new_index)) ms2, Some (Move old_index new_index))
  | RemoveAt index =>
      (* 1423-1432 *)
      let? (c, ms1) := vremove index ms in
      let? range := slice index (length ms1) ms1 in
      let? h1 := decrement_cells h range in
      Some (mkEn (cell_set h1 c None) ms1, Some (RemoveAt index))
  | Pop =>
      (* 1434-1441 *)
      let? (c, ms1) := vpop ms in
      Some (mkEn (cell_set h c None) ms1, Some Pop)
  | Clear =>
      (* 1443-1450 *)
      Some (mkEn (clear_cells h ms) [], Some Clear)
  end.

Definition en_init : en_state := mkEn [] [].
Definition enumerate_poll {A} := emit_poll (@enumerate_step A).
