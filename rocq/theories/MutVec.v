(** MutableVec and its subscribers (signal_vec.rs 2778-3482). *)
From Verif Require Import Base Spec VecDiff.

(** Outcome of an operation: it returns, or it panics and leaves the given state behind
    (the RwLock is then poisoned: the write guard is dropped while panicking). *)
Inductive res (S R : Type) : Type :=
| Done (s : S) (r : R)
| Panic (s : S).
Arguments Done {S R} s r.
Arguments Panic {S R} s.

Definition bind {S R Q} (x : res S R) (k : S -> R -> res S Q) : res S Q :=
  match x with Done s r => k s r | Panic s => Panic s end.

(** One subscriber: the receiving half of futures_channel::mpsc::unbounded, modelled by its
    documentation. [queue]: messages not yet received; [got]: the answers to its polls so far
    (ghost); [alive]: the MutableSignalVec was not dropped; [waiting]: a waker is registered;
    [woken]: the registered waker was woken (since the last poll). *)
Record sub (A : Type) := mkSub {
  queue : list (vecdiff A); got : list (poll (option (vecdiff A)));
  alive : bool; waiting : bool; woken : bool }.
Arguments mkSub {A} queue got alive waiting woken.
Arguments queue {A} s.
Arguments got {A} s.
Arguments alive {A} s.
Arguments waiting {A} s.
Arguments woken {A} s.

(** 2825-2828: MutableVecState, with the channels it is connected to: [senders] are positions in
    [subs]. [owners]: number of MutableVec handles (the Arc's strong count). [poisoned]: a
    write guard was dropped while panicking. *)
Record mvec (A : Type) := mkVec {
  values : list A; senders : list nat; subs : list (sub A); owners : nat; poisoned : bool }.
Arguments mkVec {A} values senders subs owners poisoned.
Arguments values {A} m.
Arguments senders {A} m.
Arguments subs {A} m.
Arguments owners {A} m.
Arguments poisoned {A} m.

Definition set_values {A} (v : list A) (st : mvec A) : mvec A :=
  mkVec v (senders st) (subs st) (owners st) (poisoned st).

(** mpsc: a message arrives, the registered waker is woken. *)
Definition deliver {A} (d : vecdiff A) (s : sub A) : sub A :=
  mkSub (queue s ++ [d]) (got s) (alive s) false (woken s || waiting s).

(** mpsc::UnboundedSender::unbounded_send; the boolean is [is_ok()]. *)
Definition unbounded_send {A} (id : nat) (d : vecdiff A) (ss : list (sub A)) : list (sub A) * bool :=
  match nth_error ss id with
  | Some s => if alive s then (firstn id ss ++ deliver d s :: skipn (id + 1) ss, true) else (ss, false)
  | None => (ss, false)
  end.

(** 2833-2837: notify. [self.senders.retain(...)]. *)
Fixpoint retain_send {A} (change : vecdiff A) (sn : list nat) (ss : list (sub A)) : list nat * list (sub A) :=
  match sn with
  | [] => ([], ss)
  | id :: rest =>
      let '(ss1, ok) := unbounded_send id change ss in
      let '(sn2, ss2) := retain_send change rest ss1 in
      (if ok then id :: sn2 else sn2, ss2)
  end.

Definition notify {A} (change : vecdiff A) (st : mvec A) : mvec A :=
  let '(sn, ss) := retain_send change (senders st) (subs st) in
  mkVec (values st) sn ss (owners st) (poisoned st).

(** 2855-2870: the retain loop of notify_with. [copy.take().unwrap()] panics if the copy is
    gone. Cloning a value gives the same value. *)
Fixpoint retain_with {A B} (mk : B -> vecdiff A) (copy : option B) (len : nat)
  (sn : list nat) (ss : list (sub A)) : option (list nat * list (sub A)) :=
  match sn with
  | [] => Some ([], ss)
  | id :: rest =>
      let? value := copy in
      let? len' := usub len 1 in
      let copy' := if len' =? 0 then None else Some value in
      let '(ss1, ok) := unbounded_send id (mk value) ss in
      let? (sn2, ss2) := retain_with mk copy' len' rest ss1 in
      Some (if ok then id :: sn2 else sn2, ss2)
  end.

(** 2840-2872: notify_with; [change] may panic (an index out of range). *)
Definition notify_with {A B} (value : B) (change : mvec A -> B -> res (mvec A) unit)
  (mk : B -> vecdiff A) (st : mvec A) : res (mvec A) unit :=
  let len := length (senders st) in
  if len =? 0 then change st value
  else
    bind (change st value) (fun st1 _ =>
      match retain_with mk (Some value) len (senders st1) (subs st1) with
      | Some (sn, ss) => Done (mkVec (values st1) sn ss (owners st1) (poisoned st1)) tt
      | None => Panic st1
      end).

(** 2874-2882: pop *)
Definition mv_pop {A} (st : mvec A) : res (mvec A) (option A) :=
  match vpop (values st) with
  | Some (value, v') => Done (notify Pop (set_values v' st)) (Some value)
  | None => Done st None
  end.

(** 2884-2897: remove; Vec::remove panics before anything is changed. *)
Definition mv_remove {A} (index : nat) (st : mvec A) : res (mvec A) A :=
  let len := length (values st) in
  match vremove index (values st) with
  | None => Panic st
  | Some (value, v') =>
      let st1 := set_values v' st in
      match usub len 1 with
      | None => Panic st1
      | Some last =>
          if index =? last then Done (notify Pop st1) value
          else Done (notify (RemoveAt index) st1) value
      end
  end.

(** 2899-2905: move_from_to; if the insertion panics the element is already removed. *)
Definition mv_move_from_to {A} (old_index new_index : nat) (st : mvec A) : res (mvec A) unit :=
  if negb (old_index =? new_index) then
    match vremove old_index (values st) with
    | None => Panic st
    | Some (value, v1) =>
        let st1 := set_values v1 st in
        match vinsert new_index value (values st1) with
        | None => Panic st1
        | Some v2 => Done (notify (Move old_index new_index) (set_values v2 st1)) tt
        end
    end
  else Done st tt.

(** 2907-2913: clear *)
Definition mv_clear {A} (st : mvec A) : res (mvec A) unit :=
  if 0 <? length (values st) then Done (notify Clear (set_values [] st)) tt
  else Done st tt.

(** 2923-2933: the closure given to Vec::retain, which std calls once per element, in order.
    Result: the kept elements, the removed indexes, the elements the predicate was asked about. *)
Fixpoint retain_loop {A} (f : A -> bool) (index : nat) (l : list A) : list A * list nat * list A :=
  match l with
  | [] => ([], [], [])
  | value :: l' =>
      let output := f value in
      let '(kept, removals, calls) := retain_loop f (index + 1) l' in
      (if output then value :: kept else kept,
       if output then removals else index :: removals,
       value :: calls)
  end.

(** 2940-2949 and 2961-2970: [for index in indexes.rev() { len -= 1; notify(Pop or RemoveAt) }];
    [indexes] is already reversed here. *)
Fixpoint notify_removals {A} (indexes : list nat) (len : nat) (st : mvec A) : res (mvec A) unit :=
  match indexes with
  | [] => Done st tt
  | index :: rest =>
      match usub len 1 with
      | None => Panic st
      | Some len' =>
          let st1 := if index =? len' then notify Pop st else notify (RemoveAt index) st in
          notify_removals rest len' st1
      end
  end.

(** 2915-2952: retain; returns the call log (ghost). *)
Definition mv_retain {A} (f : A -> bool) (st : mvec A) : res (mvec A) (list A) :=
  let len := length (values st) in
  if 0 <? len then
    let '(kept, removals, calls) := retain_loop f 0 (values st) in
    let st1 := set_values kept st in
    if length (values st1) =? 0 then Done (notify Clear st1) calls
    else bind (notify_removals (rev removals) len st1) (fun st2 _ => Done st2 calls)
  else Done st [].

(** 2954-2973: remove_range *)
Definition mv_remove_range {A} (start stop len : nat) (st : mvec A) : res (mvec A) unit :=
  if start <? stop then
    if (start =? 0) && (stop =? len) then Done (notify Clear st) tt
    else notify_removals (rev (seq start (stop - start))) len st
  else Done st tt.

(** std::ops::Bound *)
Inductive bound := Included (n : nat) | Excluded (n : nat) | Unbounded.

(** 2796-2821: convert_range. [checked_add] fails only at usize::MAX (not modelled). *)
Definition convert_range (start_bound end_bound : bound) (len : nat) : option (nat * nat) :=
  let start := match start_bound with Included s => s | Excluded s => s + 1 | Unbounded => 0 end in
  let stop := match end_bound with Included e => e + 1 | Excluded e => e | Unbounded => len end in
  if stop <? start then None
  else if len <? stop then None
  else Some (start, stop).

(** 2975-2980: drain. The returned Drain is consumed or dropped before the guard is released
    (leaking it with mem::forget is not modelled). *)
Definition mv_drain {A} (b1 b2 : bound) (st : mvec A) : res (mvec A) (list A) :=
  let len := length (values st) in
  match convert_range b1 b2 len with
  | None => Panic st
  | Some (start, stop) =>
      bind (mv_remove_range start stop len st) (fun st1 _ =>
        let v := values st1 in
        Done (set_values (firstn start v ++ skipn stop v) st1) (firstn (stop - start) (skipn start v)))
  end.

(** 2982-2990: truncate *)
Definition mv_truncate {A} (len : nat) (st : mvec A) : res (mvec A) unit :=
  let stop := length (values st) in
  bind (mv_remove_range len stop stop st) (fun st1 _ =>
    Done (set_values (firstn len (values st1)) st1) tt).

(** 3003-3015 and 3056-3068: signal_vec_copy / signal_vec_clone (the two bodies are the same up
    to how the values are copied). *)
Definition mv_subscribe {A} (st : mvec A) : mvec A :=
  let initial := if 0 <? length (values st) then [Replace (values st)] else [] in
  mkVec (values st) (senders st ++ [length (subs st)])
        (subs st ++ [mkSub initial [] true false false]) (owners st) (poisoned st).

(** 3017-3020: push_copy *)
Definition mv_push_copy {A} (value : A) (st : mvec A) : res (mvec A) unit :=
  Done (notify (Push value) (set_values (values st ++ [value]) st)) tt.

(** 3022-3030: insert_copy *)
Definition mv_insert_copy {A} (index : nat) (value : A) (st : mvec A) : res (mvec A) unit :=
  if index =? length (values st) then mv_push_copy value st
  else match vinsert index value (values st) with
       | None => Panic st
       | Some v' => Done (notify (InsertAt index value) (set_values v' st)) tt
       end.

(** 3032-3035: set_copy *)
Definition mv_set_copy {A} (index : nat) (value : A) (st : mvec A) : res (mvec A) unit :=
  match vset index value (values st) with
  | None => Panic st
  | Some v' => Done (notify (UpdateAt index value) (set_values v' st)) tt
  end.

(** 3037-3042: replace_copy *)
Definition mv_replace_copy {A} (vs : list A) (st : mvec A) : res (mvec A) unit :=
  notify_with vs (fun this v => Done (set_values v this) tt) Replace st.

(** 3047-3053: notify_clone is notify_with. *)

(** 3070-3074: push_clone *)
Definition mv_push_clone {A} (value : A) (st : mvec A) : res (mvec A) unit :=
  notify_with value (fun this v => Done (set_values (values this ++ [v]) this) tt) Push st.

(** 3076-3085: insert_clone *)
Definition mv_insert_clone {A} (index : nat) (value : A) (st : mvec A) : res (mvec A) unit :=
  if index =? length (values st) then mv_push_clone value st
  else notify_with value
         (fun this v => match vinsert index v (values this) with
                        | Some v' => Done (set_values v' this) tt
                        | None => Panic this
                        end)
         (fun v => InsertAt index v) st.

(** 3087-3091: set_clone *)
Definition mv_set_clone {A} (index : nat) (value : A) (st : mvec A) : res (mvec A) unit :=
  notify_with value
    (fun this v => match vset index v (values this) with
                   | Some v' => Done (set_values v' this) tt
                   | None => Panic this
                   end)
    (fun v => UpdateAt index v) st.

(** 3093-3097: replace_clone *)
Definition mv_replace_clone {A} (vs : list A) (st : mvec A) : res (mvec A) unit :=
  notify_with vs (fun this v => Done (set_values v this) tt) Replace st.

(** 3100-3104: extend *)
Fixpoint mv_extend {A} (vs : list A) (st : mvec A) : res (mvec A) unit :=
  match vs with
  | [] => Done st tt
  | value :: rest => bind (mv_push_clone value st) (fun st1 _ => mv_extend rest st1)
  end.

(** 3237-3246: swap; [b - 1] cannot underflow because a < b. *)
Definition mv_swap {A} (a b : nat) (st : mvec A) : res (mvec A) unit :=
  if a <? b then
    bind (mv_move_from_to a b st) (fun st1 _ => mv_move_from_to (b - 1) a st1)
  else if b <? a then
    bind (mv_move_from_to a b st) (fun st1 _ => mv_move_from_to (b + 1) a st1)
  else Done st tt.

(** 3271-3274: [while i < end { move_from_to(end, i); i += 1 }]; [n] counts [end - i]. *)
Fixpoint reverse_loop {A} (n stop i : nat) (st : mvec A) : res (mvec A) unit :=
  match n with
  | 0 => Done st tt
  | S n' => bind (mv_move_from_to stop i st) (fun st1 _ => reverse_loop n' stop (i + 1) st1)
  end.

(** 3264-3276: reverse *)
Definition mv_reverse {A} (st : mvec A) : res (mvec A) unit :=
  let len := length (values st) in
  if 1 <? len then reverse_loop (len - 1) (len - 1) 0 st else Done st tt.

(** Result of an operation, for the specification: what the caller gets back. [RCalls] is the
    ghost log of the calls of retain's predicate. *)
Inductive ret (A : Type) : Type :=
| RUnit | ROpt (o : option A) | RVal (a : A) | RVals (l : list A) | RCalls (l : list A).
Arguments RUnit {A}.
Arguments ROpt {A} o.
Arguments RVal {A} a.
Arguments RVals {A} l.
Arguments RCalls {A} l.

Definition with_ret {A R} (g : R -> ret A) (x : res (mvec A) R) : res (mvec A) (ret A) :=
  bind x (fun st r => Done st (g r)).

(** 3339-3350: apply_vec_diff *)
Definition mv_apply_vec_diff {A} (diff : vecdiff A) (st : mvec A) : res (mvec A) (ret A) :=
  match diff with
  | Replace vs => with_ret (fun _ => RUnit) (mv_replace_clone vs st)
  | InsertAt index value => with_ret (fun _ => RUnit) (mv_insert_clone index value st)
  | UpdateAt index value => with_ret (fun _ => RUnit) (mv_set_clone index value st)
  | RemoveAt index => with_ret (fun _ => RUnit) (mv_remove index st)
  | Move old_index new_index => with_ret (fun _ => RUnit) (mv_move_from_to old_index new_index st)
  | Push value => with_ret (fun _ => RUnit) (mv_push_clone value st)
  | Pop => bind (mv_pop st) (fun st1 r => match r with Some _ => Done st1 RUnit | None => Panic st1 end)
  | Clear => with_ret (fun _ => RUnit) (mv_clear st)
  end.

(** The operations of MutableVecLockMut (3216-3361). *)
Inductive op (A : Type) : Type :=
| OPop | ORemove (i : nat) | OMove (o n : nat) | OClear | ORetain (f : A -> bool)
| ODrain (b1 b2 : bound) | OTruncate (n : nat) | OSwap (a b : nat) | OReverse
| OPush (v : A) | OInsert (i : nat) (v : A) | OSet (i : nat) (v : A) | OReplace (vs : list A)
| OPushCloned (v : A) | OInsertCloned (i : nat) (v : A) | OSetCloned (i : nat) (v : A)
| OReplaceCloned (vs : list A) | OExtend (vs : list A) | OApply (d : vecdiff A).
Arguments OPop {A}.
Arguments ORemove {A} i.
Arguments OMove {A} o n.
Arguments OClear {A}.
Arguments ORetain {A} f.
Arguments ODrain {A} b1 b2.
Arguments OTruncate {A} n.
Arguments OSwap {A} a b.
Arguments OReverse {A}.
Arguments OPush {A} v.
Arguments OInsert {A} i v.
Arguments OSet {A} i v.
Arguments OReplace {A} vs.
Arguments OPushCloned {A} v.
Arguments OInsertCloned {A} i v.
Arguments OSetCloned {A} i v.
Arguments OReplaceCloned {A} vs.
Arguments OExtend {A} vs.
Arguments OApply {A} d.

(** 3216-3361: the methods only forward to MutableVecState. *)
Definition mv_op {A} (o : op A) (st : mvec A) : res (mvec A) (ret A) :=
  match o with
  | OPop => with_ret ROpt (mv_pop st)
  | ORemove i => with_ret RVal (mv_remove i st)
  | OMove o n => with_ret (fun _ => RUnit) (mv_move_from_to o n st)
  | OClear => with_ret (fun _ => RUnit) (mv_clear st)
  | ORetain f => with_ret RCalls (mv_retain f st)
  | ODrain b1 b2 => with_ret RVals (mv_drain b1 b2 st)
  | OTruncate n => with_ret (fun _ => RUnit) (mv_truncate n st)
  | OSwap a b => with_ret (fun _ => RUnit) (mv_swap a b st)
  | OReverse => with_ret (fun _ => RUnit) (mv_reverse st)
  | OPush v => with_ret (fun _ => RUnit) (mv_push_copy v st)
  | OInsert i v => with_ret (fun _ => RUnit) (mv_insert_copy i v st)
  | OSet i v => with_ret (fun _ => RUnit) (mv_set_copy i v st)
  | OReplace vs => with_ret (fun _ => RUnit) (mv_replace_copy vs st)
  | OPushCloned v => with_ret (fun _ => RUnit) (mv_push_clone v st)
  | OInsertCloned i v => with_ret (fun _ => RUnit) (mv_insert_clone i v st)
  | OSetCloned i v => with_ret (fun _ => RUnit) (mv_set_clone i v st)
  | OReplaceCloned vs => with_ret (fun _ => RUnit) (mv_replace_clone vs st)
  | OExtend vs => with_ret (fun _ => RUnit) (mv_extend vs st)
  | OApply d => mv_apply_vec_diff d st
  end.

(** 3402-3410: MutableVec::from; one handle, no subscriber. *)
Definition mv_new {A} (vs : list A) : mvec A := mkVec vs [] [] 1 false.

(** 3468-3481: MutableSignalVec::poll_vec_change = UnboundedReceiver::poll_next: the next message; if
    there is none, Ready(None) when all senders are gone, else Pending and the waker is stored. *)
Definition poll_sub {A} (closed : bool) (s : sub A) : sub A * poll (option (vecdiff A)) :=
  match queue s with
  | d :: q => (mkSub q (got s ++ [Ready (Some d)]) (alive s) (waiting s) false, Ready (Some d))
  | [] => if closed then (mkSub [] (got s ++ [Ready None]) (alive s) (waiting s) false, Ready None)
          else (mkSub [] (got s ++ [Pending]) (alive s) true false, Pending)
  end.

(** When the last sender is dropped the receiver's task is woken. *)
Definition close_sub {A} (s : sub A) : sub A :=
  mkSub (queue s) (got s) (alive s) false (woken s || waiting s).

Definition drop_sub {A} (s : sub A) : sub A :=
  mkSub (queue s) (got s) false (waiting s) (woken s).

(** Everything that can happen to one MutableVec. *)
Inductive event (A : Type) : Type :=
| EOp (o : op A)          (* lock_mut().op(...) *)
| ESubscribe              (* signal_vec() / signal_vec_cloned() *)
| EPoll (id : nat)        (* poll_vec_change of a subscriber *)
| EDropSub (id : nat)     (* drop of a subscriber *)
| EClone                  (* clone of the MutableVec handle (3459-3464) *)
| EDrop.                  (* drop of a MutableVec handle *)
Arguments EOp {A} o.
Arguments ESubscribe {A}.
Arguments EPoll {A} id.
Arguments EDropSub {A} id.
Arguments EClone {A}.
Arguments EDrop {A}.

Definition set_sub {A} (id : nat) (s : sub A) (st : mvec A) : mvec A :=
  mkVec (values st) (senders st) (firstn id (subs st) ++ s :: skipn (id + 1) (subs st)) (owners st) (poisoned st).

Definition poison {A} (st : mvec A) : mvec A :=
  mkVec (values st) (senders st) (subs st) (owners st) true.

(** One event. Without a handle, or with a poisoned lock, the operations cannot be performed
    ([.unwrap()] of the poisoned lock panics and changes nothing). Dropped subscribers are not
    polled. Dropping the last handle drops the MutableVecState with its senders. *)
Definition mv_event {A} (e : event A) (st : mvec A) : mvec A :=
  match e with
  | EOp o => if (0 <? owners st) && negb (poisoned st)
             then match mv_op o st with Done st' _ => st' | Panic st' => poison st' end
             else st
  | ESubscribe => if (0 <? owners st) && negb (poisoned st) then mv_subscribe st else st
  | EPoll id => match nth_error (subs st) id with
                | Some s => if alive s then set_sub id (fst (poll_sub (owners st =? 0) s)) st else st
                | None => st
                end
  | EDropSub id => match nth_error (subs st) id with
                   | Some s => set_sub id (drop_sub s) st
                   | None => st
                   end
  | EClone => if 0 <? owners st
              then mkVec (values st) (senders st) (subs st) (owners st + 1) (poisoned st) else st
  | EDrop => match owners st with
             | 0 => st
             | 1 => mkVec (values st) [] (map close_sub (subs st)) 0 (poisoned st)
             | S n => mkVec (values st) (senders st) (subs st) n (poisoned st)
             end
  end.

Definition mv_run {A} (es : list (event A)) (st : mvec A) : mvec A :=
  fold_left (fun st e => mv_event e st) es st.
