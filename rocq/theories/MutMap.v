(** signal_map.rs 510-947: MutableBTreeMap and its subscribers. *)
From Verif Require Import Base Spec MapDiff Mpsc.

(** signal_map.rs 527-530: MutableBTreeState, with the channels it is connected to: [mm_senders] are
    positions in [mm_chans]. [mm_owners]: number of MutableBTreeMap handles (the Arc's count). *)
Record mmap (K V : Type) := mkMap {
  mm_values : list (K * V); mm_senders : list nat; mm_chans : list (chan (mapdiff K V)); mm_owners : nat }.
Arguments mkMap {K V} mm_values mm_senders mm_chans mm_owners.
Arguments mm_values {K V} m.
Arguments mm_senders {K V} m.
Arguments mm_chans {K V} m.
Arguments mm_owners {K V} m.

(** What an operation returns. *)
Inductive mret (V : Type) := RNothing | ROld (old : option V).
Arguments RNothing {V}.
Arguments ROld {V} old.

(** The operations of MutableBTreeMapLockMut (765-801). The argument of replace is a BTreeMap, which
    is built from the entries [es] ([m] itself is built from its own entries). *)
Inductive mop (K V : Type) : Type :=
| MOClear
| MORemove (k : K)
| MOReplaceCloned (es : list (K * V))
| MOInsertCloned (k : K) (v : V)
| MOReplace (es : list (K * V))
| MOInsert (k : K) (v : V).
Arguments MOClear {K V}.
Arguments MORemove {K V} k.
Arguments MOReplaceCloned {K V} es.
Arguments MOInsertCloned {K V} k v.
Arguments MOReplace {K V} es.
Arguments MOInsert {K V} k v.

(** Everything that can happen to one MutableBTreeMap. *)
Inductive mevent (K V : Type) : Type :=
| MOp (o : mop K V)       (* lock_mut().op(...) *)
| MSubscribe              (* signal_map() / signal_map_cloned() *)
| MPoll (id : nat)        (* poll_map_change of a subscriber *)
| MDropSub (id : nat)     (* drop of a subscriber *)
| MClone                  (* clone of the handle (924-929) *)
| MDrop.                  (* drop of a handle *)
Arguments MOp {K V} o.
Arguments MSubscribe {K V}.
Arguments MPoll {K V} id.
Arguments MDropSub {K V} id.
Arguments MClone {K V}.
Arguments MDrop {K V}.

Section MutMap.
  Context {K V : Type} (cmp : K -> K -> comparison).

  Definition mm_set (v : list (K * V)) st : mmap K V := mkMap v (mm_senders st) (mm_chans st) (mm_owners st).

  (** 536-538: [self.senders.retain(|sender| sender.unbounded_send(change()).is_ok())] *)
  Fixpoint mm_retain (change : mapdiff K V) (sn : list nat) (cs : list (chan (mapdiff K V)))
    : list nat * list (chan (mapdiff K V)) :=
    match sn with
    | [] => ([], cs)
    | id :: rest =>
        let '(cs1, ok) := csend id change cs in
        let '(sn2, cs2) := mm_retain change rest cs1 in
        (if ok then id :: sn2 else sn2, cs2)
    end.

  (** 535-539: notify *)
  Definition mm_notify (change : mapdiff K V) (st : mmap K V) : mmap K V :=
    let '(sn, cs) := mm_retain change (mm_senders st) (mm_chans st) in
    mkMap (mm_values st) sn cs (mm_owners st).

  (** 552-563: the retain loop of notify_clone. [copy.take().unwrap()] panics if the copy is gone. *)
  Fixpoint mm_retain_clone {A} (f : A -> mapdiff K V) (copy : option A) (len : nat)
    (sn : list nat) (cs : list (chan (mapdiff K V))) : option (list nat * list (chan (mapdiff K V))) :=
    match sn with
    | [] => Some ([], cs)
    | id :: rest =>
        let? value := copy in
        let? len' := usub len 1 in
        let copy' := if negb (len' =? 0) then Some value else None in
        let '(cs1, ok) := csend id (f value) cs in
        let? (sn2, cs2) := mm_retain_clone f copy' len' rest cs1 in
        Some (if ok then id :: sn2 else sn2, cs2)
    end.

  (** 545-566: notify_clone *)
  Definition mm_notify_clone {A} (value : option A) (f : A -> mapdiff K V) (st : mmap K V) : option (mmap K V) :=
    match value with
    | Some value =>
        let len := length (mm_senders st) in
        if 0 <? len then
          let? (sn, cs) := mm_retain_clone f (Some value) len (mm_senders st) (mm_chans st) in
          Some (mkMap (mm_values st) sn cs (mm_owners st))
        else Some st
    | None => Some st
    end.

  (** 569-576: change *)
  Definition mm_change {A} (a : A) (st : mmap K V) : option A :=
    match mm_senders st with [] => None | _ => Some a end.

  (** 578-584: clear *)
  Definition mm_clear (st : mmap K V) : option (mmap K V * mret V) :=
    match mm_values st with
    | [] => Some (st, RNothing)
    | _ => Some (mm_notify MClear (mm_set [] st), RNothing)
    end.

  (** 588-595: remove *)
  Definition mm_remove (key : K) (st : mmap K V) : option (mmap K V * mret V) :=
    match bt_get cmp key (mm_values st) with
    | None => Some (st, ROld None)
    | Some value =>
        let st1 := mm_set (bt_remove cmp key (mm_values st)) st in
        let? st2 := mm_notify_clone (mm_change key st1) MRemove st1 in
        Some (st2, ROld (Some value))
    end.

  (** 605-611 and 650-656: replace_cloned, replace (the same up to clone or copy; the entries
      (599-603, 644-648) are those of the new map in its order). *)
  Definition mm_replace (values : list (K * V)) st : option (mmap K V * mret V) :=
    let entries := mm_change values st in
    let? st1 := mm_notify_clone entries MReplace (mm_set values st) in
    Some (st1, RNothing).

  (** 613-624: insert_cloned *)
  Definition mm_insert_cloned (key : K) (value : V) (st : mmap K V) : option (mmap K V * mret V) :=
    let x := mm_change (key, value) st in
    let st1 := mm_set (bt_insert cmp key value (mm_values st)) st in
    match bt_get cmp key (mm_values st) with
    | Some old => let? st2 := mm_notify_clone x (fun '(key, value) => MUpdate key value) st1 in Some (st2, ROld (Some old))
    | None => let? st2 := mm_notify_clone x (fun '(key, value) => MInsert key value) st1 in Some (st2, ROld None)
    end.

  (** 658-667: insert *)
  Definition mm_insert (key : K) (value : V) (st : mmap K V) : option (mmap K V * mret V) :=
    let st1 := mm_set (bt_insert cmp key value (mm_values st)) st in
    match bt_get cmp key (mm_values st) with
    | Some old => Some (mm_notify (MUpdate key value) st1, ROld (Some old))
    | None => Some (mm_notify (MInsert key value) st1, ROld None)
    end.

  Definition mm_op (o : mop K V) (st : mmap K V) : option (mmap K V * mret V) :=
    match o with
    | MOClear => mm_clear st
    | MORemove k => mm_remove k st
    | MOReplaceCloned es | MOReplace es => mm_replace (bt_from_iter cmp es) st
    | MOInsertCloned k v => mm_insert_cloned k v st
    | MOInsert k v => mm_insert k v st
    end.

  (** 626-640 and 669-683: signal_map_cloned, signal_map. The initial send cannot fail: the receiver
      exists. *)
  Definition mm_subscribe (st : mmap K V) : mmap K V :=
    let messages := match mm_values st with [] => [] | _ => [MReplace (mm_values st)] end in
    mkMap (mm_values st) (mm_senders st ++ [length (mm_chans st)]) (mm_chans st ++ [new_chan messages]) (mm_owners st).

  Definition mm_set_chan (id : nat) (s : chan (mapdiff K V)) st : mmap K V :=
    mkMap (mm_values st) (mm_senders st) (firstn id (mm_chans st) ++ s :: skipn (id + 1) (mm_chans st)) (mm_owners st).

  (** One event; [None] = panic. Without a handle the operations cannot be performed. Dropped
      subscribers are not polled. Dropping the last handle drops the senders. A subscriber's poll is
      943-946. *)
  Definition mm_event (e : mevent K V) (st : mmap K V) : option (mmap K V) :=
    match e with
    | MOp o => if 0 <? mm_owners st then option_map fst (mm_op o st) else Some st
    | MSubscribe => Some (if 0 <? mm_owners st then mm_subscribe st else st)
    | MPoll id => Some (match nth_error (mm_chans st) id with
                        | Some s => if calive s then mm_set_chan id (fst (cpoll (mm_owners st =? 0) s)) st else st
                        | None => st
                        end)
    | MDropSub id => Some (match nth_error (mm_chans st) id with
                           | Some s => mm_set_chan id (cdrop s) st
                           | None => st
                           end)
    | MClone => Some (if 0 <? mm_owners st
                      then mkMap (mm_values st) (mm_senders st) (mm_chans st) (mm_owners st + 1) else st)
    | MDrop => Some (match mm_owners st with
                     | 0 => st
                     | 1 => mkMap (mm_values st) [] (map cclose (mm_chans st)) 0
                     | S n => mkMap (mm_values st) (mm_senders st) (mm_chans st) n
                     end)
    end.

  Fixpoint mm_run (es : list (mevent K V)) st : option (mmap K V) :=
    match es with
    | [] => Some st
    | e :: es' => let? st' := mm_event e st in mm_run es' st'
    end.

  (** 811-813, 834-836, 841-846: with_values / new / from. *)
  Definition mm_new (entries : list (K * V)) : mmap K V := mkMap (bt_from_iter cmp entries) [] [] 1.
End MutMap.
