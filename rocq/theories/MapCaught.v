(** src/signal_map.rs when a Clone implementation or a waker panics in the middle of an operation of a MutableBTreeMapLockMut and the panic is
    caught before the guard is dropped, so that the lock does not get poisoned and the MutableBTreeMap is used on. *)
From Verif Require Import Base Spec Conc MapDiff MapSpec Mpsc MutMap.

(** The loops 536-538 and 552-563 with a panic at sender number [n]: of clone (559), or, if [sent], of the waker that unbounded_send calls after it
    has put the diff into the queue. Vec::retain keeps the senders that it has not got to. *)
Fixpoint msend_stop {D} (d : D) (n : nat) (sent : bool) (sn : list nat) (cs : list (chan D)) : list nat * list (chan D) :=
  match sn, n with
  | [], _ => ([], cs)
  | id :: _, 0 => (sn, if sent then fst (csend id d cs) else cs)
  | id :: rest, S n =>
      let '(cs1, ok) := csend id d cs in
      let '(sn2, cs2) := msend_stop d n sent rest cs1 in
      (if ok then id :: sn2 else sn2, cs2)
  end.

(** - [GEvent e]: as in MutMap.v;
    - [GStop d n sent]: an operation that sends [d], with such a panic at sender [n]. Every operation changes the contents first (580, 589, 608, 616,
      653, 659). [n = 0], not [sent]: also the clone of the key in remove (591), which comes after the change. The clones 606 and 614 come
      before it: then nothing has happened. There is no clone for the last sender (558) and none in clear and insert, so that not all [n] with
      [sent = false] can happen: the theorems hold for all, and the refutations use such as can. *)
Inductive gevent (K V : Type) := GEvent (e : mevent K V) | GStop (d : mapdiff K V) (n : nat) (sent : bool).
Arguments GEvent {K V} e. Arguments GStop {K V} d n sent.

Section MapCaught.
  Context {K V : Type} (cmp : K -> K -> comparison).

  Definition gstep (e : gevent K V) (st : mmap K V) : option (mmap K V) :=
    match e with
    | GEvent e => mm_event cmp e st
    | GStop d n sent =>
        if 0 <? mm_owners st then
          match apply_to_map cmp d (mm_values st) with
          | Some v => let '(sn, cs) := msend_stop d n sent (mm_senders st) (mm_chans st) in Some (mkMap v sn cs (mm_owners st))
          | None => Some st
          end
        else Some st
    end.
  Fixpoint grun (es : list (gevent K V)) st : option (mmap K V) :=
    match es with
    | [] => Some st
    | e :: es' => let? st' := gstep e st in grun es' st'
    end.

  (** A diff that says everything. *)
  Definition whole (d : mapdiff K V) : bool := match d with MReplace _ | MClear => true | _ => false end.

  (** Which subscribers have missed a diff that no later diff makes up for, given who had before the event. *)
  Definition behind (e : gevent K V) (st : mmap K V) (b : nat -> bool) : nat -> bool :=
    if 0 <? mm_owners st then
      match e with
      | GEvent (MOp (MOReplace _)) | GEvent (MOp (MOReplaceCloned _)) => fun _ => false
      | GEvent (MOp MOClear) => match mm_values st with [] => b | _ => fun _ => false end
      | GEvent MSubscribe => fupd (length (mm_chans st)) false b
      | GStop d n sent =>
          match apply_to_map cmp d (mm_values st) with
          | Some _ => fun id => if existsb (Nat.eqb id) (firstn (if sent then S n else n) (mm_senders st)) then b id && negb (whole d) else true
          | None => b
          end
      | _ => b
      end
    else b.
  Fixpoint behind_run (es : list (gevent K V)) st (b : nat -> bool) : nat -> bool :=
    match es with
    | [] => b
    | e :: es' => match gstep e st with Some st' => behind_run es' st' (behind e st b) | None => b end
    end.

  (** The diffs give the contents, if one begins with the first, or with one that says everything. *)
  Definition caught_up (ds : list (mapdiff K V)) (m : list (K * V)) : Prop :=
    exists pre suf, ds = pre ++ suf /\ mreplay cmp suf = Some m
      /\ (pre = [] \/ exists d suf', suf = d :: suf' /\ whole d = true).
End MapCaught.
