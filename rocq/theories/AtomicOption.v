(** src/atomic.rs: AtomicOption, as an interleaving model with an explicit heap of boxes. *)
From Verif Require Import Base Conc.

(** Which public function an operation belongs to (atomic.rs 85-100). *)
Inductive ao_kind := KSwap | KStore | KTake.

(** Program counter of one call; each constructor is the next thing the call does.
    - [AToPtr]: 86 with 60-66, allocate the box (private until the swap);
    - [ASwap]: 87, the atomic pointer swap;
    - [AFrom]: 88 with 68-76, move the value out of the old box and free it; [n] is the position of
      this call in the log of swaps (ghost);
    - [ADrop]: 94, [store] drops the old value;
    - [ADone]: the call returned [ret] ([store] returns nothing: [ret] is the value it destroyed). *)
Inductive ao_pc (A : Type) :=
| AToPtr (k : ao_kind) (value : option A)
| ASwap (k : ao_kind) (new_ptr : option nat)
| AFrom (k : ao_kind) (old_ptr : option nat) (n : nat)
| ADrop (value : option A) (n : nat)
| ADone (k : ao_kind) (ret : option A) (n : nat).
Arguments AToPtr {A} k value.
Arguments ASwap {A} k new_ptr.
Arguments AFrom {A} k old_ptr n.
Arguments ADrop {A} value n.
Arguments ADone {A} k ret n.

(** The drop of the cell itself (103-111): load (105), then free (107-110). *)
Inductive ao_phase := AAlive | ADropLoad | ADropFree (p : option nat) | ADropped.

(** [heap]: the boxes ever allocated; [None] = freed. [ptr]: the field. The rest is ghost:
    [args] are the arguments of the calls ([None] for [take]), [returned] and [destroyed] collect the
    values that left; [fault] records a use of a freed box (a free of a freed box is such a use);
    [swaps] logs each pointer swap: the call, the value that went in, the value that came out. *)
Record ao_st (A : Type) := mkAo {
  ao_heap : list (option A); ao_ptr : option nat; ao_phase_of : ao_phase; ao_ops : list (ao_pc A);
  ao_args : list (option A); ao_returned : list A; ao_destroyed : list A; ao_fault : bool;
  ao_swaps : list (nat * option A * option A) }.
Arguments mkAo {A}.
Arguments ao_heap {A} _. Arguments ao_ptr {A} _. Arguments ao_phase_of {A} _. Arguments ao_ops {A} _.
Arguments ao_args {A} _. Arguments ao_returned {A} _. Arguments ao_destroyed {A} _.
Arguments ao_fault {A} _. Arguments ao_swaps {A} _.

(** Box::into_raw(Box::new(v)) and null (60-66). *)
Definition ao_alloc {A} (h : list (option A)) (v : option A) : list (option A) * option nat :=
  match v with Some x => (h ++ [Some x], Some (length h)) | None => (h, None) end.

(** [*Box::from_raw(ptr)] (68-76): the value, the heap afterwards, and whether the box was already
    freed. *)
Definition ao_free {A} (h : list (option A)) (p : option nat) : option A * list (option A) * bool :=
  match p with
  | None => (None, h, false)
  | Some i => match nth_error h i with
              | Some (Some v) => (Some v, lupd i None h, false)
              | _ => (None, h, true)
              end
  end.

(** What a pointer points at (ghost, for the log). *)
Definition ao_deref {A} (h : list (option A)) (p : option nat) : option A :=
  match p with
  | None => None
  | Some i => match nth_error h i with Some (Some v) => Some v | _ => None end
  end.

(** 79-83: new *)
Definition ao_init {A} (value : option A) : ao_st A :=
  let '(h, p) := ao_alloc [] value in
  mkAo h p AAlive [] [] [] [] false [].

Inductive ao_move (A : Type) :=
| AoSwap (v : option A) | AoStore (v : option A) | AoTake   (* a thread starts a call *)
| AoDropCell                                                 (* the owner starts to drop the cell *)
| AoStep (i : nat)                                           (* one step of call [i] *)
| AoStepDrop.                                                (* one step of the drop *)
Arguments AoSwap {A} v. Arguments AoStore {A} v. Arguments AoTake {A}.
Arguments AoDropCell {A}. Arguments AoStep {A} i. Arguments AoStepDrop {A}.

Definition ao_is_done {A} (p : ao_pc A) : bool := match p with ADone _ _ _ => true | _ => false end.

(** Starting a call needs a borrow of the cell, so the drop has not started. *)
Definition ao_begin {A} (s : ao_st A) (k : ao_kind) (v : option A) : option (ao_st A) :=
  match ao_phase_of s with
  | AAlive => Some (mkAo (ao_heap s) (ao_ptr s) AAlive (ao_ops s ++ [AToPtr k v])
                         (ao_args s ++ [v]) (ao_returned s) (ao_destroyed s) (ao_fault s) (ao_swaps s))
  | _ => None
  end.

Definition ao_step {A} (s : ao_st A) (m : ao_move A) : option (ao_st A) :=
  let 'mkAo h p ph ops ar re de fa sw := s in
  match m with
  | AoSwap v => ao_begin s KSwap v
  | AoStore v => ao_begin s KStore v            (* 92-95 *)
  | AoTake => ao_begin s KTake None             (* 98-100 *)
  | AoDropCell =>
      (* drop takes [&mut self]: no call is in progress *)
      match ph with
      | AAlive => if forallb ao_is_done ops then Some (mkAo h p ADropLoad ops ar re de fa sw) else None
      | _ => None
      end
  | AoStepDrop =>
      match ph with
      | ADropLoad => Some (mkAo h p (ADropFree p) ops ar re de fa sw)
      | ADropFree q =>
          let '(v, h', bad) := ao_free h q in
          Some (mkAo h' p ADropped ops ar re (de ++ olist v) (fa || bad) sw)
      | _ => None
      end
  | AoStep i =>
      let? c := nth_error ops i in
      match c with
      | AToPtr k v =>
          let '(h', q) := ao_alloc h v in
          Some (mkAo h' p ph (lupd i (ASwap k q) ops) ar re de fa sw)
      | ASwap k q =>
          Some (mkAo h q ph (lupd i (AFrom k p (length sw)) ops) ar re de fa
                     (sw ++ [(i, ao_deref h q, ao_deref h p)]))
      | AFrom k q n =>
          let '(v, h', bad) := ao_free h q in
          match k with
          | KStore => Some (mkAo h' p ph (lupd i (ADrop v n) ops) ar re de (fa || bad) sw)
          | _ => Some (mkAo h' p ph (lupd i (ADone k v n) ops) ar (re ++ olist v) de (fa || bad) sw)
          end
      | ADrop v n =>
          Some (mkAo h p ph (lupd i (ADone KStore v n) ops) ar re (de ++ olist v) fa sw)
      | ADone _ _ _ => None
      end
  end.

(** ** Specification *)

(** All values ever put into the cell. *)
Definition ao_put {A} (v0 : option A) (s : ao_st A) : list A := olist v0 ++ flat_map olist (ao_args s).

(** No call is in progress. *)
Definition ao_quiet {A} (s : ao_st A) : Prop := forall i c, nth_error (ao_ops s) i = Some c -> ao_is_done c = true.

(** Each swap takes out what the swap before it put in; the first one takes out [v0]. *)
Fixpoint handed_over {A} (v0 : option A) (l : list (nat * option A * option A)) : Prop :=
  match l with
  | [] => True
  | (_, i, o) :: t => o = v0 /\ handed_over i t
  end.
