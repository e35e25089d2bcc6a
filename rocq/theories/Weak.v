(** src/atomic.rs on a machine with release/acquire memory: what the other models leave to the orderings of the atomic accesses.
    AtomicOption uses AcqRel for its swaps and Acquire for the load in drop; the contents of the boxes are read
    and written without any synchronization of their own. A cell is shared through Arc and Weak (as in channel.rs).

    Memory: the messages of the pointer are in modification order. Each thread, and each message that was written with release, has a view:
    the boxes whose initialization happens before, and the latest message of the pointer that it may not ignore. A swap reads the
    latest message: all writes to the pointer but the first are swaps, and a swap that reads an older message would have to come directly
    after it, where there is another swap already. A load may read any message that its view does not rule out. Reading a box without
    its initialization in the view is a data race. *)
From Verif Require Import Base Conc.

Record view := mkView { v_boxes : list nat; v_at : nat }.
Definition join (v w : view) : view := mkView (v_boxes v ++ v_boxes w) (Nat.max (v_at v) (v_at w)).
Definition knows (v : view) (b : nat) : bool := existsb (Nat.eqb b) (v_boxes v).
Definition no_view : view := mkView [] 0.

(** What a thread does next:
    - [KSwap q]: it has allocated the box of the new value (atomic.rs 86) and swaps the pointer (87);
    - [KFrom p]: it moves the value out of the old box and frees it (88 with 68-76);
    - [KLoad]: it has dropped the last Arc; drop of the cell: load (105);
    - [KFree p]: it frees what the load has returned (107-110). *)
Inductive pc := KIdle | KSwap (q : option nat) | KFrom (p : option nat) | KLoad | KFree (p : option nat).

(** [boxes]: the value of each box, and whether it was freed; [msgs]: the messages of the pointer with their views; [arcs], [weaks]: the
    threads that hold an Arc or a Weak of the cell (with repetition); [arc]: the view of the reference count. [raced]: a data race
    has happened; [misused]: a freed box was used or freed. Ghost: [log], the values that each swap has put in and taken
    out; [gone], the values that left the cell. *)
Record mem (A : Type) := mkMem {
  boxes : list (A * bool); msgs : list (option nat * view); views : nat -> view; pcs : nat -> pc;
  arcs : list nat; weaks : list nat; arc : view; raced : bool; misused : bool;
  log : list (option A * option A); gone : list A }.
Arguments mkMem {A}. Arguments boxes {A}. Arguments msgs {A}. Arguments views {A}. Arguments pcs {A}. Arguments arcs {A}. Arguments weaks {A}.
Arguments arc {A}. Arguments raced {A}. Arguments misused {A}. Arguments log {A}. Arguments gone {A}.

Fixpoint drop_one (t : nat) (l : list nat) : list nat :=
  match l with [] => [] | x :: l => if x =? t then l else x :: drop_one t l end.
Definition is_in (t : nat) (l : list nat) : bool := existsb (Nat.eqb t) l.

Section Weak.
Context {A : Type}.
Implicit Types (st : mem A).

Definition set_thread (t : nat) (v : view) (c : pc) st : mem A :=
  mkMem (boxes st) (msgs st) (fupd t v (views st)) (fupd t c (pcs st)) (arcs st) (weaks st) (arc st) (raced st) (misused st) (log st) (gone st).
Definition set_arcs (ar we : list nat) (v : view) st : mem A :=
  mkMem (boxes st) (msgs st) (views st) (pcs st) ar we v (raced st) (misused st) (log st) (gone st).

(** Box::into_raw(Box::new(value)), null (60-66): the box is initialized by the thread, without synchronization. *)
Definition alloc (t : nat) (value : option A) st : mem A * option nat :=
  match value with
  | None => (st, None)
  | Some x =>
      (mkMem (boxes st ++ [(x, false)]) (msgs st) (fupd t (join (views st t) (mkView [length (boxes st)] 0)) (views st)) (pcs st)
             (arcs st) (weaks st) (arc st) (raced st) (misused st) (log st) (gone st), Some (length (boxes st)))
  end.

(** *Box::from_raw(ptr) (68-76, 108): reads the box, without synchronization, and frees it. *)
Definition free (t : nat) (p : option nat) st : mem A :=
  match p with
  | None => st
  | Some b =>
      match nth_error (boxes st) b with
      | Some (x, dead) =>
          mkMem (lupd b (x, true) (boxes st)) (msgs st) (views st) (pcs st) (arcs st) (weaks st) (arc st)
                (raced st || negb (knows (views st t) b)) (misused st || dead) (log st) (gone st ++ [x])
      | None => mkMem (boxes st) (msgs st) (views st) (pcs st) (arcs st) (weaks st) (arc st) (raced st) true (log st) (gone st)
      end
  end.

(** What the pointer points at (for [log]). *)
Definition at_ptr (p : option nat) st : option A :=
  match p with Some b => option_map fst (nth_error (boxes st) b) | None => None end.

(** 79-83: thread 0 makes the cell. *)
Definition w_init (value : option A) : mem A :=
  let '(st, p) := alloc 0 value (mkMem [] [] (fun _ => no_view) (fun _ => KIdle) [0] [] no_view false false [] []) in
  mkMem (boxes st) [(p, no_view)] (views st) (pcs st) [0] [] no_view false false [] [].

(** - [WCall t value]: a call of swap (85-89), store (92-95: value is not [None] or is) or take (98-100), up to the swap of the pointer;
    - [WStep t]: the next step of the thread; [WLoad t i]: the load in drop reads message [i];
    - [WShare t u]: thread [t] gives an Arc to thread [u]; [WWeak t u]: a Weak; both by some means that synchronizes (as Send and Sync demand); [WSync t u]:
      they synchronize for some other reason;
    - [WUpgrade t]: Weak::upgrade, if there is an Arc; [WDrop t]: drop of an Arc: the decrement is a release, the last one also an acquire. *)
Inductive move := WCall (t : nat) (value : option A) | WStep (t : nat) | WLoad (t i : nat) | WShare (t u : nat) | WWeak (t u : nat) | WSync (t u : nat)
| WUpgrade (t : nat) | WDrop (t : nat).

(** [acq], [rel]: whether the swap is an acquire, a release (the code: both); [dacq]: whether the load in drop is an acquire. *)
Context (acq rel dacq : bool).

Definition w_step st (m : move) : option (mem A) :=
  match m with
  | WCall t value =>
      match pcs st t, is_in t (arcs st) with
      | KIdle, true => let '(st, q) := alloc t value st in Some (set_thread t (views st t) (KSwap q) st)
      | _, _ => None
      end
  | WStep t =>
      match pcs st t, rev (msgs st) with
      | KSwap q, (p, mv) :: _ =>
          let n := length (msgs st) in
          let v := join (views st t) (mkView (if acq then v_boxes mv else []) n) in
          (* a swap continues the release sequence of the message that it reads *)
          let mv' := join mv (if rel then v else no_view) in
          Some (set_thread t v (KFrom p)
                 (mkMem (boxes st) (msgs st ++ [(q, mv')]) (views st) (pcs st) (arcs st) (weaks st) (arc st) (raced st) (misused st)
                        (log st ++ [(at_ptr q st, at_ptr p st)]) (gone st)))
      | KFrom p, _ | KFree p, _ => let st := free t p st in Some (set_thread t (views st t) KIdle st)
      | _, _ => None
      end
  | WLoad t i =>
      match pcs st t, nth_error (msgs st) i with
      | KLoad, Some (p, mv) =>
          if v_at (views st t) <=? i then
            Some (set_thread t (join (views st t) (mkView (if dacq then v_boxes mv else []) i)) (KFree p) st)
          else None
      | _, _ => None
      end
  | WShare t u =>
      if is_in t (arcs st) then
        Some (set_arcs (u :: arcs st) (weaks st) (arc st) (set_thread u (join (views st u) (views st t)) (pcs st u) st))
      else None
  | WWeak t u =>
      if is_in t (arcs st) || is_in t (weaks st) then
        Some (set_arcs (arcs st) (u :: weaks st) (arc st) (set_thread u (join (views st u) (views st t)) (pcs st u) st))
      else None
  | WSync t u => Some (set_thread u (join (views st u) (views st t)) (pcs st u) st)
  | WUpgrade t =>
      match arcs st with
      | [] => None
      | _ => if is_in t (weaks st) then Some (set_arcs (t :: arcs st) (weaks st) (arc st) st) else None
      end
  | WDrop t =>
      match pcs st t, is_in t (arcs st) with
      | KIdle, true =>
          let ar := drop_one t (arcs st) in
          let count := join (arc st) (views st t) in
          let st := set_arcs ar (weaks st) count st in
          match ar with
          | [] => Some (set_thread t (join (views st t) count) KLoad st)
          | _ => Some st
          end
      | _, _ => None
      end
  end.
End Weak.
Arguments move : clear implicits.
