(** Which locks the library takes, in which order, and what is called while they are held: src/signal/mutable.rs, src/signal/broadcaster.rs,
    src/future.rs, and the locks of src/signal_vec.rs and src/signal_map.rs. Of a call only its locks are modelled: a call is any of the
    sequences of taking and releasing locks that it can go through. *)
From Verif Require Import Base Spec Conc.

(** - [Inner b]: BroadcasterSharedState::inner (broadcaster.rs 113) of Broadcaster number [b], an RwLock;
    - [State m]: MutableState::lock (mutable.rs 83), MutableVec.0 (signal_vec.rs 3366) or MutableBTreeMap.0 (signal_map.rs 806), RwLocks, numbered together;
    - [Wakers b]: BroadcasterNotifier::wakers (broadcaster.rs 17), a Mutex;
    - [Slot k]: ChangedWaker::waker (mutable.rs 17), or CancelableFutureState::waker (future.rs 15), Mutexes. *)
Inductive lock := Inner (b : nat) | State (m : nat) | Wakers (b : nat) | Slot (k : nat).
Definition lock_eqb (x y : lock) : bool :=
  match x, y with
  | Inner a, Inner b | State a, State b | Wakers a, Wakers b | Slot a, Slot b => a =? b
  | _, _ => false
  end.

(** A Mutex is an RwLock that is only ever taken for writing ([w = true]). *)
Inductive act := Acq (l : lock) (w : bool) | Rel (l : lock).
(** A thread: the locks that it holds, what it is going to do. *)
Definition thread : Type := list (lock * bool) * list act.

Definition holds (l : lock) (t : thread) : bool := existsb (fun x => lock_eqb (fst x) l) (fst t).
Definition holds_write (l : lock) (t : thread) : bool := existsb (fun x => lock_eqb (fst x) l && snd x) (fst t).
Definition wants_write (l : lock) (t : thread) : bool := match snd t with Acq k true :: _ => lock_eqb k l | _ => false end.
Fixpoint release (l : lock) (h : list (lock * bool)) : list (lock * bool) :=
  match h with
  | [] => []
  | x :: h' => if lock_eqb (fst x) l then h' else x :: release l h'
  end.

(** One step of thread [i]. std does not say when a reader has to wait for a writer that is itself waiting: with [strict] always, else never. A lock
    that is taken again by the thread that has it for writing waits for ever (std: may also panic). *)
Definition lk_step (strict : bool) (s : list thread) (i : nat) : option (list thread) :=
  match nth_error s i with
  | Some (h, Acq l true :: p) => if existsb (holds l) s then None else Some (lupd i ((l, true) :: h, p) s)
  | Some (h, Acq l false :: p) =>
      if existsb (holds_write l) s || (strict && existsb (wants_write l) s) then None else Some (lupd i ((l, false) :: h, p) s)
  | Some (h, Rel l :: p) => Some (lupd i (release l h, p) s)
  | _ => None
  end.

(** *** The calls *)
Inductive code := Skip | Seq (c d : code) | Under (l : lock) (w : bool) (c : code).
Fixpoint acts (c : code) : list act :=
  match c with
  | Skip => []
  | Seq c d => acts c ++ acts d
  | Under l w c => Acq l w :: acts c ++ [Rel l]
  end.
Definition seqs (cs : list code) : code := fold_right Seq Skip cs.

(** mutable.rs 28-42: [w] is what `waker.wake()` does, after the lock is released. Also discard in future.rs 25-37. *)
Definition wake (kw : nat * code) : code := Seq (Under (Slot (fst kw)) true Skip) (snd kw).
(** mutable.rs 44-46, future.rs 73; [u]: what dropping the old Waker does (the lock is still held). *)
Definition set_waker (k : nat) (u : code) : code := Under (Slot k) true u.
(** mutable.rs 175-179, 200, 212, 349: get, get_cloned, lock_ref; [u]: Clone, or what is done with the guard. signal_vec.rs 3389, signal_map.rs 819. *)
Definition read (m : nat) (u : code) : code := Under (State m) false u.
(** mutable.rs 258-277, 290-315, 144-152, 389-405: set, replace, replace_with, set_if, lock_mut, the last drop; [u]: the closure, or what is done with the
    guard, or dropping the old value; then the signals that are notified (66-76). A new signal (185): nothing under the lock. *)
Definition write (m : nat) (u : code) (ws : list (nat * code)) : code := Under (State m) true (Seq u (seqs (map wake ws))).
(** mutable.rs 279-288: the guards are dropped in reverse order. *)
Definition swap (a b : nat) (us vs : list (nat * code)) : code :=
  Under (State a) true (Under (State b) true (Seq (seqs (map wake us)) (seqs (map wake vs)))).
(** signal_vec.rs 3397, 3415, 3422, signal_map.rs 827, 852, 878: lock_mut and what is done with the guard, in which each `unbounded_send` may call the waker of
    a task: it takes no lock of this library. *)
Definition edit (m : nat) (us : list code) : code := Under (State m) true (seqs us).
(** broadcaster.rs 28-43 *)
Definition notify (b : nat) (ws : list (nat * code)) : code := Under (Wakers b) true (seqs (map wake ws)).
(** broadcaster.rs 128-135 with 79-107 and 183-198; [p]: polling the input, any number of times, [f]: set_waker or the closure. *)
Definition ask (b : nat) (p f : code) : code := Under (Inner b) true (Seq p f).
(** broadcaster.rs 136-140 with 183-198 *)
Definition look (b : nat) (f : code) : code := Under (Inner b) false f.
(** broadcaster.rs 165-178 *)
Definition child (b : nat) : code := Under (Wakers b) true Skip.

(** *** The rule
    Broadcasters are numbered such that the input of each is made of those with lower numbers; Mutables, MutableVecs and MutableBTreeMaps such
    that a thread which uses several at once takes the lowest first. *)
Definition before (x y : lock) : bool :=
  match x, y with
  | Inner a, Inner b => b <? a
  | Inner _, _ => true
  | State a, State b => a <? b
  | State _, Wakers _ | State _, Slot _ => true
  | Wakers a, Wakers b => a <? b
  | Wakers _, Slot _ => true
  | _, _ => false
  end.
Definition beyond (o : option lock) (l : lock) : Prop := match o with None => True | Some x => before x l = true end.

(** What a waker may do that is called by something with a lower number than [n]: tell an executor (which takes no lock of this library and polls
    later), or be the waker of a Broadcaster. *)
Inductive wakeup (n : nat) : code -> Prop :=
| wu_task : wakeup n Skip
| wu_notify b ws : n <= b -> wakeups (S b) ws -> wakeup n (notify b ws)
with wakeups (n : nat) : list (nat * code) -> Prop :=
| wu_nil : wakeups n []
| wu_cons k w ws : wakeup n w -> wakeups n ws -> wakeups n ((k, w) :: ws).

(** What a thread may do that holds [o] (and perhaps locks before it). *)
Inductive lib (o : option lock) : code -> Prop :=
| lib_skip : lib o Skip
| lib_seq c d : lib o c -> lib o d -> lib o (Seq c d)
| lib_read m u : beyond o (State m) -> lib (Some (State m)) u -> lib o (read m u)
| lib_write m u ws : beyond o (State m) -> lib (Some (State m)) u -> wakeups 0 ws -> lib o (write m u ws)
| lib_swap a b us vs : beyond o (State a) -> a < b -> wakeups 0 us -> wakeups 0 vs -> lib o (swap a b us vs)
| lib_edit m us : beyond o (State m) -> Forall (fun u => lib (Some (State m)) u \/ wakeup 0 u) us -> lib o (edit m us)
| lib_wait k : beyond o (Slot k) -> lib o (set_waker k Skip)
| lib_ask b p f : beyond o (Inner b) -> lib (Some (Inner b)) p -> lib (Some (Inner b)) f -> lib o (ask b p f)
| lib_look b f : beyond o (Inner b) -> lib (Some (Inner b)) f -> lib o (look b f)
| lib_child b : beyond o (Wakers b) -> lib o (child b)
(** a channel (channel.rs 55-108, no locks), or a future that is cancelled *)
| lib_tell w : beyond o (Wakers 0) -> wakeup 0 w -> lib o w
| lib_cancel k w : beyond o (Wakers 0) -> wakeup 0 w -> lib o (wake (k, w)).

(** The rule for one thread: each lock comes after all that are held; only held ones are released; in the end none is held. *)
Fixpoint disc (h : list (lock * bool)) (p : list act) : Prop :=
  match p with
  | [] => h = []
  | Acq l w :: p' => (forall x, In x h -> before (fst x) l = true) /\ disc ((l, w) :: h) p'
  | Rel l :: p' => (exists x, In x h /\ fst x = l) /\ disc (release l h) p'
  end.

(** Threads that have not begun. *)
Definition begin (cs : list code) : list thread := map (fun c => ([], acts c)) cs.
Definition finished (s : list thread) : Prop := forall t, In t s -> t = ([], []).
(** The number of steps that are left. *)
Definition left (s : list thread) : nat := list_sum (map (fun t => length (snd t)) s).
(** Nobody can go on, though not all are finished. *)
Definition stuck (strict : bool) (s : list thread) : Prop := ~ finished s /\ forall i, lk_step strict s i = None.
