(** src/future.rs when the code of the user panics: the inner future (poll or Drop), the callback, and the wakers (clone, drop, wake). An
    interleaving model of its own: the task that polls and the thread that discards, with every access of [is_cancelled] and every lock
    and unlock of [waker] as one step, as in CancelFuture.v; but here whatever belongs to the user returns or panics, and after a panic the future can be
    polled again (the executor caught it). *)
From Verif Require Import Base Conc.

(** What can be seen from outside. *)
Inductive cp_ev (A : Type) :=
| VPoll (t : nat)            (* a poll by task t starts *)
| VInner (a : option (poll A)) (* the inner future is polled; None: it panics *)
| VDropInner                 (* the inner future is dropped *)
| VCall                      (* when_cancelled is called *)
| VRet (t : nat) (r : poll A) (* the poll by task t returns r *)
| VPanic                     (* the poll panics *)
| VBadDrop                   (* the Drop of a waker panics in the slot *)
| VDropFut                   (* the CancelableFuture is dropped *)
| VDiscard                   (* discard is called *)
| VWake (t : nat)            (* task t is woken by discard *)
| VDiscarded                 (* discard returns *)
| VDiscardPanic.             (* discard panics *)
Arguments VPoll {A} t. Arguments VInner {A} a. Arguments VDropInner {A}. Arguments VCall {A}. Arguments VRet {A} t r. Arguments VPanic {A}.
Arguments VBadDrop {A}. Arguments VDropFut {A}. Arguments VDiscard {A}. Arguments VWake {A} t. Arguments VDiscarded {A}. Arguments VDiscardPanic {A}.

(** poll (58-79): load 62, Drop of the inner future 64, take 65, callback 67, poll of the inner future 70, clone 73, lock 73, store 73, unlock 73, return. The
    right side of the assignment in 73 (the clone) is evaluated before the left side (the lock). *)
Inductive cp_pc (A : Type) := PIdle | PLoad | PDrop | PTake | PCall | PInner | PClone | PLock | PStore | PUnlock | PRet (r : poll A) | PGone.
Arguments PIdle {A}. Arguments PLoad {A}. Arguments PDrop {A}. Arguments PTake {A}. Arguments PCall {A}. Arguments PInner {A}. Arguments PClone {A}.
Arguments PLock {A}. Arguments PStore {A}. Arguments PUnlock {A}. Arguments PRet {A} r. Arguments PGone {A}.

(** discard (25-37): upgrade 26, lock 27, store 30, take 32, unlock 33/36, wake 34. *)
Inductive cp_h := DHeld | DUp | DLock | DStore | DTake | DUnlock (w : option nat) | DWake (t : nat) | DDone.

(** [p_held]: the mutex is locked. [p_bad]: it is poisoned. [p_inner], [p_cb]: [future], [when_cancelled] are Some. *)
Record cp_st (A : Type) := mkCp { p_cancelled : bool; p_waker : option nat; p_held : bool; p_bad : bool; p_inner : bool; p_cb : bool;
  p_pc : cp_pc A; p_h : cp_h; p_task : nat; p_trace : list (cp_ev A) }.
Arguments mkCp {A}. Arguments p_cancelled {A}. Arguments p_waker {A}. Arguments p_held {A}. Arguments p_bad {A}. Arguments p_inner {A}. Arguments p_cb {A}.
Arguments p_pc {A}. Arguments p_h {A}. Arguments p_task {A}. Arguments p_trace {A}.

(** 84-105: cancelable_future *)
Definition cp_init {A} : cp_st A := mkCp false None false false true true PIdle DHeld 0 [].

Inductive cp_move (A : Type) :=
| MPoll (t : nat) | MGo             (* task t polls; one step of the poll *)
| MDropped (ok : bool)              (* the Drop of the inner future returns, or panics *)
| MCall (v : option A)              (* the callback *)
| MAns (a : option (poll A))        (* the inner future *)
| MCloned (ok : bool)               (* the clone of the waker *)
| MOld (ok : bool)                  (* the Drop of the waker that was in the slot *)
| MDropFut | MDiscard | MH          (* the future is dropped; discard is called; one step of it *)
| MWoke (ok : bool).                (* wake *)
Arguments MPoll {A} t. Arguments MGo {A}. Arguments MDropped {A} ok. Arguments MCall {A} v. Arguments MAns {A} a. Arguments MCloned {A} ok.
Arguments MOld {A} ok. Arguments MDropFut {A}. Arguments MDiscard {A}. Arguments MH {A}. Arguments MWoke {A} ok.

(** One step of poll. A panic ends it. future.set(None) (64) and the assignment in 73 drop the old value, and write the new one also
    when that panics; a guard dropped by a panic poisons the mutex. *)
Definition cp_poll {A} (m : cp_move A) (s : cp_st A) : option (cp_st A) :=
  let '(mkCp c w k b i cb pc h t tr) := s in
  match m, pc with
  | MPoll t', PIdle => Some (mkCp c w k b i cb PLoad h t' (tr ++ [VPoll t']))
  | MGo, PLoad =>
      if c then (if i then Some (mkCp c w k b false cb PDrop h t (tr ++ [VDropInner])) else Some (mkCp c w k b i cb PTake h t tr))
      else if i then Some (mkCp c w k b i cb PInner h t tr) else Some (mkCp c w k b i cb PIdle h t (tr ++ [VPanic]))
  | MDropped ok, PDrop => Some (if ok then mkCp c w k b i cb PTake h t tr else mkCp c w k b i cb PIdle h t (tr ++ [VPanic]))
  | MGo, PTake => Some (if cb then mkCp c w k b i false PCall h t (tr ++ [VCall]) else mkCp c w k b i cb PIdle h t (tr ++ [VPanic]))
  | MCall v, PCall => Some (match v with Some v => mkCp c w k b i cb (PRet (Ready v)) h t tr | None => mkCp c w k b i cb PIdle h t (tr ++ [VPanic]) end)
  | MAns a, PInner => Some (match a with
      | Some Pending => mkCp c w k b i cb PClone h t (tr ++ [VInner a])
      | Some r => mkCp c w k b i cb (PRet r) h t (tr ++ [VInner a])
      | None => mkCp c w k b i cb PIdle h t (tr ++ [VInner a; VPanic]) end)
  | MCloned ok, PClone => Some (if ok then mkCp c w k b i cb PLock h t tr else mkCp c w k b i cb PIdle h t (tr ++ [VPanic]))
  | MGo, PLock => if k then None else Some (if b then mkCp c w k b i cb PIdle h t (tr ++ [VPanic]) else mkCp c w true b i cb PStore h t tr)
  | MOld true, PStore => Some (mkCp c (Some t) k b i cb PUnlock h t tr)
  | MOld false, PStore => match w with Some _ => Some (mkCp c (Some t) false true i cb PIdle h t (tr ++ [VBadDrop; VPanic])) | None => None end
  | MGo, PUnlock => Some (mkCp c w false b i cb (PRet Pending) h t tr)
  | MGo, PRet r => Some (mkCp c w k b i cb PIdle h t (tr ++ [VRet t r]))
  | MDropFut, PIdle => Some (mkCp c w k b false cb PGone h t (tr ++ (if i then [VDropInner] else []) ++ [VDropFut]))
  | _, _ => None
  end.

(** One step of discard. A panic of lock().unwrap() (27) lets go of the mutex. *)
Definition cp_discard {A} (m : cp_move A) (s : cp_st A) : option (cp_st A) :=
  let '(mkCp c w k b i cb pc h t tr) := s in
  match m, h with
  | MDiscard, DHeld => Some (mkCp c w k b i cb pc DUp t (tr ++ [VDiscard]))
  | MH, DUp => Some (match pc with PGone => mkCp c w k b i cb pc DDone t (tr ++ [VDiscarded]) | _ => mkCp c w k b i cb pc DLock t tr end)
  | MH, DLock => if k then None else Some (if b then mkCp c w k b i cb pc DDone t (tr ++ [VDiscardPanic]) else mkCp c w true b i cb pc DStore t tr)
  | MH, DStore => Some (mkCp true w k b i cb pc DTake t tr)
  | MH, DTake => Some (mkCp c None k b i cb pc (DUnlock w) t tr)
  | MH, DUnlock w' => Some (match w' with Some u => mkCp c w false b i cb pc (DWake u) t tr | None => mkCp c w false b i cb pc DDone t (tr ++ [VDiscarded]) end)
  | MWoke ok, DWake u => Some (mkCp c w k b i cb pc DDone t (tr ++ [VWake u; if ok then VDiscarded else VDiscardPanic]))
  | _, _ => None
  end.

Definition cp_step {A} (s : cp_st A) (m : cp_move A) : option (cp_st A) :=
  match m with MDiscard | MH | MWoke _ => cp_discard m s | _ => cp_poll m s end.

(** ** Specification *)
Definition v_inner {A} (e : cp_ev A) : bool := match e with VInner _ => true | _ => false end.
Definition v_call {A} (e : cp_ev A) : bool := match e with VCall => true | _ => false end.
Definition v_drop {A} (e : cp_ev A) : bool := match e with VDropInner => true | _ => false end.
Definition v_bad {A} (e : cp_ev A) : bool := match e with VBadDrop => true | _ => false end.
Definition v_wake {A} (e : cp_ev A) : bool := match e with VWake _ => true | _ => false end.
Definition v_ret {A} (e : cp_ev A) : bool := match e with VRet _ _ => true | _ => false end.
Definition v_pending {A} (e : cp_ev A) : bool := match e with VRet _ Pending => true | _ => false end.

(** The task of the last poll that returned Pending. *)
Definition last_pending {A} (tr : list (cp_ev A)) : option nat :=
  fold_left (fun o e => match e with VRet t Pending => Some t | _ => o end) tr None.

(** Moves that are not up to the user: everything but a new poll, a new discard and a drop. *)
Definition goes_on {A} (m : cp_move A) : bool := match m with MPoll _ | MDropFut | MDiscard => false | _ => true end.
