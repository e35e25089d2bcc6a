(** src/future.rs as an interleaving model: the task that polls the future and the thread that
    discards the handle. Each access of [is_cancelled] and each lock or unlock of [waker] is one
    step. The inner future and the callback are arbitrary: the move that lets them return chooses
    what they return. Each poll is made by some task, whose waker it hands over. *)
From Verif Require Import Base Conc.

(** What can be seen from outside. *)
Inductive cf_ev (A : Type) :=
| EPoll (n t : nat)          (* poll number n starts, made by task t *)
| EInner (r : poll A)        (* the inner future is polled and returns r *)
| EDropInner                 (* the inner future is dropped *)
| ECall (v : A)              (* when_cancelled is called and returns v *)
| ERet (n : nat) (r : poll A) (* poll number n returns r *)
| EPanic (n : nat)           (* poll number n panics *)
| EDropFut                   (* the CancelableFuture is dropped *)
| EDiscard                   (* discard is called *)
| EWake (t : nat)            (* task t is woken *)
| EDiscarded.                (* discard returns *)
Arguments EPoll {A} n t. Arguments EInner {A} r. Arguments EDropInner {A}. Arguments ECall {A} v.
Arguments ERet {A} n r. Arguments EPanic {A} n. Arguments EDropFut {A}. Arguments EDiscard {A}.
Arguments EWake {A} t. Arguments EDiscarded {A}.

(** The future: between polls, or in poll (58-79) just before: load 62, callback 67, the return of the
    inner poll 70, lock 73, store 73, unlock 73, return; or dropped, or its poll panicked. *)
Inductive cf_pc (A : Type) :=
| FIdle | FLoad | FCall | FInner | FLock | FStore | FUnlock | FRet (r : poll A) | FGone | FPanicked.
Arguments FIdle {A}. Arguments FLoad {A}. Arguments FCall {A}. Arguments FInner {A}. Arguments FLock {A}.
Arguments FStore {A}. Arguments FUnlock {A}. Arguments FRet {A} r. Arguments FGone {A}. Arguments FPanicked {A}.

(** The handle: not yet discarded, or in discard (25-37) just before: upgrade 26, lock 27, store 30,
    take 32, unlock 33 with a waker in hand, wake 34, unlock with none; or discard has returned. *)
Inductive cf_hpc := HHeld | HUp | HLock | HStore | HTake | HUnlockW (w : nat) | HWake (w : nat) | HUnlock | HRet.

(** Who holds the mutex. *)
Inductive cf_lock := LFree | LPoll | LDiscard.

(** [inner]: [future] is Some; [cb]: [when_cancelled] is Some. [task]: which
    task made the last poll. Ghost: [polls] the number of polls started; [raced]: discard stored
    [is_cancelled] during the last poll, after that poll had looked at it. *)
Record cf_st (A : Type) := mkCf {
  f_cancelled : bool; f_waker : option nat; f_lock : cf_lock;
  f_inner : bool; f_cb : bool; f_pc : cf_pc A; f_h : cf_hpc;
  f_task : nat; f_trace : list (cf_ev A); f_polls : nat; f_raced : bool }.
Arguments mkCf {A}.
Arguments f_cancelled {A} _. Arguments f_waker {A} _. Arguments f_lock {A} _. Arguments f_inner {A} _.
Arguments f_cb {A} _. Arguments f_pc {A} _. Arguments f_h {A} _. Arguments f_task {A} _. Arguments f_trace {A} _.
Arguments f_polls {A} _. Arguments f_raced {A} _.

(** 84-105: cancelable_future *)
Definition cf_init {A} : cf_st A := mkCf false None LFree true true FIdle HHeld 0 [] 0 false.

Inductive cf_move (A : Type) :=
| MfPoll (t : nat) | MfStep   (* task t starts a poll; one step of it *)
| MfInner (r : poll A)       (* the inner poll returns r *)
| MfCall (v : A)             (* the callback returns v *)
| MfDrop                     (* drop the future *)
| MfDiscard | MfHStep.       (* start discard (once: it takes the handle by value); one step of it *)
Arguments MfPoll {A} t. Arguments MfStep {A}. Arguments MfInner {A} r. Arguments MfCall {A} v.
Arguments MfDrop {A}. Arguments MfDiscard {A}. Arguments MfHStep {A}.

Section Setters.
Context {A : Type}.
Implicit Type s : cf_st A.
Definition cf_emit s e := mkCf (f_cancelled s) (f_waker s) (f_lock s) (f_inner s) (f_cb s) (f_pc s) (f_h s)
  (f_task s) (f_trace s ++ e) (f_polls s) (f_raced s).
Definition cf_goto s p := mkCf (f_cancelled s) (f_waker s) (f_lock s) (f_inner s) (f_cb s) p (f_h s)
  (f_task s) (f_trace s) (f_polls s) (f_raced s).
Definition cf_hgoto s h := mkCf (f_cancelled s) (f_waker s) (f_lock s) (f_inner s) (f_cb s) (f_pc s) h
  (f_task s) (f_trace s) (f_polls s) (f_raced s).
Definition cf_set_lock s k := mkCf (f_cancelled s) (f_waker s) k (f_inner s) (f_cb s) (f_pc s) (f_h s)
  (f_task s) (f_trace s) (f_polls s) (f_raced s).
Definition cf_set_waker s w := mkCf (f_cancelled s) w (f_lock s) (f_inner s) (f_cb s) (f_pc s) (f_h s)
  (f_task s) (f_trace s) (f_polls s) (f_raced s).
Definition cf_no_inner s := mkCf (f_cancelled s) (f_waker s) (f_lock s) false (f_cb s) (f_pc s) (f_h s)
  (f_task s) (f_trace s ++ (if f_inner s then [EDropInner] else [])) (f_polls s) (f_raced s).
Definition cf_no_cb s := mkCf (f_cancelled s) (f_waker s) (f_lock s) (f_inner s) false (f_pc s) (f_h s)
  (f_task s) (f_trace s) (f_polls s) (f_raced s).
Definition cf_start s t := mkCf (f_cancelled s) (f_waker s) (f_lock s) (f_inner s) (f_cb s) FLoad (f_h s)
  t (f_trace s ++ [EPoll (S (f_polls s)) t]) (S (f_polls s)) false.
(** discard stores true. *)
Definition cf_cancel s := mkCf true (f_waker s) (f_lock s) (f_inner s) (f_cb s) (f_pc s) (f_h s)
  (f_task s) (f_trace s) (f_polls s)
  (f_raced s || match f_pc s with FInner | FLock => true | _ => false end).
End Setters.

(** A step of poll (58-79). *)
Definition cf_fstep {A} (s : cf_st A) : option (cf_st A) :=
  match f_pc s with
  | FLoad =>
      if f_cancelled s then
        (* 64: future.set(None); 65: when_cancelled.take().unwrap() *)
        let s1 := cf_no_inner s in
        if f_cb s then Some (cf_goto (cf_no_cb s1) FCall)
        else Some (cf_goto (cf_emit s1 [EPanic (f_polls s)]) FPanicked)
      else if f_inner s then Some (cf_goto s FInner)
      else Some (cf_goto (cf_emit s [EPanic (f_polls s)]) FPanicked)
  | FLock => match f_lock s with LFree => Some (cf_goto (cf_set_lock s LPoll) FStore) | _ => None end
  | FStore => Some (cf_goto (cf_set_waker s (Some (f_task s))) FUnlock)
  | FUnlock => Some (cf_goto (cf_set_lock s LFree) (FRet Pending))
  | FRet r => Some (cf_goto (cf_emit s [ERet (f_polls s) r]) FIdle)
  | _ => None
  end.

(** A step of discard (25-37). The Arc that it holds keeps the state alive; when the future is gone
    and nobody holds an Arc, upgrade fails. *)
Definition cf_hstep {A} (s : cf_st A) : option (cf_st A) :=
  match f_h s with
  | HUp => match f_pc s with
           | FGone => Some (cf_hgoto (cf_emit s [EDiscarded]) HRet)
           | _ => Some (cf_hgoto s HLock)
           end
  | HLock => match f_lock s with LFree => Some (cf_hgoto (cf_set_lock s LDiscard) HStore) | _ => None end
  | HStore => Some (cf_hgoto (cf_cancel s) HTake)
  | HTake => match f_waker s with
             | Some w => Some (cf_hgoto (cf_set_waker s None) (HUnlockW w))
             | None => Some (cf_hgoto s HUnlock)
             end
  | HUnlockW w => Some (cf_hgoto (cf_set_lock s LFree) (HWake w))
  | HWake w => Some (cf_hgoto (cf_emit s [EWake w; EDiscarded]) HRet)
  | HUnlock => Some (cf_hgoto (cf_emit (cf_set_lock s LFree) [EDiscarded]) HRet)
  | HHeld | HRet => None
  end.

Definition cf_step {A} (s : cf_st A) (m : cf_move A) : option (cf_st A) :=
  match m with
  | MfPoll t => match f_pc s with FIdle => Some (cf_start s t) | _ => None end
  | MfStep => cf_fstep s
  | MfInner r =>
      match f_pc s with
      | FInner => Some (cf_goto (cf_emit s [EInner r]) (match r with Pending => FLock | _ => FRet r end))
      | _ => None
      end
  | MfCall v =>
      match f_pc s with FCall => Some (cf_goto (cf_emit s [ECall v]) (FRet (Ready v))) | _ => None end
  | MfDrop =>
      (* a panicked future can be dropped too *)
      match f_pc s with
      | FIdle | FPanicked => Some (cf_goto (cf_emit (cf_no_inner s) [EDropFut]) FGone)
      | _ => None
      end
  | MfDiscard => match f_h s with HHeld => Some (cf_hgoto (cf_emit s [EDiscard]) HUp) | _ => None end
  | MfHStep => cf_hstep s
  end.

(** ** Specification *)

(** What the task did and saw, without what discard did. *)
Definition of_task {A} (e : cf_ev A) : bool :=
  match e with EDiscard | EWake _ | EDiscarded => false | _ => true end.
Definition task_view {A} (t : list (cf_ev A)) : list (cf_ev A) := filter of_task t.

(** Polls number [n], [n+1], .. that polled the inner future, made by the tasks given, and what they
    returned. *)
Fixpoint inner_polls {A} (n : nat) (l : list (nat * poll A)) : list (cf_ev A) :=
  match l with
  | [] => []
  | (t, r) :: l' => [EPoll n t; EInner r; ERet n r] ++ inner_polls (S n) l'
  end.

(** Poll number [n] that found the future cancelled. *)
Definition cancelled_poll {A} (n t : nat) (v : A) : list (cf_ev A) :=
  [EPoll n t; EDropInner; ECall v; ERet n (Ready v)].

Definition is_inner {A} (e : cf_ev A) : bool := match e with EInner _ => true | _ => false end.
Definition is_call {A} (e : cf_ev A) : bool := match e with ECall _ => true | _ => false end.
Definition is_dropi {A} (e : cf_ev A) : bool := match e with EDropInner => true | _ => false end.
Definition is_wake {A} (e : cf_ev A) : bool := match e with EWake _ => true | _ => false end.
Definition is_poll {A} (e : cf_ev A) : bool := match e with EPoll _ _ => true | _ => false end.

(** Task [t] was woken after the last poll started. *)
Definition woken_since {A} (t : nat) (tr : list (cf_ev A)) : Prop :=
  exists a n t' b, tr = a ++ EPoll n t' :: b /\ existsb is_poll b = false /\ In (EWake t) b.
