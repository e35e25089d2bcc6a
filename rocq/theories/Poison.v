(** src/signal/mutable.rs when user code panics: closures, Clone implementations and wakers that a Mutable calls may panic, the
    panic unwinds the thread, a write guard that is dropped on the way poisons the RwLock, and [unwrap] on a
    poisoned lock panics. Others may catch a panic or live on other threads. A second panic while a thread is unwinding aborts the program.

    What is done under the write lock by one thread and is seen by nobody else is one step (taking the lock and the closure); each call of
    ChangedWaker::wake is one step, so that polls, which take no lock for [changed] and [waker], get in between. A read lock is taken and
    given back in one step. Not modelled here: panics in destructors of values or wakers and in Waker::clone; swap; in
    signal_state the count and the lock are read in one step. Memory is sequentially consistent. *)
From Verif Require Import Base Spec Conc.

(** [EWrite v]: a writer has left [v] in the Mutable; [ESee v]: get, get_cloned, lock_ref or a poll has returned [v]; [EPanic]: a call has
    panicked; [EPoison]: the lock got poisoned. *)
Inductive event (A : Type) := EWrite (v : A) | ESee (v : A) | EPanic | EPoison.
Arguments EWrite {A} v. Arguments ESee {A} v. Arguments EPanic {A}. Arguments EPoison {A}.

(** A signal: idle, or in poll_change (102-117) before the read lock (105), the load of senders (110), set_waker (114). *)
Inductive po_pc := QIdle | QRead | QSend | QWait.
(** The waker of a poll is its number. Of the answers, [None] is a panic. *)
Record po_sig (A : Type) := mkPs {
  q_alive : bool; q_changed : bool; q_waker : option nat; q_pc : po_pc; q_polls : nat; q_ans : list (option (poll (option A))) }.
Arguments mkPs {A}. Arguments q_alive {A}. Arguments q_changed {A}. Arguments q_waker {A}. Arguments q_pc {A}. Arguments q_polls {A}. Arguments q_ans {A}.

(** A thread has the write lock and is in MutableLockState::notify (66-76), in front of [j_todo]; [j_kept] are the signals that [retain] has
    kept. [j_unwinds]: the thread is panicking; [j_last]: this is the drop of the last handle (396-404). *)
Record po_job := mkPj { j_todo : list nat; j_kept : list nat; j_changed : bool; j_unwinds : bool; j_last : bool }.

(** [o_drops]: the last handle is being dropped, in front of the lock (397), while unwinding or not. Ghost: [o_woken], the wakers called
    (signal, poll); [o_log]. *)
Record po_st (A : Type) := mkPo {
  o_value : A; o_poisoned : bool; o_aborted : bool; o_senders : nat; o_signals : list nat; o_nsig : nat; o_sig : nat -> po_sig A;
  o_job : option po_job; o_drops : option bool; o_woken : list (nat * nat); o_log : list (event A) }.
Arguments mkPo {A}. Arguments o_value {A}. Arguments o_poisoned {A}. Arguments o_aborted {A}. Arguments o_senders {A}. Arguments o_signals {A}.
Arguments o_nsig {A}. Arguments o_sig {A}. Arguments o_job {A}. Arguments o_drops {A}. Arguments o_woken {A}. Arguments o_log {A}.

(** The calls that take the write lock: set, replace (258-266, 290-296); replace_with (268-277), whose closure leaves something in the place of
    the value and then returns [Some] new value or panics; set_if, set_neq (298-305, 342-344), whose closure returns [Some] boolean or panics;
    a lock_mut guard (310-315, 121-151), through which the user writes something or does not ([None]), and then panics or not. *)
Inductive po_write (A : Type) := WSet (v : A) | WWith (f : A -> A * option A) | WIf (v : A) (f : A -> A -> option bool) | WGuard (f : A -> option A) (panics : bool).
Arguments WSet {A} v. Arguments WWith {A} f. Arguments WIf {A} v f. Arguments WGuard {A} f panics.

(** What it leaves, whether it gets to notify, whether it panics. The drop of a guard notifies also while unwinding (144-151). *)
Definition po_do {A} (w : po_write A) (a : A) : A * bool * bool :=
  match w with
  | WSet v => (v, true, false)
  | WWith f => match f a with (_, Some y) => (y, true, false) | (x, None) => (x, false, true) end
  | WIf v f => match f a v with Some true => (v, true, false) | Some false => (a, false, false) | None => (a, false, true) end
  | WGuard f p => match f a with Some x => (x, true, p) | None => (a, false, p) end
  end.

(** - [NWrite w]: such a call takes the lock and does its part; [NNotify ok]: the next signal is woken, and its waker panics unless [ok];
      [NRelease]: notify is done, the guard is dropped;
    - [NGet ok]: get, get_cloned, lock_ref; clone, or the user of the guard, panics unless [ok];
    - [NSignal]: signal, signal_cloned, signal_ref (181-189); [NPoll k], [NRead k ok], [NSend k], [NWait k]: the steps of poll_change; the closure
      of signal_ref, or clone, panics unless [ok]; [NDropSig k];
    - [NClone], [NDrop unwinding], [NDropLock]: clone and drop of a handle (381-406). *)
Inductive po_move (A : Type) := NWrite (w : po_write A) | NNotify (ok : bool) | NRelease | NGet (ok : bool) | NSignal | NPoll (k : nat) | NRead (k : nat) (ok : bool)
| NSend (k : nat) | NWait (k : nat) | NDropSig (k : nat) | NClone | NDrop (unwinding : bool) | NDropLock.
Arguments NWrite {A} w. Arguments NNotify {A} ok. Arguments NRelease {A}. Arguments NGet {A} ok. Arguments NSignal {A}. Arguments NPoll {A} k. Arguments NRead {A} k ok.
Arguments NSend {A} k. Arguments NWait {A} k. Arguments NDropSig {A} k. Arguments NClone {A}. Arguments NDrop {A} unwinding. Arguments NDropLock {A}.

Section Poison.
Context {A : Type}.
Implicit Types (s : po_st A) (g : po_sig A).

Definition no_sig : po_sig A := mkPs false false None QIdle 0 [].
(** From (318-329) *)
Definition po_init (d : A) : po_st A := mkPo d false false 1 [] 0 (fun _ => no_sig) None None [] [].

Definition po_note s (es : list (event A)) :=
  mkPo (o_value s) (o_poisoned s) (o_aborted s) (o_senders s) (o_signals s) (o_nsig s) (o_sig s) (o_job s) (o_drops s) (o_woken s) (o_log s ++ es).
Definition po_set s (v : A) := mkPo v (o_poisoned s) (o_aborted s) (o_senders s) (o_signals s) (o_nsig s) (o_sig s) (o_job s) (o_drops s) (o_woken s) (o_log s).
Definition po_jobs s (j : option po_job) (sg : list nat) :=
  mkPo (o_value s) (o_poisoned s) (o_aborted s) (o_senders s) sg (o_nsig s) (o_sig s) j (o_drops s) (o_woken s) (o_log s).
Definition po_poison s := mkPo (o_value s) true (o_aborted s) (o_senders s) (o_signals s) (o_nsig s) (o_sig s) None (o_drops s) (o_woken s) (o_log s ++ [EPoison; EPanic]).
Definition po_abort s := mkPo (o_value s) (o_poisoned s) true (o_senders s) (o_signals s) (o_nsig s) (o_sig s) (o_job s) (o_drops s) (o_woken s) (o_log s ++ [EPanic]).
Definition po_sigs s k g := mkPo (o_value s) (o_poisoned s) (o_aborted s) (o_senders s) (o_signals s) (o_nsig s) (fupd k g (o_sig s)) (o_job s) (o_drops s) (o_woken s) (o_log s).
Definition po_new s (sg : list nat) :=
  mkPo (o_value s) (o_poisoned s) (o_aborted s) (o_senders s) sg (S (o_nsig s)) (fupd (o_nsig s) (mkPs true true None QIdle 0 []) (o_sig s))
       (o_job s) (o_drops s) (o_woken s) (o_log s).
Definition po_handles s n (d : option bool) :=
  mkPo (o_value s) (o_poisoned s) (o_aborted s) n (o_signals s) (o_nsig s) (o_sig s) (o_job s) d (o_woken s) (o_log s).
Definition po_wake s k w := mkPo (o_value s) (o_poisoned s) (o_aborted s) (o_senders s) (o_signals s) (o_nsig s) (o_sig s) (o_job s) (o_drops s) (o_woken s ++ [(k, w)]) (o_log s).

Definition q_answer g (a : option (poll (option A))) := mkPs (q_alive g) (q_changed g) (q_waker g) QIdle (q_polls g) (q_ans g ++ [a]).

Definition po_step s (m : po_move A) : option (po_st A) :=
  if o_aborted s then None else
  match m with
  | NWrite w =>
      match o_job s with
      | Some _ => None
      | None =>
          if o_senders s =? 0 then None
          else if o_poisoned s then Some (po_note s [EPanic])
          else let '(x, notifies, panics) := po_do w (o_value s) in
               let s := po_note (po_set s x) [EWrite x] in
               if notifies then Some (po_jobs s (Some (mkPj (o_signals s) [] true panics false)) (o_signals s))
               else if panics then Some (po_poison s) else Some s
      end
  | NNotify ok =>
      match o_job s with
      | Some (mkPj (k :: todo) kept changed unwinds last) =>
          let g := o_sig s k in
          let next := fun s kept => Some (po_jobs s (Some (mkPj todo kept changed unwinds last)) (o_signals s)) in
          if q_alive g then
            let s := po_sigs s k (mkPs true (q_changed g || changed) None (q_pc g) (q_polls g) (q_ans g)) in
            match q_waker g with
            | None => next s (kept ++ [k])
            | Some w =>
                let s := po_wake s k w in
                if ok then next s (kept ++ [k])
                else if unwinds then Some (po_abort s)
                (* retain keeps the signals that it has not come to *)
                else Some (po_poison (po_jobs s None (kept ++ k :: todo)))
            end
          else next s kept
      | _ => None
      end
  | NRelease =>
      match o_job s with
      | Some (mkPj [] kept _ unwinds last) =>
          if last then Some (po_jobs s None [])
          else if unwinds then Some (po_poison (po_jobs s None kept)) else Some (po_jobs s None kept)
      | _ => None
      end
  | NGet ok =>
      match o_job s with
      | Some _ => None
      | None => Some (po_note s [if o_poisoned s then EPanic else if ok then ESee (o_value s) else EPanic])
      end
  | NSignal =>
      if o_senders s =? 0 then Some (po_new s (o_signals s))
      else match o_job s with
           | Some _ => None
           | None => if o_poisoned s then Some (po_note s [EPanic]) else Some (po_new s (o_signals s ++ [o_nsig s]))
           end
  | NPoll k =>
      let g := o_sig s k in
      match q_alive g, q_pc g with
      | true, QIdle => Some (po_sigs s k (mkPs true false (q_waker g) (if q_changed g then QRead else QSend) (S (q_polls g)) (q_ans g)))
      | _, _ => None
      end
  | NRead k ok =>
      let g := o_sig s k in
      match q_pc g, o_job s with
      | QRead, None =>
          if negb (o_poisoned s) && ok then Some (po_note (po_sigs s k (q_answer g (Some (Ready (Some (o_value s)))))) [ESee (o_value s)])
          else Some (po_note (po_sigs s k (q_answer g None)) [EPanic])
      | _, _ => None
      end
  | NSend k =>
      let g := o_sig s k in
      match q_pc g with
      | QSend => Some (po_sigs s k (if o_senders s =? 0 then q_answer g (Some (Ready None))
                                    else mkPs (q_alive g) (q_changed g) (q_waker g) QWait (q_polls g) (q_ans g)))
      | _ => None
      end
  | NWait k =>
      let g := o_sig s k in
      match q_pc g with
      | QWait => Some (po_sigs s k (q_answer (mkPs (q_alive g) (q_changed g) (Some (q_polls g)) QIdle (q_polls g) (q_ans g)) (Some Pending)))
      | _ => None
      end
  | NDropSig k =>
      let g := o_sig s k in
      match q_alive g, q_pc g with
      | true, QIdle => Some (po_sigs s k (mkPs false (q_changed g) None QIdle (q_polls g) (q_ans g)))
      | _, _ => None
      end
  | NClone => if o_senders s =? 0 then None else Some (po_handles s (S (o_senders s)) (o_drops s))
  | NDrop unwinding =>
      (* a handle whose call is in progress cannot be dropped *)
      if o_senders s <=? (match o_job s with Some j => if j_last j then 0 else 1 | None => 0 end) then None
      else Some (po_handles s (o_senders s - 1) (if o_senders s =? 1 then Some unwinding else o_drops s))
  | NDropLock =>
      match o_drops s, o_job s with
      | Some unwinding, None =>
          let s := po_handles s (o_senders s) None in
          if o_poisoned s then (if unwinding then Some (po_abort s) else Some (po_note s [EPanic]))
          else match o_signals s with
               | [] => Some s
               | sg => Some (po_jobs s (Some (mkPj sg [] false unwinding true)) sg)
               end
      | _, _ => None
      end
  end.

(** No call is in progress. *)
Definition po_quiet s : Prop := o_job s = None /\ o_drops s = None.
(** What a signal has answered when it did not panic. *)
Definition said (l : list (option (poll (option A)))) : list (poll (option A)) := flat_map (fun a => match a with Some p => [p] | None => [] end) l.
(** The value after these events, [d] at first. *)
Definition written (d : A) (l : list (event A)) : A := fold_left (fun v e => match e with EWrite x => x | _ => v end) l d.
End Poison.
