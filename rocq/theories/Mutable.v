(** src/signal/mutable.rs as an interleaving model: any number of Mutables, handles, signals and
    calls. Each access of an atomic, each acquisition and each release of a lock is one step; what
    happens under a lock in between is merged with one of these where nothing else can see the
    difference. A lock records who holds it; only whether, and how, it is held decides what is possible.
    Each poll hands over its own waker, named by the number of that poll of that signal. *)
From Verif Require Import Base Conc.

(** Who holds a lock: a call, or a task that creates or polls a signal. *)
Inductive who := WOp (i : nat) | WSig (k : nat).

(** MutableState (81-84): the RwLock with [value] and [signals], and [senders]. *)
Record mut (A : Type) := mkMut {
  v_val : A; v_sigs : list nat; v_w : option who; v_r : list who; v_senders : nat }.
Arguments mkMut {A}. Arguments v_val {A} _. Arguments v_sigs {A} _. Arguments v_w {A} _. Arguments v_r {A} _.
Arguments v_senders {A} _.

(** Where a signal is:
    - being created (181-189): before senders.load 184, lock.write 185, push_signal 185;
    - idle;
    - in poll_change (102-117): before is_changed 103, lock.read 105, the read 106, the end of the
      read lock 107, senders.load 110, set_waker 114;
    - dropped. *)
Inductive gpc (A : Type) :=
| GNew | GPushAcq | GPushDo | GIdle | GSwap | GRAcq | GRead | GRRel (v : A) | GLoad | GSet | GGone.
Arguments GNew {A}. Arguments GPushAcq {A}. Arguments GPushDo {A}. Arguments GIdle {A}. Arguments GSwap {A}.
Arguments GRAcq {A}. Arguments GRead {A}. Arguments GRRel {A} v. Arguments GLoad {A}. Arguments GSet {A}. Arguments GGone {A}.

(** A signal (88-92) with its ChangedWaker (15-18): [g_mut] is its Mutable, [g_mutex] the call that
    holds the mutex of the waker. Ghost: the answers of its polls, whether the last one was Pending,
    the number of polls started, whether the waker was taken between is_changed and set_waker of
    the last poll. *)
Record sig (A : Type) := mkSig {
  g_mut : nat; g_changed : bool; g_mutex : option nat; g_waker : option nat; g_pc : gpc A;
  g_ans : list (poll (option A)); g_waiting : bool; g_polls : nat; g_raced : bool }.
Arguments mkSig {A}. Arguments g_mut {A} _. Arguments g_changed {A} _. Arguments g_mutex {A} _. Arguments g_waker {A} _.
Arguments g_pc {A} _. Arguments g_ans {A} _. Arguments g_waiting {A} _. Arguments g_polls {A} _. Arguments g_raced {A} _.

(** notify (66-76) at one signal: before upgrade 68, waker.lock 30, changed.store 33, take and unlock 36,
    wake 40. *)
Inductive nstage := NUp | NLock | NStore | NTake | NWake (w : nat).

(** What follows notify: the end of set etc.; swap's second notify (287), on [b]; the end of swap,
    which also holds [a]; [signals = vec![]] (402) in drop. *)
Inductive ncont := KRel | KSwap (b : nat) | KSwapEnd (a : nat) | KDrop.

(** What a set-like call does with the old value: nothing, or write a new one and return something. *)
Definition eff (A : Type) := A -> option (A * option A).

(** Program counter of a call:
    - set, replace, replace_with, set_if, set_neq: before lock.write (259, 269, 291, 299), in the body;
    - lock_mut: before lock.write 313; the guard, with its [mutated];
    - swap: before lock.write 281, before lock.write 282, in the body;
    - clone: before fetch_add 384; drop: before fetch_sub 394, lock.write 397, the test 399;
    - get, get_cloned, lock_ref: before lock.read (177, 200, 212), holding it;
    - notify on [m]: signals still to visit (the first one at [st]), signals kept;
    - releasing the write locks [ms]; returned. *)
Inductive opc (A : Type) :=
| QAcq (m : nat) (f : eff A) | QBody (m : nat) (f : eff A)
| QGAcq (m : nat) | QGuard (m : nat) (mutated : bool)
| QSAcq1 (a b : nat) | QSAcq2 (a b : nat) | QSBody (a b : nat)
| QClone (m : nat) | QDropSub (m : nat) | QDropAcq (m : nat) | QDropChk (m : nat)
| QRAcq (m : nat) | QRHold (m : nat) (v : A)
| QNotify (c : ncont) (flag : bool) (m : nat) (todo kept : list nat) (st : nstage)
| QRel (ms : list nat)
| QRet.
Arguments QAcq {A} m f. Arguments QBody {A} m f. Arguments QGAcq {A} m. Arguments QGuard {A} m mutated.
Arguments QSAcq1 {A} a b. Arguments QSAcq2 {A} a b. Arguments QSBody {A} a b. Arguments QClone {A} m.
Arguments QDropSub {A} m. Arguments QDropAcq {A} m. Arguments QDropChk {A} m. Arguments QRAcq {A} m. Arguments QRHold {A} m v.
Arguments QNotify {A} c flag m todo kept st. Arguments QRel {A} ms. Arguments QRet {A}.

(** A call with the handles it borrows. Ghost: what it returned. *)
Record op (A : Type) := mkOp {
  o_hs : list nat; o_pc : opc A; o_ret : option A }.
Arguments mkOp {A}. Arguments o_hs {A} _. Arguments o_pc {A} _. Arguments o_ret {A} _.

(** Mutables [0 .. m_born), signals [0 .. m_nsig), live handles (each with its Mutable), handles ever
    made, calls. Ghost: wake-ups made (signal, poll); flags set (call, signal). *)
Record mu_st (A : Type) := mkMu {
  m_mut : nat -> mut A; m_born : nat; m_sig : nat -> sig A; m_nsig : nat;
  m_live : list (nat * nat); m_next : nat; m_ops : list (op A);
  m_woken : list (nat * nat); m_marks : list (nat * nat) }.
Arguments mkMu {A}. Arguments m_mut {A} _. Arguments m_born {A} _. Arguments m_sig {A} _. Arguments m_nsig {A} _.
Arguments m_live {A} _. Arguments m_next {A} _. Arguments m_ops {A} _. Arguments m_woken {A} _. Arguments m_marks {A} _.

(** 318-328; nothing exists yet. [d] only fills the places of Mutables that do not exist. *)
Definition mut_new {A} (v : A) : mut A := mkMut v [] None [] 1.
(** 20-26, 95-100 *)
Definition sig_new {A} (m : nat) : sig A := mkSig m true None None GNew [] false 0 false.
Definition mu_init {A} (d : A) : mu_st A :=
  mkMu (fun _ => mkMut d [] None [] 0) 0 (fun _ => sig_new 0) 0 [] 0 [] [] [].

Section Setters.
Context {A : Type}.
Implicit Types (s : mu_st A) (x : mut A) (g : sig A) (o : op A).

Definition set_mut s (m : nat) x := mkMu (fupd m x (m_mut s)) (m_born s) (m_sig s) (m_nsig s) (m_live s) (m_next s)
  (m_ops s) (m_woken s) (m_marks s).
Definition set_sig s (k : nat) g := mkMu (m_mut s) (m_born s) (fupd k g (m_sig s)) (m_nsig s) (m_live s) (m_next s)
  (m_ops s) (m_woken s) (m_marks s).
Definition set_op s (i : nat) o := mkMu (m_mut s) (m_born s) (m_sig s) (m_nsig s) (m_live s) (m_next s)
  (lupd i o (m_ops s)) (m_woken s) (m_marks s).
Definition add_op s o := mkMu (m_mut s) (m_born s) (m_sig s) (m_nsig s) (m_live s) (m_next s)
  (m_ops s ++ [o]) (m_woken s) (m_marks s).
Definition set_live s live next := mkMu (m_mut s) (m_born s) (m_sig s) (m_nsig s) live next
  (m_ops s) (m_woken s) (m_marks s).
Definition log_wake s w := mkMu (m_mut s) (m_born s) (m_sig s) (m_nsig s) (m_live s) (m_next s)
  (m_ops s) (m_woken s ++ [w]) (m_marks s).
Definition log_mark s e := mkMu (m_mut s) (m_born s) (m_sig s) (m_nsig s) (m_live s) (m_next s)
  (m_ops s) (m_woken s) (m_marks s ++ [e]).

Definition x_val x (v : A) := mkMut v (v_sigs x) (v_w x) (v_r x) (v_senders x).
Definition x_sigs x l := mkMut (v_val x) l (v_w x) (v_r x) (v_senders x).
Definition x_w x w := mkMut (v_val x) (v_sigs x) w (v_r x) (v_senders x).
Definition x_r x r := mkMut (v_val x) (v_sigs x) (v_w x) r (v_senders x).
Definition x_senders x n := mkMut (v_val x) (v_sigs x) (v_w x) (v_r x) n.

Definition g_set_pc g p := mkSig (g_mut g) (g_changed g) (g_mutex g) (g_waker g) p (g_ans g) (g_waiting g) (g_polls g)
  (g_raced g).
Definition g_set_changed g b := mkSig (g_mut g) b (g_mutex g) (g_waker g) (g_pc g) (g_ans g) (g_waiting g) (g_polls g)
  (g_raced g).
Definition g_set_mutex g mx := mkSig (g_mut g) (g_changed g) mx (g_waker g) (g_pc g) (g_ans g) (g_waiting g) (g_polls g)
  (g_raced g).
Definition g_set_waker g w := mkSig (g_mut g) (g_changed g) (g_mutex g) w (g_pc g) (g_ans g) (g_waiting g) (g_polls g)
  (g_raced g).
(** A poll returns. *)
Definition g_answer g r := mkSig (g_mut g) (g_changed g) (g_mutex g) (g_waker g) GIdle (g_ans g ++ [r])
  (match r with Pending => true | _ => false end) (g_polls g) (g_raced g).
(** A poll starts. *)
Definition g_poll g := mkSig (g_mut g) (g_changed g) (g_mutex g) (g_waker g) GSwap (g_ans g) false (S (g_polls g)) false.
(** The waker is taken and the mutex released (36-37). *)
Definition g_take g := mkSig (g_mut g) (g_changed g) None None (g_pc g) (g_ans g) (g_waiting g) (g_polls g)
  (g_raced g || match g_pc g with GLoad | GSet => true | _ => false end).

Definition o_goto o p := mkOp (o_hs o) p (o_ret o).
Definition o_return o r := mkOp (o_hs o) (o_pc o) r.
End Setters.

(** RwLock: write needs it free, read needs it not write-locked. *)
Definition w_free {A} (x : mut A) : bool := match v_w x, v_r x with None, [] => true | _, _ => false end.
Definition r_free {A} (x : mut A) : bool := match v_w x with None => true | _ => false end.
Definition who_eqb (a b : who) : bool :=
  match a, b with WOp i, WOp j => i =? j | WSig i, WSig j => i =? j | _, _ => false end.
Definition r_remove (w : who) (l : list who) : list who := filter (fun x => negb (who_eqb w x)) l.

Definition acq_w {A} (s : mu_st A) (m : nat) (w : who) : option (mu_st A) :=
  if w_free (m_mut s m) then Some (set_mut s m (x_w (m_mut s m) (Some w))) else None.
Definition rel_w {A} (s : mu_st A) (m : nat) : mu_st A := set_mut s m (x_w (m_mut s m) None).
Definition acq_r {A} (s : mu_st A) (m : nat) (w : who) : option (mu_st A) :=
  if r_free (m_mut s m) then Some (set_mut s m (x_r (m_mut s m) (w :: v_r (m_mut s m)))) else None.
Definition rel_r {A} (s : mu_st A) (m : nat) (w : who) : mu_st A :=
  set_mut s m (x_r (m_mut s m) (r_remove w (v_r (m_mut s m)))).

(** A signal exists as long as it is not dropped. *)
Definition g_alive {A} (g : sig A) : bool := match g_pc g with GGone => false | _ => true end.
Definition o_done {A} (o : op A) : bool := match o_pc o with QRet => true | _ => false end.

(** One step of notify of call [i]. *)
Definition notify_step {A} (s : mu_st A) (i : nat) (o : op A) (c : ncont) (flag : bool) (m : nat) (todo kept : list nat)
    (st : nstage) : option (mu_st A) :=
  let go todo kept st := o_goto o (QNotify c flag m todo kept st) in
  match todo with
  | [] =>
      let s1 := set_mut s m (x_sigs (m_mut s m) (match c with KDrop => [] | _ => kept end)) in
      match c with
      | KRel | KDrop => Some (set_op s1 i (o_goto o (QRel [m])))
      | KSwap b => Some (set_op s1 i (o_goto o (QNotify (KSwapEnd m) true b (v_sigs (m_mut s b)) [] NUp)))
      | KSwapEnd a => Some (set_op s1 i (o_goto o (QRel [m; a])))
      end
  | k :: t =>
      let g := m_sig s k in
      match st with
      | NUp => if g_alive g then Some (set_op s i (go todo kept NLock)) else Some (set_op s i (go t kept NUp))
      | NLock => match g_mutex g with
                 | None => Some (set_op (set_sig s k (g_set_mutex g (Some i))) i (go todo kept NStore))
                 | Some _ => None
                 end
      | NStore =>
          if flag then Some (set_op (log_mark (set_sig s k (g_set_changed g true)) (i, k)) i (go todo kept NTake))
          else Some (set_op s i (go todo kept NTake))
      | NTake => match g_waker g with
                 | Some w => Some (set_op (set_sig s k (g_take g)) i (go todo kept (NWake w)))
                 | None => Some (set_op (set_sig s k (g_take g)) i (go t (kept ++ [k]) NUp))
                 end
      | NWake w => Some (set_op (log_wake s (k, w)) i (go t (kept ++ [k]) NUp))
      end
  end.

(** One step of call [i]. *)
Definition op_step {A} (s : mu_st A) (i : nat) (o : op A) : option (mu_st A) :=
  match o_pc o with
  | QAcq m f => let? s1 := acq_w s m (WOp i) in Some (set_op s1 i (o_goto o (QBody m f)))
  | QBody m f =>
      let x := m_mut s m in
      match f (v_val x) with
      | Some (v, r) =>
          Some (set_op (set_mut s m (x_val x v)) i
            (o_goto (o_return o r) (QNotify KRel true m (v_sigs x) [] NUp)))
      | None => Some (set_op s i (o_goto o (QRel [m])))
      end
  | QGAcq m => let? s1 := acq_w s m (WOp i) in Some (set_op s1 i (o_goto o (QGuard m false)))
  | QGuard m b =>                                  (* the guard is dropped, 144-151 *)
      if b then Some (set_op s i (o_goto o (QNotify KRel true m (v_sigs (m_mut s m)) [] NUp)))
      else Some (set_op s i (o_goto o (QRel [m])))
  | QSAcq1 a b => let? s1 := acq_w s a (WOp i) in Some (set_op s1 i (o_goto o (QSAcq2 a b)))
  | QSAcq2 a b => let? s1 := acq_w s b (WOp i) in Some (set_op s1 i (o_goto o (QSBody a b)))
  | QSBody a b =>
      let x := m_mut s a in
      let y := m_mut s b in
      let s1 := set_mut s a (x_val x (v_val y)) in
      let s2 := set_mut s1 b (x_val (m_mut s1 b) (v_val x)) in
      Some (set_op s2 i (o_goto o (QNotify (KSwap b) true a (v_sigs x) [] NUp)))
  | QClone m =>
      let s1 := set_mut s m (x_senders (m_mut s m) (S (v_senders (m_mut s m)))) in
      Some (set_op (set_live s1 (m_live s ++ [(m_next s, m)]) (S (m_next s))) i (o_goto o QRet))
  | QDropSub m =>
      let n := v_senders (m_mut s m) in
      Some (set_op (set_mut s m (x_senders (m_mut s m) (n - 1))) i
        (o_goto o (if n =? 1 then QDropAcq m else QRet)))
  | QDropAcq m => let? s1 := acq_w s m (WOp i) in Some (set_op s1 i (o_goto o (QDropChk m)))
  | QDropChk m =>
      match v_sigs (m_mut s m) with
      | [] => Some (set_op s i (o_goto o (QRel [m])))
      | l => Some (set_op s i (o_goto o (QNotify KDrop false m l [] NUp)))
      end
  | QRAcq m => let? s1 := acq_r s m (WOp i) in Some (set_op s1 i (o_goto o (QRHold m (v_val (m_mut s m)))))
  | QRHold m v => Some (set_op (rel_r s m (WOp i)) i (o_goto (o_return o (Some v)) QRet))
  | QNotify c flag m todo kept st => notify_step s i o c flag m todo kept st
  | QRel [] => Some (set_op s i (o_goto o QRet))
  | QRel (m :: ms) => Some (set_op (rel_w s m) i (o_goto o (QRel ms)))
  | QRet => None
  end.

(** One step of the task that owns signal [k]. *)
Definition sig_step {A} (s : mu_st A) (k : nat) : option (mu_st A) :=
  let g := m_sig s k in
  let m := g_mut g in
  match g_pc g with
  | GNew => Some (set_sig s k (g_set_pc g (if v_senders (m_mut s m) =? 0 then GIdle else GPushAcq)))
  | GPushAcq => let? s1 := acq_w s m (WSig k) in Some (set_sig s1 k (g_set_pc g GPushDo))
  | GPushDo =>
      let x := m_mut s m in
      Some (set_sig (set_mut s m (x_w (x_sigs x (v_sigs x ++ [k])) None)) k (g_set_pc g GIdle))
  | GSwap => Some (set_sig s k (g_set_changed (g_set_pc g (if g_changed g then GRAcq else GLoad)) false))
  | GRAcq => let? s1 := acq_r s m (WSig k) in Some (set_sig s1 k (g_set_pc g GRead))
  | GRead => Some (set_sig s k (g_set_pc g (GRRel (v_val (m_mut s m)))))
  | GRRel v => Some (set_sig (rel_r s m (WSig k)) k (g_answer g (Ready (Some v))))
  | GLoad => if v_senders (m_mut s m) =? 0 then Some (set_sig s k (g_answer g (Ready None)))
             else Some (set_sig s k (g_set_pc g GSet))
  | GSet => match g_mutex g with
            | None => Some (set_sig s k (g_answer (g_set_waker g (Some (g_polls g))) Pending))
            | Some _ => None
            end
  | GIdle | GGone => None
  end.

Inductive mu_move (A : Type) :=
| XNew (v : A) | XWrite (h : nat) (f : eff A) | XLockMut (h : nat) | XSwap (h h' : nat) | XClone (h : nat) | XDrop (h : nat)
| XRead (m : nat) | XGuard (i : nat) (v : A) | XOp (i : nat)
| XSignal (m : nat) | XPoll (k : nat) | XSig (k : nat) | XDropSig (k : nat).
Arguments XNew {A} v. Arguments XWrite {A} h f. Arguments XLockMut {A} h. Arguments XSwap {A} h h'. Arguments XClone {A} h.
Arguments XDrop {A} h. Arguments XRead {A} m. Arguments XGuard {A} i v. Arguments XOp {A} i.
Arguments XSignal {A} m. Arguments XPoll {A} k. Arguments XSig {A} k. Arguments XDropSig {A} k.

(** The set-like calls (258-266, 268-277, 290-296, 298-305, 342-344). [replace_with]'s closure may
    change the old value before it returns the new one. *)
Definition XSet {A} h (v : A) := XWrite h (fun _ => Some (v, None)).
Definition XReplace {A} h (v : A) := XWrite h (fun old => Some (v, Some old)).
Definition XReplaceWith {A} h (f : A -> A * A) := XWrite h (fun old => Some (snd (f old), Some (fst (f old)))).
Definition XSetIf {A} h (v : A) (f : A -> A -> bool) := XWrite h (fun old => if f old v then Some (v, None) else None).
Definition XSetNeq {A} h (v : A) (eqb : A -> A -> bool) := XSetIf h v (fun a b => negb (eqb a b)).

(** The Mutable of a live handle. *)
Fixpoint lookup (h : nat) (l : list (nat * nat)) : option nat :=
  match l with
  | [] => None
  | (h', m) :: t => if h =? h' then Some m else lookup h t
  end.
Definition borrowed {A} (s : mu_st A) (h : nat) : bool :=
  existsb (fun o => existsb (Nat.eqb h) (o_hs o) && negb (o_done o)) (m_ops s).
Definition new_op {A} (hs : list nat) (p : opc A) : op A := mkOp hs p None.

Definition mu_step {A} (s : mu_st A) (mv : mu_move A) : option (mu_st A) :=
  match mv with
  | XNew v =>
      let m := m_born s in
      Some (mkMu (fupd m (mut_new v) (m_mut s)) (S m) (m_sig s) (m_nsig s) (m_live s ++ [(m_next s, m)]) (S (m_next s))
        (m_ops s) (m_woken s) (m_marks s))
  | XWrite h f => let? m := lookup h (m_live s) in Some (add_op s (new_op [h] (QAcq m f)))
  | XLockMut h => let? m := lookup h (m_live s) in Some (add_op s (new_op [h] (QGAcq m)))
  | XSwap h h' => let? a := lookup h (m_live s) in let? b := lookup h' (m_live s) in
      Some (add_op s (new_op [h; h'] (QSAcq1 a b)))
  | XClone h => let? m := lookup h (m_live s) in Some (add_op s (new_op [h] (QClone m)))
  | XDrop h =>
      (* drop owns the handle: nobody borrows it, and nobody can use it afterwards *)
      let? m := lookup h (m_live s) in
      if borrowed s h then None
      else Some (add_op (set_live s (filter (fun e => negb (fst e =? h)) (m_live s)) (m_next s)) (new_op [] (QDropSub m)))
  | XRead m => if m <? m_born s then Some (add_op s (new_op [] (QRAcq m))) else None
  | XGuard i v =>
      (* deref_mut (138-141) and a write through it *)
      let? o := nth_error (m_ops s) i in
      match o_pc o with
      | QGuard m _ => Some (set_op (set_mut s m (x_val (m_mut s m) v)) i
                        (o_goto o (QGuard m true)))
      | _ => None
      end
  | XOp i => let? o := nth_error (m_ops s) i in op_step s i o
  | XSignal m =>
      (* from a Mutable or a ReadOnlyMutable; the latter may outlive the Mutable *)
      if m <? m_born s then
        Some (mkMu (m_mut s) (m_born s) (fupd (m_nsig s) (sig_new m) (m_sig s)) (S (m_nsig s)) (m_live s) (m_next s)
          (m_ops s) (m_woken s) (m_marks s))
      else None
  | XPoll k => if k <? m_nsig s then
                 match g_pc (m_sig s k) with
                 | GIdle => Some (set_sig s k (g_poll (m_sig s k)))
                 | _ => None
                 end
               else None
  | XSig k => if k <? m_nsig s then sig_step s k else None
  | XDropSig k => if k <? m_nsig s then
                    match g_pc (m_sig s k) with
                    | GIdle => Some (set_sig s k (g_set_pc (m_sig s k) GGone))
                    | _ => None
                    end
                  else None
  end.
