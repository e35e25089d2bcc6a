(** src/signal/broadcaster.rs when user code panics: the input signal, the closures (or Clone) of the children, wakers. A panic while
    the write lock of [inner] is held poisons it; a panic in notify poisons [wakers]; a panic under a read lock poisons nothing.

    A poll of a child is two steps: the swap of is_changed (131), and everything under the lock (132-141). A call of the notifier that comes
    while the input is being polled can be put before the second step: it touches neither [inner] nor the waker of the child that is being polled
    again before that child sets it. notify is one step, with the number of the first waker that panics. Not modelled here: panics of
    destructors and of Waker::clone. Memory is sequentially consistent. *)
From Verif Require Import Base Spec Conc.

(** What a poll of a child comes to. [XGave v]: Ready(Some(f(&v))); [XThrew v]: the closure was given [v] and panicked; [XPanic]: the lock was
    poisoned, or the input panicked. *)
Inductive bx_ans (A : Type) := XGave (v : A) | XThrew (v : A) | XPending | XEnd | XPanic.
Arguments XGave {A} v. Arguments XThrew {A} v. Arguments XPending {A}. Arguments XEnd {A}. Arguments XPanic {A}.

(** A child is idle, or in BroadcasterSharedState::poll (130-142) before one of the locks. *)
Inductive bx_pc := XIdle | XWrite | XRead.
(** BroadcasterState, 158-162. Ghost: [x_hist], each answer with the number of values that the input had yielded by then; [x_woken]. *)
Record bx_kid (A : Type) := mkXk { x_alive : bool; x_epoch : nat; x_waker : bool; x_pc : bx_pc; x_woken : bool; x_hist : list (nat * bx_ans A) }.
Arguments mkXk {A}. Arguments x_alive {A}. Arguments x_epoch {A}. Arguments x_waker {A}. Arguments x_pc {A}. Arguments x_woken {A}. Arguments x_hist {A}.

(** 15-18, 60-68, 108-111. [x_done]: [signal] is None. [x_bad]: [inner] is poisoned; [x_wbad]: [wakers] is. Ghost: [x_log], what the input has
    yielded; [x_threw]: which calls of notify and signal() have panicked. *)
Record bx_st (A : Type) := mkX {
  x_log : list A; x_done : bool; x_value : option A; x_top : nat; x_bad : bool; x_changed : bool; x_wbad : bool;
  x_kids : nat -> bx_kid A; x_nkid : nat; x_list : list nat; x_threw : list bool }.
Arguments mkX {A}. Arguments x_log {A}. Arguments x_done {A}. Arguments x_value {A}. Arguments x_top {A}. Arguments x_bad {A}. Arguments x_changed {A}.
Arguments x_wbad {A}. Arguments x_kids {A}. Arguments x_nkid {A}. Arguments x_list {A}. Arguments x_threw {A}.

(** 20-26, 70-78, 116-128. *)
Definition bx_init {A} : bx_st A := mkX [] false None 0 false true false (fun _ => mkXk false 0 false XIdle false []) 0 [] [].

(** How the loop 86-102 comes to its end. *)
Inductive bx_in := InPending | InEnd | InPanic.
(** - [XNew]: signal(), signal_cloned(), signal_ref() (164-178); [XDrop k]: child [k] is dropped;
    - [XPoll k], [XRun k vs e ok]: the steps of a poll; if the input is polled it yields [vs] and then [e]; [ok]: the closure does not panic;
    - [XNotify n]: the input calls its waker; the [n]th child woken has a waker that panics. *)
Inductive bx_mv (A : Type) := XNew | XDrop (k : nat) | XPoll (k : nat) | XRun (k : nat) (vs : list A) (e : bx_in) (ok : bool) | XNotify (n : option nat).
Arguments XNew {A}. Arguments XDrop {A} k. Arguments XPoll {A} k. Arguments XRun {A} k vs e ok. Arguments XNotify {A} n.

Definition bx_newest {A} (l : list A) : option A := hd_error (rev l).

(** poll_signal, 80-104: what is left of the state. The epoch is counted after the loop, so not when the input panics. *)
Definition bx_ask {A} (s : bx_st A) (vs : list A) (e : bx_in) : bx_st A :=
  if x_done s then s
  else mkX (x_log s ++ vs) (match e with InEnd => true | _ => false end) (match bx_newest vs with Some v => Some v | None => x_value s end)
         (match e, vs with InPanic, _ | _, [] => x_top s | _, _ :: _ => S (x_top s) end)
         (match e with InPanic => true | _ => x_bad s end) (x_changed s) (x_wbad s) (x_kids s) (x_nkid s) (x_list s) (x_threw s).

Definition bx_put {A} (s : bx_st A) k g (bad : bool) : bx_st A :=
  mkX (x_log s) (x_done s) (x_value s) (x_top s) bad (x_changed s) (x_wbad s) (fupd k g (x_kids s)) (x_nkid s) (x_list s) (x_threw s).

Definition bx_answer {A} (s : bx_st A) k epoch waker a (bad : bool) : bx_st A :=
  let g := x_kids s k in
  bx_put s k (mkXk true epoch waker XIdle (x_woken g) (x_hist g ++ [(length (x_log s), a)])) bad.

(** The closure 183-198 under the lock; [w]: it is the write lock. *)
Definition bx_look {A} (s : bx_st A) k (w ok : bool) : option (bx_st A) :=
  let g := x_kids s k in
  if x_epoch g =? x_top s then
    if x_done s then Some (bx_answer s k (x_epoch g) (x_waker g) XEnd (x_bad s))
    else Some (bx_answer s k (x_epoch g) true XPending (x_bad s))
  else let? v := x_value s in
    if ok then Some (bx_answer s k (x_top s) (x_waker g) (XGave v) (x_bad s))
    else Some (bx_answer s k (x_top s) (x_waker g) (XThrew v) (w || x_bad s)).

(** notify, 28-42: the children in front of the one whose waker panics. *)
Fixpoint bx_wake {A} (ks : list nat) (n : option nat) (kids : nat -> bx_kid A) : list nat * (nat -> bx_kid A) * bool :=
  match ks with
  | [] => ([], kids, false)
  | k :: r =>
      let g := kids k in
      if x_alive g then
        let kids := fupd k (mkXk true (x_epoch g) false (x_pc g) (x_woken g || x_waker g) (x_hist g)) kids in
        if x_waker g then
          match n with
          | Some 0 => (k :: r, kids, true)
          | _ => let '(l, f, p) := bx_wake r (option_map pred n) kids in (k :: l, f, p)
          end
        else let '(l, f, p) := bx_wake r n kids in (k :: l, f, p)
      else bx_wake r n kids
  end.

Definition bx_step {A} (s : bx_st A) (m : bx_mv A) : option (bx_st A) :=
  match m with
  | XNew =>
      if x_wbad s then Some (mkX (x_log s) (x_done s) (x_value s) (x_top s) (x_bad s) (x_changed s) true (x_kids s) (x_nkid s) (x_list s) (x_threw s ++ [true]))
      else Some (mkX (x_log s) (x_done s) (x_value s) (x_top s) (x_bad s) (x_changed s) false
             (fupd (x_nkid s) (mkXk true 0 false XIdle false []) (x_kids s)) (S (x_nkid s)) (x_list s ++ [x_nkid s]) (x_threw s ++ [false]))
  | XDrop k =>
      let g := x_kids s k in
      if x_alive g then match x_pc g with XIdle => Some (bx_put s k (mkXk false (x_epoch g) (x_waker g) XIdle (x_woken g) (x_hist g)) (x_bad s)) | _ => None end
      else None
  | XPoll k =>
      let g := x_kids s k in
      if x_alive g then
        match x_pc g with
        | XIdle =>
            let s1 := bx_put s k (mkXk true (x_epoch g) (x_waker g) (if x_changed s then XWrite else XRead) false (x_hist g)) (x_bad s) in
            Some (mkX (x_log s1) (x_done s1) (x_value s1) (x_top s1) (x_bad s1) false (x_wbad s1) (x_kids s1) (x_nkid s1) (x_list s1) (x_threw s1))
        | _ => None
        end
      else None
  | XRun k vs e ok =>
      let g := x_kids s k in
      match x_pc g with
      | XIdle => None
      | XRead => if x_bad s then Some (bx_answer s k (x_epoch g) (x_waker g) XPanic true) else bx_look s k false ok
      | XWrite =>
          if x_bad s then Some (bx_answer s k (x_epoch g) (x_waker g) XPanic true)
          else let s1 := bx_ask s vs e in
            if x_bad s1 then Some (bx_answer s1 k (x_epoch g) (x_waker g) XPanic true) else bx_look s1 k true ok
      end
  | XNotify n =>
      if x_wbad s then Some (mkX (x_log s) (x_done s) (x_value s) (x_top s) (x_bad s) (x_changed s) true (x_kids s) (x_nkid s) (x_list s) (x_threw s ++ [true]))
      else let '(l, f, p) := bx_wake (x_list s) n (x_kids s) in
        Some (mkX (x_log s) (x_done s) (x_value s) (x_top s) (x_bad s) true p f (x_nkid s) l (x_threw s ++ [p]))
  end.

(** The values that the closure of a child was given. *)
Definition bx_given {A} (h : list (nat * bx_ans A)) : list A :=
  flat_map (fun e => match snd e with XGave v | XThrew v => [v] | _ => [] end) h.
