(** src/signal/channel.rs as an interleaving model. Each AtomicOption operation is one step (see
    AtomicOption.v: C56_atomic shows that it takes effect at one instant); each access of the
    counter is one step. Each poll hands over its own waker, named by the number of that poll. *)
From Verif Require Import Base Conc.
From Coq Require Import NArith.

(** usize on a 64 bit target; fetch_add and fetch_sub wrap around. *)
Definition usize_max : N := 18446744073709551615%N.
Definition wrap_add (n : N) : N := if (n =? usize_max)%N then 0%N else (n + 1)%N.
Definition wrap_sub (n : N) : N := if (n =? 0)%N then usize_max else (n - 1)%N.

(** Which call is notifying (41-45). *)
Inductive ch_kind (A : Type) := KSend (v : A) | KClose | KDropS.
Arguments KSend {A} v. Arguments KClose {A}. Arguments KDropS {A}.

(** Program counter of a call on Sender [h]; each constructor is the next step.
    - send (55-69): upgrade 56, has_senders 57, value.store 58, notify 59;
    - close (71-78): upgrade 72, has_senders 73, store 0 74, notify 75;
    - clone (82-93): upgrade 83, has_senders 85, fetch_add 86;
    - drop (97-107): upgrade 98, has_senders 100, fetch_sub 102, notify 103;
    - notify (41-45): waker.take 42, wake 43.
    [PRet...]: the call has returned; [PRetSend ok v] was [send(v)], [ok] tells Ok from Err;
    [PRetClone new] made the Sender [new]. *)
Inductive ch_pc (A : Type) :=
| PSendUp (v : A) | PSendChk (v : A) | PSendStore (v : A)
| PCloseUp | PCloseChk | PCloseStore
| PCloneUp | PCloneChk | PCloneAdd
| PDropUp | PDropChk | PDropSub
| PNotify (k : ch_kind A) | PWake (k : ch_kind A) (w : nat)
| PRetSend (ok : bool) (v : A) | PRetClose | PRetClone (new : nat) | PRetDrop.
Arguments PSendUp {A} v. Arguments PSendChk {A} v. Arguments PSendStore {A} v.
Arguments PCloseUp {A}. Arguments PCloseChk {A}. Arguments PCloseStore {A}.
Arguments PCloneUp {A}. Arguments PCloneChk {A}. Arguments PCloneAdd {A}.
Arguments PDropUp {A}. Arguments PDropChk {A}. Arguments PDropSub {A}.
Arguments PNotify {A} k. Arguments PWake {A} k w.
Arguments PRetSend {A} ok v. Arguments PRetClose {A}. Arguments PRetClone {A} new. Arguments PRetDrop {A}.

(** The Receiver: idle, or in poll_change (123-137) just before value.take 124, has_senders 126,
    waker.store 127; or dropped. *)
Inductive rx_pc := RIdle | RTake | RChk | RStore | RGone.

(** [strong]: the number of Arc<Inner>. [live]: the Senders that exist (a Sender being dropped is not
    among them), [next]: how many were ever made. Ghost: [sent] logs each value.store with the call
    that made it ([None]: the initial value); [answers] what poll_change returned; [woken] the wakers
    woken; [waiting]: the last poll returned Pending; [polls]: the number of polls started;
    [raced]: some notify took place during the last poll; [overtaken]: some value was stored during
    the last poll after it had found the cell empty; [closed]: some close stored 0; [close_race]: it
    did so while a clone or drop was between its check and its update of the counter. *)
Record ch_st (A : Type) := mkCh {
  c_value : option A; c_waker : option nat; c_senders : N; c_strong : nat;
  c_live : list nat; c_next : nat; c_ops : list (nat * ch_pc A); c_rx : rx_pc;
  c_sent : list (option nat * A); c_answers : list (poll (option A)); c_woken : list nat;
  c_waiting : bool; c_polls : nat;
  c_raced : bool; c_overtaken : bool; c_closed : bool; c_close_race : bool }.
Arguments mkCh {A}.
Arguments c_value {A} _. Arguments c_waker {A} _. Arguments c_senders {A} _. Arguments c_strong {A} _.
Arguments c_live {A} _. Arguments c_next {A} _. Arguments c_ops {A} _. Arguments c_rx {A} _.
Arguments c_sent {A} _. Arguments c_answers {A} _. Arguments c_woken {A} _. Arguments c_waiting {A} _.
Arguments c_polls {A} _. Arguments c_raced {A} _. Arguments c_overtaken {A} _. Arguments c_closed {A} _.
Arguments c_close_race {A} _.

(** 140-155: channel; one Sender, number 0, and the Receiver. *)
Definition ch_init {A} (v0 : A) : ch_st A :=
  mkCh (Some v0) None 1%N 1 [0] 1 [] RIdle [(None, v0)] [] [] false 0 false false false false.

Inductive ch_move (A : Type) :=
| MSend (h : nat) (v : A) | MClose (h : nat) | MClone (h : nat) | MDrop (h : nat)  (* start a call on Sender h *)
| MOp (i : nat)                                                                     (* one step of call i *)
| MPoll | MRx                                                                       (* start a poll; one step of it *)
| MDropRx.                                                                          (* drop the Receiver *)
Arguments MSend {A} h v. Arguments MClose {A} h. Arguments MClone {A} h. Arguments MDrop {A} h.
Arguments MOp {A} i. Arguments MPoll {A}. Arguments MRx {A}. Arguments MDropRx {A}.

Definition ch_returned {A} (p : ch_pc A) : bool :=
  match p with PRetSend _ _ | PRetClose | PRetClone _ | PRetDrop => true | _ => false end.

Section Setters.
Context {A : Type}.
Implicit Type s : ch_st A.
Definition set_ops s ops := mkCh (c_value s) (c_waker s) (c_senders s) (c_strong s) (c_live s) (c_next s) ops (c_rx s)
  (c_sent s) (c_answers s) (c_woken s) (c_waiting s) (c_polls s) (c_raced s) (c_overtaken s) (c_closed s) (c_close_race s).
Definition set_value s v := mkCh v (c_waker s) (c_senders s) (c_strong s) (c_live s) (c_next s) (c_ops s) (c_rx s)
  (c_sent s) (c_answers s) (c_woken s) (c_waiting s) (c_polls s) (c_raced s) (c_overtaken s) (c_closed s) (c_close_race s).
Definition set_waker s w := mkCh (c_value s) w (c_senders s) (c_strong s) (c_live s) (c_next s) (c_ops s) (c_rx s)
  (c_sent s) (c_answers s) (c_woken s) (c_waiting s) (c_polls s) (c_raced s) (c_overtaken s) (c_closed s) (c_close_race s).
Definition set_senders s n := mkCh (c_value s) (c_waker s) n (c_strong s) (c_live s) (c_next s) (c_ops s) (c_rx s)
  (c_sent s) (c_answers s) (c_woken s) (c_waiting s) (c_polls s) (c_raced s) (c_overtaken s) (c_closed s) (c_close_race s).
Definition set_strong s n := mkCh (c_value s) (c_waker s) (c_senders s) n (c_live s) (c_next s) (c_ops s) (c_rx s)
  (c_sent s) (c_answers s) (c_woken s) (c_waiting s) (c_polls s) (c_raced s) (c_overtaken s) (c_closed s) (c_close_race s).
Definition set_live s l n := mkCh (c_value s) (c_waker s) (c_senders s) (c_strong s) l n (c_ops s) (c_rx s)
  (c_sent s) (c_answers s) (c_woken s) (c_waiting s) (c_polls s) (c_raced s) (c_overtaken s) (c_closed s) (c_close_race s).
Definition set_rx s r := mkCh (c_value s) (c_waker s) (c_senders s) (c_strong s) (c_live s) (c_next s) (c_ops s) r
  (c_sent s) (c_answers s) (c_woken s) (c_waiting s) (c_polls s) (c_raced s) (c_overtaken s) (c_closed s) (c_close_race s).
Definition log_sent s i v := mkCh (c_value s) (c_waker s) (c_senders s) (c_strong s) (c_live s) (c_next s) (c_ops s) (c_rx s)
  (c_sent s ++ [(Some i, v)]) (c_answers s) (c_woken s) (c_waiting s) (c_polls s) (c_raced s)
  (c_overtaken s || match c_rx s with RChk => true | _ => false end) (c_closed s) (c_close_race s).
Definition log_woken s w := mkCh (c_value s) (c_waker s) (c_senders s) (c_strong s) (c_live s) (c_next s) (c_ops s) (c_rx s)
  (c_sent s) (c_answers s) (c_woken s ++ [w]) (c_waiting s) (c_polls s) (c_raced s) (c_overtaken s) (c_closed s) (c_close_race s).
(** Ghost: a notify that runs while a poll is between value.take and waker.store. *)
Definition log_notify s := mkCh (c_value s) (c_waker s) (c_senders s) (c_strong s) (c_live s) (c_next s) (c_ops s) (c_rx s)
  (c_sent s) (c_answers s) (c_woken s) (c_waiting s) (c_polls s)
  (c_raced s || match c_rx s with RChk | RStore => true | _ => false end) (c_overtaken s) (c_closed s) (c_close_race s).
Definition log_close s (race : bool) := mkCh (c_value s) (c_waker s) (c_senders s) (c_strong s) (c_live s) (c_next s)
  (c_ops s) (c_rx s) (c_sent s) (c_answers s) (c_woken s) (c_waiting s) (c_polls s) (c_raced s) (c_overtaken s)
  true (c_close_race s || race).
(** The poll returns [r]. *)
Definition ret_poll s (r : poll (option A)) := mkCh (c_value s) (c_waker s) (c_senders s) (c_strong s) (c_live s) (c_next s)
  (c_ops s) RIdle (c_sent s) (c_answers s ++ [r]) (c_woken s)
  (match r with Pending => true | _ => false end) (c_polls s) (c_raced s) (c_overtaken s) (c_closed s) (c_close_race s).
(** A poll starts; its waker is the number of polls started so far. *)
Definition start_poll s := mkCh (c_value s) (c_waker s) (c_senders s) (c_strong s) (c_live s) (c_next s)
  (c_ops s) RTake (c_sent s) (c_answers s) (c_woken s) false (S (c_polls s)) false false (c_closed s) (c_close_race s).

(** Call [i], on Sender [h], goes on to [p]. *)
Definition goto s (i h : nat) (p : ch_pc A) := set_ops s (lupd i (h, p) (c_ops s)).

(** The Arc that the call got from upgrade is dropped; if it was the last one, Inner is dropped. *)
Definition release s :=
  let s' := set_strong s (c_strong s - 1) in
  if c_strong s =? 1 then set_waker (set_value s' None) None else s'.
End Setters.

(** has_senders (20-23) *)
Definition has_senders {A} (s : ch_st A) : bool := negb (c_senders s =? 0)%N.

(** A clone or drop of this call is between its check and its update of the counter. *)
Definition mid_count {A} (c : nat * ch_pc A) : bool :=
  match snd c with PCloneAdd | PDropSub => true | _ => false end.

(** Clone returns the new Sender (90-92). *)
Definition ret_clone {A} (s : ch_st A) (i h : nat) : ch_st A :=
  let s1 := goto s i h (PRetClone (c_next s)) in
  set_live s1 (c_live s ++ [c_next s]) (S (c_next s)).

(** One step of call [i] on Sender [h]. *)
Definition op_step {A} (s : ch_st A) (i h : nat) (p : ch_pc A) : option (ch_st A) :=
  let up (yes no : ch_pc A) :=
    if c_strong s =? 0 then Some (goto s i h no)
    else Some (goto (set_strong s (S (c_strong s))) i h yes) in
  match p with
  | PSendUp v => up (PSendChk v) (PRetSend false v)
  | PSendChk v => if has_senders s then Some (goto s i h (PSendStore v))
                  else Some (release (goto s i h (PRetSend false v)))
  | PSendStore v => Some (goto (log_sent (set_value s (Some v)) i v) i h (PNotify (KSend v)))
  | PCloseUp => up PCloseChk PRetClose
  | PCloseChk => if has_senders s then Some (goto s i h PCloseStore) else Some (release (goto s i h PRetClose))
  | PCloseStore => Some (goto (log_close (set_senders s 0%N) (existsb mid_count (c_ops s))) i h (PNotify KClose))
  | PCloneUp => if c_strong s =? 0 then Some (ret_clone s i h)
                else Some (goto (set_strong s (S (c_strong s))) i h PCloneChk)
  | PCloneChk => if has_senders s then Some (goto s i h PCloneAdd) else Some (release (ret_clone s i h))
  | PCloneAdd => Some (release (ret_clone (set_senders s (wrap_add (c_senders s))) i h))
  | PDropUp => up PDropChk PRetDrop
  | PDropChk => if has_senders s then Some (goto s i h PDropSub) else Some (release (goto s i h PRetDrop))
  | PDropSub =>
      let s1 := set_senders s (wrap_sub (c_senders s)) in
      if (c_senders s =? 1)%N then Some (goto s1 i h (PNotify KDropS))
      else Some (release (goto s1 i h PRetDrop))
  | PNotify k =>
      match c_waker s with
      | Some w => Some (goto (set_waker (log_notify s) None) i h (PWake k w))
      | None => Some (release (goto (log_notify s) i h
                  (match k with KSend v => PRetSend true v | KClose => PRetClose | KDropS => PRetDrop end)))
      end
  | PWake k w =>
      Some (release (goto (log_woken s w) i h
                  (match k with KSend v => PRetSend true v | KClose => PRetClose | KDropS => PRetDrop end)))
  | PRetSend _ _ | PRetClose | PRetClone _ | PRetDrop => None
  end.

(** One step of poll_change. *)
Definition rx_step {A} (s : ch_st A) : option (ch_st A) :=
  match c_rx s with
  | RTake => match c_value s with
             | Some v => Some (ret_poll (set_value s None) (Ready (Some v)))
             | None => Some (set_rx s RChk)
             end
  | RChk => if has_senders s then Some (set_rx s RStore) else Some (ret_poll s (Ready None))
  | RStore => Some (ret_poll (set_waker s (Some (c_polls s))) Pending)
  | RIdle | RGone => None
  end.

(** Sender [h] is borrowed by a call that has not returned. *)
Definition borrowed {A} (s : ch_st A) (h : nat) : bool :=
  existsb (fun c => (fst c =? h) && negb (ch_returned (snd c))) (c_ops s).

Definition begin {A} (s : ch_st A) (h : nat) (p : ch_pc A) : option (ch_st A) :=
  if existsb (Nat.eqb h) (c_live s) then Some (set_ops s (c_ops s ++ [(h, p)])) else None.

Definition ch_step {A} (s : ch_st A) (m : ch_move A) : option (ch_st A) :=
  match m with
  | MSend h v => begin s h (PSendUp v)
  | MClose h => begin s h PCloseUp
  | MClone h => begin s h PCloneUp
  | MDrop h =>
      (* drop owns the Sender: nobody borrows it, and nobody can use it afterwards *)
      if borrowed s h then None
      else let? s1 := begin s h PDropUp in
           Some (set_live s1 (filter (fun x => negb (x =? h)) (c_live s)) (c_next s))
  | MOp i => let? c := nth_error (c_ops s) i in op_step s i (fst c) (snd c)
  | MPoll => match c_rx s with RIdle => Some (start_poll s) | _ => None end
  | MRx => rx_step s
  | MDropRx => match c_rx s with RIdle => Some (release (set_rx s RGone)) | _ => None end
  end.

(** ** Specification *)

(** The argument of a send, at any point of the call. *)
Definition send_arg {A} (p : ch_pc A) : option A :=
  match p with
  | PSendUp v | PSendChk v | PSendStore v | PNotify (KSend v) | PWake (KSend v) _ | PRetSend _ v => Some v
  | _ => None
  end.

(** No call and no poll is in progress. *)
Definition ch_idle {A} (s : ch_st A) : bool :=
  forallb (fun c => ch_returned (snd c)) (c_ops s) && match c_rx s with RIdle | RGone => true | _ => false end.

(** Single-threaded use: a call or poll starts only when no other one is in progress. *)
Definition ch_step_alone {A} (s : ch_st A) (m : ch_move A) : option (ch_st A) :=
  match m with
  | MOp _ | MRx => ch_step s m
  | _ => if ch_idle s then ch_step s m else None
  end.

(** The last value sent was the last one output. *)
Definition shown_last {A} (sent : list (option nat * A)) (outs : list A) : Prop :=
  exists p i v q, sent = p ++ [(i, v)] /\ outs = q ++ [v] /\ subseq q (map snd p).

(** The last value sent lies in the cell and was not output. *)
Definition holds_last {A} (sent : list (option nat * A)) (outs : list A) (v : A) : Prop :=
  exists p i, sent = p ++ [(i, v)] /\ subseq outs (map snd p).

(** The counter was not disturbed by a close in the middle of a clone or drop, and fewer than 2^64
    Senders were ever made. *)
Definition undisturbed {A} (s : ch_st A) : Prop :=
  c_close_race s = false /\ (N.of_nat (c_next s) <= usize_max)%N.

(** All Senders are dropped. *)
Definition all_dropped {A} (s : ch_st A) : Prop :=
  c_live s = [] /\ forall i h p, nth_error (c_ops s) i = Some (h, p) ->
    match p with PDropUp | PDropChk | PDropSub => False | _ => True end.

(** A drop that has not yet decremented the counter. *)
Definition dropping {A} (c : nat * ch_pc A) : bool :=
  match snd c with PDropUp | PDropChk | PDropSub => true | _ => false end.
