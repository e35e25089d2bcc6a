(** futures_channel::mpsc::unbounded, modelled by its documentation, for messages of any type. *)
From Verif Require Import Base Spec.

(** One channel, seen from the receiver. [cqueue]: messages not yet received; [cgot]: the answers
    to its polls so far (ghost); [calive]: the receiver was not dropped; [cwaiting]: a waker is
    registered; [cwoken]: the registered waker was woken (since the last poll). *)
Record chan (D : Type) := mkChan {
  cqueue : list D; cgot : list (poll (option D)); calive : bool; cwaiting : bool; cwoken : bool }.
Arguments mkChan {D} cqueue cgot calive cwaiting cwoken.
Arguments cqueue {D} c.
Arguments cgot {D} c.
Arguments calive {D} c.
Arguments cwaiting {D} c.
Arguments cwoken {D} c.

(** mpsc::unbounded(), after the given messages were sent. *)
Definition new_chan {D} (messages : list D) : chan D := mkChan messages [] true false false.

(** A message arrives, the registered waker is woken. *)
Definition cdeliver {D} (d : D) (s : chan D) : chan D :=
  mkChan (cqueue s ++ [d]) (cgot s) (calive s) false (cwoken s || cwaiting s).

(** UnboundedSender::unbounded_send on the channel number [id]; the boolean is [is_ok()]. *)
Definition csend {D} (id : nat) (d : D) (cs : list (chan D)) : list (chan D) * bool :=
  match nth_error cs id with
  | Some s => if calive s then (firstn id cs ++ cdeliver d s :: skipn (id + 1) cs, true) else (cs, false)
  | None => (cs, false)
  end.

(** Stream::poll_next of the receiver; [closed]: all senders are gone. *)
Definition cpoll {D} (closed : bool) (s : chan D) : chan D * poll (option D) :=
  match cqueue s with
  | d :: q => (mkChan q (cgot s ++ [Ready (Some d)]) (calive s) (cwaiting s) false, Ready (Some d))
  | [] => if closed then (mkChan [] (cgot s ++ [Ready None]) (calive s) (cwaiting s) false, Ready None)
          else (mkChan [] (cgot s ++ [Pending]) (calive s) true false, Pending)
  end.

(** The last sender is dropped: the task of the receiver is woken. *)
Definition cclose {D} (s : chan D) : chan D :=
  mkChan (cqueue s) (cgot s) (calive s) false (cwoken s || cwaiting s).

(** The receiver is dropped. *)
Definition cdrop {D} (s : chan D) : chan D :=
  mkChan (cqueue s) (cgot s) false (cwaiting s) (cwoken s).

(** Specification vocabulary: everything received or about to be received. *)
Definition ctotal {D} (s : chan D) : list D := yielded (cgot s) ++ cqueue s.
