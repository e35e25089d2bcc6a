(** Polls, scripted sources, the Vec operations of std, and the two polling loops
    that the combinators of rust-signals are made of. *)
From Coq Require Export List Arith Lia Bool Permutation.
Export ListNotations.

(** std::task::Poll *)
Inductive poll (A : Type) : Type :=
| Pending : poll A
| Ready : A -> poll A.
Arguments Pending {A}.
Arguments Ready {A} a.

(** A panic is [None]. *)
Notation "'let?' x := e 'in' k" :=
  (match e with Some x => k | None => None end)
  (at level 200, x pattern, e at level 100, k at level 200, right associativity).

(** ** std::vec::Vec, as documented. [None] = panic. *)

(** Vec::insert: panics if [i > len]. *)
Definition vinsert {A} (i : nat) (x : A) (l : list A) : option (list A) :=
  if i <=? length l then Some (firstn i l ++ x :: skipn i l) else None.

(** Vec::remove: panics if [i >= len]; returns the removed element. *)
Definition vremove {A} (i : nat) (l : list A) : option (A * list A) :=
  match nth_error l i with
  | Some x => Some (x, firstn i l ++ skipn (i + 1) l)
  | None => None
  end.

(** [v[i] = x]: panics if [i >= len]. *)
Definition vset {A} (i : nat) (x : A) (l : list A) : option (list A) :=
  if i <? length l then Some (firstn i l ++ x :: skipn (i + 1) l) else None.

(** Vec::pop: [None] when empty (this one is a Rust Option, not a panic). *)
Definition vpop {A} (l : list A) : option (A * list A) :=
  match rev l with
  | [] => None
  | x :: r => Some (x, rev r)
  end.

(** usize subtraction; underflow panics. *)
Definition usub (a b : nat) : option nat :=
  if b <=? a then Some (a - b) else None.

(** ** Scripted sources *)

(** A user supplied signal, stream or future: [todo] are the answers it will give to
    the following polls, [past] the answers given so far (oldest first). *)
Record src (X : Type) : Type := mkSrc { past : list (poll X); todo : list (poll X) }.
Arguments mkSrc {X} past todo.
Arguments past {X} s.
Arguments todo {X} s.

Definition fresh {X} (script : list (poll X)) : src X := mkSrc [] script.

(** One poll of a source. An exhausted script answers Pending. *)
Definition poll_src {X} (s : src X) : poll X * src X :=
  match todo s with
  | [] => (Pending, mkSrc (past s ++ [Pending]) [])
  | r :: t => (r, mkSrc (past s ++ [r]) t)
  end.

(** ** The loops *)

(** [loop { match source.poll() { Ready(Some(d)) => match step(d) { Some(o) => return
    Ready(Some(o)), None => continue }, Ready(None) => return Ready(None), Pending =>
    return Pending } }], by recursion on the script. *)
Fixpoint loop_emit {St D O} (step : St -> D -> option (St * option O))
  (s : St) (pst td : list (poll (option D))) {struct td}
  : option (St * src (option D) * poll (option O)) :=
  match td with
  | [] => Some (s, mkSrc (pst ++ [Pending]) [], Pending)
  | Pending :: td' => Some (s, mkSrc (pst ++ [Pending]) td', Pending)
  | Ready None :: td' => Some (s, mkSrc (pst ++ [Ready None]) td', Ready None)
  | Ready (Some d) :: td' =>
      match step s d with
      | None => None
      | Some (s', Some o) => Some (s', mkSrc (pst ++ [Ready (Some d)]) td', Ready (Some o))
      | Some (s', None) => loop_emit step s' (pst ++ [Ready (Some d)]) td'
      end
  end.

(** [loop { match source.poll() { Ready(Some(d)) => { step(d); continue }, Ready(None) =>
    { done = true; break }, Pending => { done = false; break } } }]; the boolean is [done]. *)
Fixpoint loop_drain {St D} (step : St -> D -> option St)
  (s : St) (pst td : list (poll (option D))) {struct td}
  : option (St * src (option D) * bool) :=
  match td with
  | [] => Some (s, mkSrc (pst ++ [Pending]) [], false)
  | Pending :: td' => Some (s, mkSrc (pst ++ [Pending]) td', false)
  | Ready None :: td' => Some (s, mkSrc (pst ++ [Ready None]) td', true)
  | Ready (Some d) :: td' =>
      match step s d with
      | None => None
      | Some s' => loop_drain step s' (pst ++ [Ready (Some d)]) td'
      end
  end.

(** ** Consumers *)

(** A consumer polls a combinator up to [n] times. It polls again after Ready(Some) and
    after Pending (it may be woken at any time), and stops after Ready(None), as the
    Signal / SignalVec contract demands (signal.rs 14-28). *)
Fixpoint run {St O} (m : St -> option (St * poll (option O))) (n : nat) (s : St)
  : option (St * list (poll (option O))) :=
  match n with
  | 0 => Some (s, [])
  | S n' =>
      match m s with
      | None => None
      | Some (s1, Ready None) => Some (s1, [Ready None])
      | Some (s1, o) =>
          match run m n' s1 with
          | None => None
          | Some (s2, os) => Some (s2, o :: os)
          end
      end
  end.

(** A combinator that is nothing but [loop_emit] over one source which it never drops. *)
Definition emit_poll {St D O} (step : St -> D -> option (St * option O))
  (st : St * src (option D)) : option ((St * src (option D)) * poll (option O)) :=
  let '(s, sr) := st in
  match loop_emit step s (past sr) (todo sr) with
  | None => None
  | Some (s', sr', r) => Some ((s', sr'), r)
  end.
