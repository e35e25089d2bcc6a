(** [Option<source>] fields. *)
From Verif Require Import Base.

(** ** An [Option<source>] field *)

(** The field is [Some source] when the flag is true; the source itself stays visible after it
    was dropped (for the specification only). *)
Definition slot (X : Type) : Type := (bool * src X)%type.
Definition some_slot {X} (script : list (poll X)) : slot X := (true, fresh script).

(** The loop shared by ToSignalMap (1257-1309), Len (1930-1976), SumSignal (2196-2254),
    FromStream (signal.rs 826-846):
    [loop { match field.map(|s| s.poll()) { None => true, Some(Ready(None)) => { field = None;
    true }, Some(Ready(Some(d))) => { step(d); continue }, Some(Pending) => false } }]. *)
Definition drain_slot {St D} (step : St -> D -> option St) (s : St) (sl : slot (option D))
  : option (St * slot (option D) * bool) :=
  let '(live, sr) := sl in
  if live then
    match loop_drain step s (past sr) (todo sr) with
    | None => None
    | Some (s', sr', done) => Some (s', (negb done, sr'), done)
    end
  else Some (s, sl, true).

(** The same loop when the body may return an answer ([loop_emit]). The last component: the
    answer returned by the body, or Ready None = the field is or becomes None, or Pending. *)
Definition emit_slot {St D O} (step : St -> D -> option (St * option O)) (s : St) (sl : slot (option D))
  : option (St * slot (option D) * poll (option O)) :=
  let '(live, sr) := sl in
  if live then
    match loop_emit step s (past sr) (todo sr) with
    | None => None
    | Some (s', sr', Ready None) => Some (s', (false, sr'), Ready None)
    | Some (s', sr', r) => Some (s', (true, sr'), r)
    end
  else Some (s, sl, Ready None).

(** [field.map(|s| s.poll())] for a field that the code drops when the source ends or
    completes. *)
Definition poll_slot {X} (sl : slot X) : option (poll X) * slot X :=
  let '(live, sr) := sl in
  if live then let '(r, sr') := poll_src sr in (Some r, (true, sr'))
  else (None, sl).

(** [field.set(None)] *)
Definition drop_slot {X} (sl : slot X) : slot X := (false, snd sl).
