(** Vocabulary of the specifications. Nothing here refers to the code of a combinator. *)
From Verif Require Import Base.

(** The values among a list of answers. *)
Fixpoint yielded {A} (rs : list (poll (option A))) : list A :=
  match rs with
  | [] => []
  | Ready (Some a) :: t => a :: yielded t
  | _ :: t => yielded t
  end.

(** The most recent value among a list of answers. *)
Definition latest_of {A} (rs : list (poll (option A))) : option A :=
  match rev (yielded rs) with
  | [] => None
  | a :: _ => Some a
  end.

(** The most recent value that a source has yielded. *)
Definition latest {A} (s : src (option A)) : option A := latest_of (past s).

(** The source was polled, and the last answer was Pending: the waker of the task that
    polled last is registered with it. *)
Definition awaits {X} (s : src X) : Prop := exists p, past s = p ++ [Pending].

(** Between the two states the source was polled, and the last answer was Pending: it holds the
    waker of the poll that happened in between. *)
Definition armed {X} (before after : src X) : Prop :=
  exists p, past after = past before ++ p ++ [Pending].

(** The source [s] was made from the script, and has played a part of it. *)
Definition plays {X} (script : list (poll X)) (s : src X) : Prop :=
  exists extra, past s ++ todo s = script ++ repeat Pending extra.

(** The source has said that it is finished. *)
Definition ended {A} (s : src (option A)) : Prop := In (Ready None) (past s).

(** A source that still matters after a poll of its combinator which answered Pending: it has
    ended, or it was polled in that very poll and answered Pending last. *)
Definition listening {A} (before after : src (option A)) : Prop := ended after \/ armed before after.

(** Nobody polled after the end. *)
Definition obeys_end {A} (rs : list (poll (option A))) : Prop :=
  forall p q, rs = p ++ Ready None :: q -> q = [].
(** Same for a future: nobody polled it after it completed. *)
Definition obeys_completion {A} (rs : list (poll A)) : Prop :=
  forall p a q, rs = p ++ Ready a :: q -> q = [].

(** The first-poll contract of Signal (signal.rs 14-28): the first answer is a value. *)
Definition has_initial {A} (script : list (poll (option A))) : Prop :=
  exists a t, script = Ready (Some a) :: t.

(** The last output of a run. *)
Definition last_out {X} (outs : list (poll X)) (o : poll X) : Prop := exists p, outs = p ++ [o].

(** Apply a list of changes one after the other; [None] = some application panics. *)
Fixpoint apply_all {D X} (app : D -> X -> option X) (x : X) (ds : list D) : option X :=
  match ds with
  | [] => Some x
  | d :: ds' => match app d x with
                | Some x' => apply_all app x' ds'
                | None => None
                end
  end.

(** Wake-ups and ends of a combinator with one source, after any number of polls:
    - if it answered Pending, the source itself answered Pending at its last poll;
    - it ends exactly when its source has ended;
    - the source was not polled after its end. *)
Definition single_source_ok {St D O}
  (m : St * src (option D) -> option ((St * src (option D)) * poll (option O))) (s0 : St) : Prop :=
  forall script n s sr outs, run m n (s0, fresh script) = Some ((s, sr), outs) ->
    (last_out outs Pending -> awaits sr)
    /\ (last_out outs (Ready None) <-> ended sr)
    /\ obeys_end (past sr).

(** Wake-ups and ends, given the outputs so far and the state of a source:
    - after Pending, the source's last answer was Pending (so it has not ended);
    - an end is only announced after the source ended;
    - the source was not polled after its end. *)
Definition source_ok {D O} (outs : list (poll (option O))) (sr : src (option D)) : Prop :=
  (last_out outs Pending -> awaits sr)
  /\ (last_out outs (Ready None) -> ended sr)
  /\ obeys_end (past sr).

(** Whenever a poll answers Pending, whatever state it started from, the source was polled in
    that very poll and answered Pending last. *)
Definition rearms {St X O} (m : St -> option (St * poll O)) (source : St -> src X) : Prop :=
  forall st st', m st = Some (st', Pending) -> armed (source st) (source st').

(** The source number [i] of a list; one that is not there yet counts as never polled. *)
Definition source_no {K X} (l : list (K * src X)) (i : nat) : src X :=
  match nth_error l i with
  | Some (_, s) => s
  | None => fresh []
  end.

(** No two neighbours are equal, in the sense of the given test. *)
Definition no_repeats {A} (eqb : A -> A -> bool) (l : list A) : Prop :=
  forall p a b q, l = p ++ a :: b :: q -> eqb a b = false.

(** One answer per answer: [f] applied to the values, Pending and ends unchanged. *)
Definition answers_mapped {A B} (f : A -> B) (rs : list (poll (option A))) : list (poll (option B)) :=
  map (fun r => match r with
                | Pending => Pending
                | Ready v => Ready (option_map f v)
                end) rs.

(** A combinator whose input honours the first-poll contract honours it too. *)
Definition initial_ok {St D O}
  (m : St * src (option D) -> option ((St * src (option D)) * poll (option O))) (s0 : St) : Prop :=
  forall script n s outs, has_initial script ->
    run m n (s0, fresh script) = Some (s, outs) -> outs <> [] -> has_initial outs.

(** A list without the elements that equal the last one kept. *)
Fixpoint squash_after {A} (eqb : A -> A -> bool) (kept : A) (l : list A) : list A :=
  match l with
  | [] => []
  | a :: t => if eqb kept a then squash_after eqb kept t else a :: squash_after eqb a t
  end.
Definition squash {A} (eqb : A -> A -> bool) (l : list A) : list A :=
  match l with
  | [] => []
  | a :: t => a :: squash_after eqb a t
  end.

(** A lawful PartialEq. *)
Definition lawful {A} (eqb : A -> A -> bool) : Prop := forall a b, eqb a b = true <-> a = b.

(** The results among the answers of a future. *)
Fixpoint results {X} (rs : list (poll X)) : list X :=
  match rs with
  | [] => []
  | Ready x :: t => x :: results t
  | Pending :: t => results t
  end.

(** The value with which a source answered its [k]-th poll (counted from 0), if it did. *)
Definition answered {A} (k : nat) (sr : src (option A)) : option A :=
  match nth_error (past sr) k with
  | Some (Ready (Some a)) => Some a
  | _ => None
  end.

(** All of them, or none. *)
Fixpoint all_some {A} (l : list (option A)) : option (list A) :=
  match l with
  | [] => Some []
  | Some a :: t => option_map (cons a) (all_some t)
  | None :: _ => None
  end.

(** The newer value where there is one. *)
Fixpoint newer {A} (new old : list (option A)) : list (option A) :=
  match new, old with
  | n :: new', o :: old' => match n with Some _ => n | None => o end :: newer new' old'
  | _, _ => []
  end.

(** A function that may modify the current values is called each time at least one of them was
    replaced; what it leaves behind are the current values from then on. The result: the current
    values at the end, and what the calls returned. *)
Fixpoint called_per_round {A B} (f : list A -> list A * B) (current : list (option A))
  (rounds : list (list (option A))) : option (list (option A) * list B) :=
  match rounds with
  | [] => Some (current, [])
  | r :: rounds' =>
      if forallb (fun v => match v with None => true | Some _ => false end) r
      then called_per_round f current rounds'
      else match all_some (newer r current) with
           | None => None
           | Some vs =>
               match called_per_round f (map Some (fst (f vs))) rounds' with
               | None => None
               | Some (final, bs) => Some (final, snd (f vs) :: bs)
               end
           end
  end.
