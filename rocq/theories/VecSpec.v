(** Vocabulary of the SignalVec specifications. *)
From Verif Require Import Base Spec VecDiff.

(** What the documentation of each VecDiff kind says about the Vec before ([l]) and after
    ([l']). *)
Definition diff_means {A} (d : vecdiff A) (l l' : list A) : Prop :=
  match d with
  | Replace values => l' = values
  | InsertAt i x =>
      i <= length l /\
      (forall k, k < i -> nth_error l' k = nth_error l k) /\
      nth_error l' i = Some x /\
      (forall k, i < k -> nth_error l' k = nth_error l (k - 1))
  | UpdateAt i x =>
      i < length l /\
      nth_error l' i = Some x /\
      (forall k, k <> i -> nth_error l' k = nth_error l k)
  | RemoveAt i =>
      i < length l /\
      (forall k, k < i -> nth_error l' k = nth_error l k) /\
      (forall k, i <= k -> nth_error l' k = nth_error l (k + 1))
  | Move o n =>
      o < length l /\ n < length l /\
      nth_error l' n = nth_error l o /\
      (forall k, k < n -> nth_error l' k = nth_error l (if k <? o then k else k + 1)) /\
      (forall k, n < k -> nth_error l' k = nth_error l (if k - 1 <? o then k - 1 else k))
  | Push x =>
      (forall k, k < length l -> nth_error l' k = nth_error l k) /\
      nth_error l' (length l) = Some x /\ length l' = length l + 1
  | Pop =>
      length l <> 0 /\ length l' = length l - 1 /\
      (forall k, k < length l - 1 -> nth_error l' k = nth_error l k)
  | Clear => l' = []
  end.

(** When applying a diff panics. *)
Definition diff_panics {A} (d : vecdiff A) (l : list A) : Prop :=
  match d with
  | InsertAt i _ => length l < i
  | UpdateAt i _ | RemoveAt i => length l <= i
  | Move o n => length l <= o \/ length l <= n
  | Pop => l = []
  | Replace _ | Push _ | Clear => False
  end.

(** The Some results of a closure, in order. *)
Definition accepted_values {A B} (f : A -> option B) (l : list A) : list B :=
  flat_map (fun a => match f a with Some b => [b] | None => [] end) l.

(** Side condition for the filtering combinators: a backward Move (n < o) of an accepted
    element only happens when the element directly before its old position is accepted too. *)
Definition backward_moves_ok {A} (acc : A -> bool) (ds : list (vecdiff A)) : Prop :=
  forall pre o n post l x y, ds = pre ++ Move o n :: post -> replay pre = Some l -> n < o ->
    nth_error l o = Some x -> nth_error l (o - 1) = Some y -> acc x = true -> acc y = true.

(** The index handles delivered with the elements of some diffs of enumerate. *)
Definition handles {A} (ds : list (vecdiff (nat * A))) : list nat :=
  map fst (flat_map values_of ds).

(** Element handles: UpdateAt re-uses the handle at its index; every other delivered
    handle is new. *)
Definition handles_stable {A} (os : list (vecdiff (nat * A))) : Prop :=
  forall pre d post, os = pre ++ d :: post ->
    exists l, replay pre = Some l /\
    match d with
    | UpdateAt i (c, _) => exists v, nth_error l i = Some (c, v)
    | _ => forall c, In c (map fst (values_of d)) -> ~ In c (handles pre)
    end.


(** The source never clears, and never replaces by nothing, what is empty already. *)
Definition never_empties_empty {A} (ds : list (vecdiff A)) : Prop :=
  forall pre d post, ds = pre ++ d :: post -> replay pre = Some [] -> d <> Clear /\ d <> Replace [].

(** The elements that a diff removes, overwrites or moves one by one. *)
Definition touches {A} (d : vecdiff A) (l : list A) : list A :=
  match d with
  | UpdateAt i _ | RemoveAt i | Move i _ => match nth_error l i with Some a => [a] | None => [] end
  | Pop => match rev l with a :: _ => [a] | [] => [] end
  | _ => []
  end.

(** Only elements with property [P] are removed, overwritten or moved one by one. *)
Definition touches_only {A} (P : A -> Prop) (ds : list (vecdiff A)) : Prop :=
  forall pre d post l a, ds = pre ++ d :: post -> replay pre = Some l -> In a (touches d l) -> P a.

(** Every backward Move in the diffs has property [P] of the moved element and the one directly
    before it. *)
Definition backward_moves {A} (P : A -> A -> Prop) (ds : list (vecdiff A)) : Prop :=
  forall pre o n post l x y, ds = pre ++ Move o n :: post -> replay pre = Some l -> n < o ->
    nth_error l o = Some x -> nth_error l (o - 1) = Some y -> P x y.

(** What becomes of a list of things, each made for one value of a SignalVec, when the SignalVec
    yields further diffs: the things are inserted, removed and moved like the values. *)
Definition carried {K X} (make : K -> X) (ds : list (vecdiff K)) (l : list X) : option (list X) :=
  apply_all apply_to_vec l (map (fun d => fst (vd_map make d)) ds).
