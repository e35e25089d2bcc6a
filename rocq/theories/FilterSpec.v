(** The words of the exact account of filter and filter_map (C09, C10). *)
From Verif Require Import Base VecDiff VecSpec.

Section FilterWords.
  Context {A B : Type} (f : A -> option B).

  (** How many of the first [i] elements are accepted: the place of element [i] in the output. *)
  Definition place (i : nat) (l : list A) : nat := length (accepted_values f (firstn i l)).
  Definition rejected (i : nat) (l : list A) : bool :=
    match nth_error l i with Some a => match f a with Some _ => false | None => true end | None => false end.

  (** What becomes of one diff of the source, when the source holds [l]. All of it is as it should
      be, except that the old place of an element that is moved towards the front is one too high
      if the element before it is rejected. *)
  Definition filter_out (l : list A) (d : vecdiff A) : option (vecdiff B) :=
    match d with
    | Replace vs => Some (Replace (accepted_values f vs))
    | InsertAt i a => match f a with Some b => Some (InsertAt (place i l) b) | None => None end
    | UpdateAt i a =>
        match f a, rejected i l with
        | Some b, false => Some (UpdateAt (place i l) b)
        | Some b, true => Some (InsertAt (place i l) b)
        | None, false => Some (RemoveAt (place i l))
        | None, true => None
        end
    | RemoveAt i => if rejected i l then None else Some (RemoveAt (place i l))
    | Move o n =>
        if rejected o l then None
        else Some (Move (place o l + (if (n <? o) && rejected (o - 1) l then 1 else 0)) (place n (firstn o l ++ skipn (S o) l)))
    | Push a => match f a with Some b => Some (Push b) | None => None end
    | Pop => if rejected (length l - 1) l then None else Some Pop
    | Clear => Some Clear
    end.

  (** What becomes of several. *)
  Fixpoint filter_outs (l : list A) (ds : list (vecdiff A)) : list (vecdiff B) :=
    match ds with
    | [] => []
    | d :: ds =>
        match filter_out l d with Some d' => [d'] | None => [] end
        ++ match apply_to_vec d l with Some l' => filter_outs l' ds | None => [] end
    end.
End FilterWords.
