(** Vocabulary of the specification of delay_remove. *)
From Verif Require Import Base Spec VecDiff.

Section DelaySpec.
  Context {K : Type}.

  (** A display: values, each with a flag: true = removed from the source, but lingering. *)
  Definition display : Type := list (K * bool).

  (** The values that do not linger. *)
  Definition live (s : display) : list K := map fst (filter (fun x => negb (snd x)) s).

  (** How a change of the source changes the display: a removed value stays where it is, and
      lingers; an index of the source counts the values that do not linger; nothing but the value
      that the source moves changes its place. *)
  Definition displays (d : vecdiff K) (s s' : display) : Prop :=
    match d with
    | Replace values => s' = map (fun x => (fst x, true)) s ++ map (fun v => (v, false)) values
    | InsertAt i v => exists a b, s = a ++ b /\ length (live a) = i /\ s' = a ++ (v, false) :: b
    | UpdateAt i v => exists a y b, s = a ++ (y, false) :: b /\ length (live a) = i /\ s' = a ++ (v, false) :: b
    | RemoveAt i => exists a y b, s = a ++ (y, false) :: b /\ length (live a) = i /\ s' = a ++ (y, true) :: b
    | Move o n => exists a y b a' b', s = a ++ (y, false) :: b /\ length (live a) = o
                    /\ a ++ b = a' ++ b' /\ length (live a') = n /\ s' = a' ++ (y, false) :: b'
    | Push v => s' = s ++ [(v, false)]
    | Pop => exists a y b, s = a ++ (y, false) :: b /\ live b = [] /\ s' = a ++ (y, true) :: b
    | Clear => s' = map (fun x => (fst x, true)) s
    end.

  (** The displays that are possible after the changes [ds] of the source, when the lingering
      values [gone] have vanished (in this order). *)
  Inductive lingered : list (vecdiff K) -> display -> list K -> Prop :=
  | ling_start : lingered [] [] []
  | ling_change ds s gone d s' : lingered ds s gone -> displays d s s' -> lingered (ds ++ [d]) s' gone
  | ling_vanish ds a y b gone : lingered ds (a ++ (y, true) :: b) gone -> lingered ds (a ++ b) (gone ++ [y]).
End DelaySpec.
