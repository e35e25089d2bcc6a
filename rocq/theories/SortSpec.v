(** What sort_by_cloned has to show. *)
From Coq Require Import Sorted.
From Verif Require Import Base.

(** A comparison that is a total preorder: swapping the arguments reverses the answer, and "not
    greater" is transitive. *)
Definition total_preorder {A} (compare : A -> A -> comparison) : Prop :=
  (forall a b, compare b a = CompOpp (compare a b))
  /\ (forall a b c, compare a b <> Gt -> compare b c <> Gt -> compare a c <> Gt).

(** [out] is the stable sort of [l]: the same elements, in ascending order, and elements that
    compare equal are in the order in which they are in [l]. *)
Definition stable_sort_of {A} (compare : A -> A -> comparison) (l out : list A) : Prop :=
  Permutation l out
  /\ StronglySorted (fun a b => compare a b <> Gt) out
  /\ forall a, let same b := match compare a b with Eq => true | _ => false end in
       filter same out = filter same l.
