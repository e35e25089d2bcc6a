(** Specification of MutableBTreeMap, entry by entry. *)
From Verif Require Import Base Spec MapDiff MapSpec Mpsc MutMap.

(** What each operation does to the contents [m] (new contents [m']) and what it returns. *)
Definition mop_means {K V} (o : mop K V) (m m' : list (K * V)) (r : mret V) : Prop :=
  match o with
  | MOClear => m' = [] /\ r = RNothing
  | MORemove k => (forall k' v', In (k', v') m' <-> k' <> k /\ In (k', v') m)
      /\ exists old, r = ROld old /\ forall v, old = Some v <-> In (k, v) m
  | MOInsert k v | MOInsertCloned k v =>
      (forall k' v', In (k', v') m' <-> k' = k /\ v' = v \/ k' <> k /\ In (k', v') m)
      /\ exists old, r = ROld old /\ forall v0, old = Some v0 <-> In (k, v0) m
  | MOReplace es | MOReplaceCloned es => mdiff_means (MReplace es) m m' /\ r = RNothing
  end.

(** What each operation sends. *)
Definition mop_sends {K V} (o : mop K V) (m m' : list (K * V)) (ds : list (mapdiff K V)) : Prop :=
  match o with
  | MOClear => (m = [] -> ds = []) /\ (m <> [] -> ds = [MClear])
  | MORemove k => (~ has_key k m -> ds = []) /\ (has_key k m -> ds = [MRemove k])
  | MOInsert k v | MOInsertCloned k v =>
      (~ has_key k m -> ds = [MInsert k v]) /\ (has_key k m -> ds = [MUpdate k v])
  | MOReplace _ | MOReplaceCloned _ => ds = [MReplace m']
  end.
