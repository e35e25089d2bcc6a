(** What map diffs mean. A map is the list of its entries in strictly ascending key order. *)
From Coq Require Import Sorted.
From Verif Require Import Base Spec MapDiff.

(** Ord of the keys is a total order (and keys that compare equal are equal). *)
Definition total_order {K} (cmp : K -> K -> comparison) : Prop :=
  (forall a b, cmp a b = Eq <-> a = b)
  /\ (forall a b, cmp b a = CompOpp (cmp a b))
  /\ (forall a b c, cmp a b = Lt -> cmp b c = Lt -> cmp a c = Lt).

(** Strictly ascending. *)
Definition ascending {K} (cmp : K -> K -> comparison) (ks : list K) : Prop :=
  StronglySorted (fun a b => cmp a b = Lt) ks.
Definition is_map {K V} (cmp : K -> K -> comparison) (m : list (K * V)) : Prop :=
  ascending cmp (map fst m).

Definition has_key {K V} (k : K) (m : list (K * V)) : Prop := In k (map fst m).

(** What each diff means, entry by entry: Insert needs an absent key, Update and Remove a present
    one; of several entries of a Replace with the same key the last one counts. *)
Definition mdiff_means {K V} (d : mapdiff K V) (m m' : list (K * V)) : Prop :=
  match d with
  | MReplace es => forall k v, In (k, v) m' <-> exists p q, es = p ++ (k, v) :: q /\ ~ has_key k q
  | MInsert k v => ~ has_key k m
      /\ forall k' v', In (k', v') m' <-> k' = k /\ v' = v \/ k' <> k /\ In (k', v') m
  | MUpdate k v => has_key k m
      /\ forall k' v', In (k', v') m' <-> k' = k /\ v' = v \/ k' <> k /\ In (k', v') m
  | MRemove k => has_key k m /\ forall k' v', In (k', v') m' <-> k' <> k /\ In (k', v') m
  | MClear => m' = []
  end.

(** The same as a function ([None]: the diff cannot be applied). *)
Definition apply_to_map {K V} (cmp : K -> K -> comparison) (d : mapdiff K V) (m : list (K * V))
  : option (list (K * V)) :=
  match d with
  | MReplace es => Some (bt_from_iter cmp es)
  | MInsert k v => match bt_get cmp k m with None => Some (bt_insert cmp k v m) | Some _ => None end
  | MUpdate k v => match bt_get cmp k m with None => None | Some _ => Some (bt_insert cmp k v m) end
  | MRemove k => match bt_get cmp k m with None => None | Some _ => Some (bt_remove cmp k m) end
  | MClear => Some []
  end.

(** The contents that a list of diffs describes, starting from the empty map. *)
Definition mreplay {K V} (cmp : K -> K -> comparison) (ds : list (mapdiff K V)) : option (list (K * V)) :=
  apply_all (apply_to_map cmp) [] ds.

(** A well behaved SignalMap. *)
Definition good_map_script {K V} (cmp : K -> K -> comparison) (script : list (poll (option (mapdiff K V)))) : Prop :=
  mreplay cmp (yielded script) <> None.

(** The map that a SignalMap has described so far. *)
Definition mconveyed {K V} (cmp : K -> K -> comparison) (s : src (option (mapdiff K V))) : option (list (K * V)) :=
  mreplay cmp (yielded (past s)).

(** The values that a diff carries. *)
Definition mvalues_of {K V} (d : mapdiff K V) : list V :=
  match d with
  | MReplace es => map snd es
  | MInsert _ v | MUpdate _ v => [v]
  | MRemove _ | MClear => []
  end.

(** No Replace mentions a key twice. *)
Definition distinct_entries {K V} (ds : list (mapdiff K V)) : Prop :=
  forall es, In (MReplace es) ds -> NoDup (map fst es).

(** Every Replace lists its entries in strictly ascending order. *)
Definition ascending_entries {K V} (cmp : K -> K -> comparison) (ds : list (mapdiff K V)) : Prop :=
  forall es, In (MReplace es) ds -> is_map cmp es.
