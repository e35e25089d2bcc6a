(** MapDiff (signal_map.rs 16-50) and std::collections::BTreeMap. *)
From Verif Require Import Base Spec.

(** signal_map.rs 16-36 *)
Inductive mapdiff (K V : Type) : Type :=
| MReplace (entries : list (K * V))
| MInsert (key : K) (value : V)
| MUpdate (key : K) (value : V)
| MRemove (key : K)
| MClear.
Arguments MReplace {K V} entries.
Arguments MInsert {K V} key value.
Arguments MUpdate {K V} key value.
Arguments MRemove {K V} key.
Arguments MClear {K V}.

(** signal_map.rs 40-49: MapDiff::map; with the values on which the callback was called. *)
Definition md_map {K A B} (callback : A -> B) (d : mapdiff K A) : mapdiff K B * list A :=
  match d with
  | MReplace entries => (MReplace (map (fun '(k, v) => (k, callback v)) entries), map snd entries)
  | MInsert key value => (MInsert key (callback value), [value])
  | MUpdate key value => (MUpdate key (callback value), [value])
  | MRemove key => (MRemove key, [])
  | MClear => (MClear, [])
  end.

(** std::collections::BTreeMap, as documented: the entries in ascending key order; [cmp] is Ord of
    the keys. *)
Section BTree.
  Context {K V : Type} (cmp : K -> K -> comparison).

  (** BTreeMap::get *)
  Fixpoint bt_get (key : K) (m : list (K * V)) : option V :=
    match m with
    | [] => None
    | (k, v) :: m' => match cmp key k with
                      | Lt => None
                      | Eq => Some v
                      | Gt => bt_get key m'
                      end
    end.

  (** BTreeMap::insert; the old value, if any, is [bt_get key m]. The key of an existing entry is
      not replaced. *)
  Fixpoint bt_insert (key : K) (value : V) (m : list (K * V)) : list (K * V) :=
    match m with
    | [] => [(key, value)]
    | (k, v) :: m' => match cmp key k with
                      | Lt => (key, value) :: (k, v) :: m'
                      | Eq => (k, value) :: m'
                      | Gt => (k, v) :: bt_insert key value m'
                      end
    end.

  (** BTreeMap::remove *)
  Fixpoint bt_remove (key : K) (m : list (K * V)) : list (K * V) :=
    match m with
    | [] => []
    | (k, v) :: m' => match cmp key k with
                      | Lt => (k, v) :: m'
                      | Eq => m'
                      | Gt => (k, v) :: bt_remove key m'
                      end
    end.

  (** BTreeMap::from_iter: later entries overwrite earlier ones. *)
  Definition bt_from_iter (entries : list (K * V)) : list (K * V) :=
    fold_left (fun m '(k, v) => bt_insert k v m) entries [].
End BTree.
