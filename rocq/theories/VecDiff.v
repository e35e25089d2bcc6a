(** VecDiff (signal_vec.rs 19-107). *)
From Verif Require Import Base Spec.

(** signal_vec.rs 19-61: enum VecDiff *)
Inductive vecdiff (A : Type) : Type :=
| Replace (values : list A)
| InsertAt (index : nat) (value : A)
| UpdateAt (index : nat) (value : A)
| RemoveAt (index : nat)
| Move (old_index new_index : nat)
| Push (value : A)
| Pop
| Clear.
Arguments Replace {A} values.
Arguments InsertAt {A} index value.
Arguments UpdateAt {A} index value.
Arguments RemoveAt {A} index.
Arguments Move {A} old_index new_index.
Arguments Push {A} value.
Arguments Pop {A}.
Arguments Clear {A}.

(** signal_vec.rs 65-77: VecDiff::map. The second component is the log of the closure
    calls, in the order in which they are made. *)
Definition vd_map {A B} (f : A -> B) (d : vecdiff A) : vecdiff B * list A :=
  match d with
  | Replace values => (Replace (map f values), values)
  | InsertAt index value => (InsertAt index (f value), [value])
  | UpdateAt index value => (UpdateAt index (f value), [value])
  | Push value => (Push (f value), [value])
  | RemoveAt index => (RemoveAt index, [])
  | Move old_index new_index => (Move old_index new_index, [])
  | Pop => (Pop, [])
  | Clear => (Clear, [])
  end.

(** signal_vec.rs 79-107: VecDiff::apply_to_vec; [None] = panic. *)
Definition apply_to_vec {A} (d : vecdiff A) (vec : list A) : option (list A) :=
  match d with
  | Replace values => Some values
  | InsertAt index value => vinsert index value vec
  | UpdateAt index value => vset index value vec
  | Push value => Some (vec ++ [value])
  | RemoveAt index => match vremove index vec with
                      | Some (_, vec') => Some vec'
                      | None => None
                      end
  | Move old_index new_index =>
      match vremove old_index vec with
      | Some (value, vec') => vinsert new_index value vec'
      | None => None
      end
  | Pop => match vpop vec with
           | Some (_, vec') => Some vec'
           | None => None
           end
  | Clear => Some []
  end.

(** ** Specification vocabulary for vec diffs *)

(** What a consumer that starts from an empty Vec holds after applying the diffs in order. *)
Definition replay {A} (ds : list (vecdiff A)) : option (list A) := apply_all apply_to_vec [] ds.

(** The values that a diff carries, in order. *)
Definition values_of {A} (d : vecdiff A) : list A :=
  match d with
  | Replace vs => vs
  | InsertAt _ v | UpdateAt _ v | Push v => [v]
  | _ => []
  end.

(** A SignalVec that keeps its promise: its diffs can be applied, one after the other,
    starting from an empty Vec. *)
Definition good_vec_script {A} (script : list (poll (option (vecdiff A)))) : Prop :=
  replay (yielded script) <> None.

(** The contents that a source SignalVec has conveyed so far. *)
Definition conveyed {A} (s : src (option (vecdiff A))) : option (list A) :=
  replay (yielded (past s)).
