(** What the views of Views.v are meant to show. *)
From Coq Require Import Permutation.
From Verif Require Import Base Spec VecDiff VecSpec SortSpec MutVec MapDiff MapSpec Mpsc Shared Views.

(** ** The meaning of a view, in terms of the contents [c] *)
Fixpoint vec_shows {C VR A} (root : forall A, VR A -> C -> list A -> Prop) (v : vec_view VR A) : C -> list A -> Prop :=
  match v with
  | VRoot r => root _ r
  | VMap f v => fun c y => exists x, vec_shows root v c x /\ y = map f x
  | VFilter p v => fun c y => exists x, vec_shows root v c x /\ y = filter p x
  | VFilterMap f v => fun c y => exists x, vec_shows root v c x /\ y = accepted_values f x
  | VSort compare v => fun c y => exists x, vec_shows root v c x /\ stable_sort_of compare x y
  | VDebug v => fun c y => exists x, vec_shows root v c x /\ y = x
  end.

Fixpoint sig_shows {C VR SR B} (root : forall A, VR A -> C -> list A -> Prop) (sroot : forall B, SR B -> C -> B -> Prop) (s : sig_view VR SR B) : C -> B -> Prop :=
  match s with
  | SRoot r => sroot _ r
  | SToSignalMap f v => fun c y => exists x, vec_shows root v c x /\ y = f x
  | SLen v => fun c y => exists x, vec_shows root v c x /\ y = length x
  | SIsEmpty v => fun c y => exists x, vec_shows root v c x /\ (y = true <-> x = [])
  | SSum sum v => fun c y => exists x, vec_shows root v c x /\ y = sum x
  | SMap f s => fun c y => exists x, sig_shows root sroot s c x /\ y = f x
  | SDedupe eqb s => fun c y => exists x, sig_shows root sroot s c x /\ y = x
  end.

Definition of_vec_shows {X} A (r : of_vec X A) : list X -> list A -> Prop :=
  match r in of_vec _ A return list X -> list A -> Prop with RVec => fun c l => l = c end.
Definition of_map_shows {K X} A (r : of_map K X A) : list (K * X) -> list A -> Prop :=
  match r in of_map _ _ A return list (K * X) -> list A -> Prop with
  | RKeys => fun m l => l = map fst m
  | REntries => fun m l => l = m
  end.
Definition key_shows {K X} B (r : key_of_map K X B) : list (K * X) -> B -> Prop :=
  match r in key_of_map _ _ B return list (K * X) -> B -> Prop with RKey k => fun m o => forall v, o = Some v <-> In (k, v) m end.
Definition nothing_shows {C} B (r : nothing B) : C -> B -> Prop := match r with end.
Fixpoint map_shows {K X A} (v : map_view X A) : list (K * X) -> list (K * A) -> Prop :=
  match v with
  | MSource => fun m y => y = m
  | MMapValue f v => fun m y => exists x, map_shows v m x /\ y = map (fun '(k, a) => (k, f a)) x
  end.

(** ** What is demanded of the closures *)
Fixpoint vec_lawful {VR A} (v : vec_view VR A) : Prop :=
  match v with
  | VRoot _ => True
  | VMap _ v | VFilter _ v | VFilterMap _ v | VDebug v => vec_lawful v
  | VSort compare v => total_preorder compare /\ vec_lawful v
  end.
(** sum: the result must not depend on the order. *)
Fixpoint sig_lawful {VR SR B} (s : sig_view VR SR B) : Prop :=
  match s with
  | SRoot _ => True
  | SToSignalMap _ v | SLen v | SIsEmpty v => vec_lawful v
  | SSum sum v => (forall l l', Permutation l l' -> sum l = sum l') /\ vec_lawful v
  | SMap _ s => sig_lawful s
  | SDedupe eqb s => lawful eqb /\ sig_lawful s
  end.

(** ** Two restrictions *)
(** filter and filter_map are wrong for moves towards the front (C10_filter_map_bad_move). *)
Fixpoint vec_filters {VR A} (v : vec_view VR A) : bool :=
  match v with
  | VRoot _ => false
  | VFilter _ _ | VFilterMap _ _ => true
  | VMap _ v | VSort _ v | VDebug v => vec_filters v
  end.
Fixpoint sig_filters {VR SR B} (s : sig_view VR SR B) : bool :=
  match s with
  | SRoot _ => false
  | SToSignalMap _ v | SLen v | SIsEmpty v | SSum _ v => vec_filters v
  | SMap _ s | SDedupe _ s => sig_filters s
  end.
(** is_empty can miss the end. *)
Fixpoint asks_empty {VR SR B} (s : sig_view VR SR B) : bool :=
  match s with
  | SRoot _ | SToSignalMap _ _ | SLen _ | SSum _ _ => false
  | SIsEmpty _ => true
  | SMap _ s | SDedupe _ s => asks_empty s
  end.
(** The operations that move nothing towards the front. *)
Definition moves_forward {A} (o : op A) : Prop :=
  match o with
  | OMove a b | OApply (Move a b) => a <= b
  | OSwap a b => a = b \/ a + 1 = b
  | OReverse => False
  | _ => True
  end.

(** ** Tasks that show a view *)
Inductive viewing_vec {X} : task (vecdiff X) -> Prop :=
| vv_vec A (v : vec_view (of_vec X) A) ps shown pc w n : viewing_vec (mkTask _ (vec_pipe of_vec_pipe v) ps shown pc w n)
| vv_sig B (g : sig_view (of_vec X) nothing B) ps shown pc w n : viewing_vec (mkTask _ (sig_pipe of_vec_pipe nothing_pipe g) ps shown pc w n).
Inductive viewing_map {K X} (cmp : K -> K -> comparison) (key_eq : K -> K -> bool) : task (mapdiff K X) -> Prop :=
| vm_map A (v : map_view X A) ps shown pc w n : viewing_map cmp key_eq (mkTask _ (map_pipe v) ps shown pc w n)
| vm_vec A (v : vec_view (of_map K X) A) ps shown pc w n : viewing_map cmp key_eq (mkTask _ (vec_pipe (of_map_pipe cmp) v) ps shown pc w n)
| vm_sig B (g : sig_view (of_map K X) (key_of_map K X) B) ps shown pc w n :
    viewing_map cmp key_eq (mkTask _ (sig_pipe (of_map_pipe cmp) (key_pipe key_eq) g) ps shown pc w n).

(** ** Coming to rest *)

(** A step of what is already going on: of a call, or of the executor. *)
Definition pending_act {D O} (x : xact D O) : Prop := match x with XDo (ASend _) | XStart _ | XStep _ => True | _ => False end.
(** Later, the same task. *)
Definition grown {D} (t t' : task D) : Prop := exists ps shown pc w n, t' = mkTask (tout t) (tpipe t) ps (tshown t ++ shown) pc w n.
(** Nothing that concerns the users of the contents has changed. *)
Definition same_contents {C D O R} (s s' : system C D O R) : Prop :=
  contents (sh s') = contents (sh s) /\ owners (sh s') = owners (sh s) /\ writer (sh s') = writer (sh s)
  /\ calls (sh s') = calls (sh s) /\ failing (sh s') = failing (sh s) /\ poisoned (sh s') = poisoned (sh s).
