(** Specification of MutableVec, in terms of std::vec::Vec. *)
From Verif Require Import Base Spec VecDiff VecSpec MutVec.

Definition bounds (b1 b2 : bound) (len : nat) : nat * nat :=
  (match b1 with Included s => s | Excluded s => s + 1 | Unbounded => 0 end,
   match b2 with Included e => e + 1 | Excluded e => e | Unbounded => len end).

(** When each operation is allowed to panic, on contents [v]. *)
Definition op_panics {A} (o : op A) (v : list A) : Prop :=
  match o with
  | ORemove i | OSet i _ | OSetCloned i _ => length v <= i
  | OInsert i _ | OInsertCloned i _ => length v < i
  | OMove a b | OSwap a b => a <> b /\ (length v <= a \/ length v <= b)
  | ODrain b1 b2 => snd (bounds b1 b2 (length v)) < fst (bounds b1 b2 (length v))
                    \/ length v < snd (bounds b1 b2 (length v))
  | OApply (Move a b) => a <> b /\ (length v <= a \/ length v <= b)
  | OApply d => diff_panics d v
  | OPop | OClear | ORetain _ | OTruncate _ | OReverse | OPush _ | OReplace _
  | OPushCloned _ | OReplaceCloned _ | OExtend _ => False
  end.

(** What each operation does to the contents [v] (new contents [v']) and what it returns. *)
Definition op_means {A} (o : op A) (v v' : list A) (r : ret A) : Prop :=
  match o with
  | OPop => (v = [] /\ v' = [] /\ r = ROpt None) \/ (exists x, v = v' ++ [x] /\ r = ROpt (Some x))
  | ORemove i => diff_means (RemoveAt i) v v' /\ exists x, nth_error v i = Some x /\ r = RVal x
  | OMove a b => (a = b /\ v' = v \/ diff_means (Move a b) v v') /\ r = RUnit
  | OClear => v' = [] /\ r = RUnit
  | ORetain f => v' = filter f v /\ r = RCalls v
  | ODrain b1 b2 => exists p m s, v = p ++ m ++ s /\ v' = p ++ s /\ r = RVals m
                    /\ bounds b1 b2 (length v) = (length p, length p + length m)
  | OTruncate n => (exists s, v = v' ++ s /\ (s <> [] -> length v' = n) /\ (s = [] -> length v <= n)) /\ r = RUnit
  | OSwap a b => r = RUnit /\ (a = b /\ v' = v \/
                  a < length v /\ b < length v /\ length v' = length v
                  /\ nth_error v' a = nth_error v b /\ nth_error v' b = nth_error v a
                  /\ forall k, k <> a -> k <> b -> nth_error v' k = nth_error v k)
  | OReverse => v' = rev v /\ r = RUnit
  | OPush x | OPushCloned x => v' = v ++ [x] /\ r = RUnit
  | OInsert i x | OInsertCloned i x => diff_means (InsertAt i x) v v' /\ r = RUnit
  | OSet i x | OSetCloned i x => diff_means (UpdateAt i x) v v' /\ r = RUnit
  | OReplace vs | OReplaceCloned vs => v' = vs /\ r = RUnit
  | OExtend vs => v' = v ++ vs /\ r = RUnit
  | OApply d => (diff_means d v v' \/ exists a, d = Move a a /\ v' = v) /\ r = RUnit
  end.

(** The operations that are documented (or expected) to change nothing. *)
Definition op_noop {A} (o : op A) (v : list A) : Prop :=
  match o with
  | OPop | OClear => v = []
  | OMove a b | OSwap a b => a = b
  | OTruncate n => length v <= n
  | ORetain f => forall x, In x v -> f x = true
  | ODrain b1 b2 => fst (bounds b1 b2 (length v)) = snd (bounds b1 b2 (length v))
  | OReverse => length v <= 1
  | OExtend vs => vs = []
  | OApply Clear => v = []
  | OApply (Move a b) => a = b
  | _ => False
  end.

(** Everything a subscriber received or is about to receive. *)
Definition total {A} (s : sub A) : list (vecdiff A) := yielded (got s) ++ queue s.

(** The subscriber has nothing left to receive. *)
Definition drained {A} (s : sub A) : Prop := queue s = [].

(** A MutableVec whose contents are only changed by apply_vec_diff, with exactly the diffs [ds] in
    this order; anything else may happen in between (subscriptions, polls, drops of subscribers,
    new handles), except that the last handle is kept. *)
Inductive driven_by {A} : list (event A) -> list (vecdiff A) -> Prop :=
| driven_nil : driven_by [] []
| driven_diff d es ds : driven_by es ds -> driven_by (EOp (OApply d) :: es) (d :: ds)
| driven_other e es ds : match e with EOp _ | EDrop => False | _ => True end ->
    driven_by es ds -> driven_by (e :: es) ds.

(** [ds'] is what some subscriber of the last vector of a chain of replicas receives, when the first
    vector of the chain is driven by [ds]. *)
Inductive replicated {A} : list (vecdiff A) -> list (vecdiff A) -> Prop :=
| replicated_refl ds : replicated ds ds
| replicated_hop ds es id s ds' :
    driven_by es ds -> nth_error (subs (mv_run es (mv_new []))) id = Some s -> alive s = true ->
    replicated (total s) ds' -> replicated ds ds'.
