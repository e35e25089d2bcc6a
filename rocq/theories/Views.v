(** Views of a MutableVec or MutableBTreeMap on an executor with any number of threads: for_each tasks over chains of combinators,
    polled by some threads while others change the contents (Shared.v). *)
From Verif Require Import Base Conc Spec VecDiff VecSimple Sort Slot VecToSignal Sig MutVec MapDiff MapComb Mpsc MutMap Shared.

(** ** Combinators with one input, as state machines *)

(** [mst]: the fields other than the input; [minit]: what the constructor puts there; [mpoll]: one poll, given the answers of the
    input. *)
Record mach (A B : Type) := mkMach {
  mst : Type; minit : mst; mpoll : mst * src (option A) -> option ((mst * src (option A)) * poll (option B)) }.
Arguments mkMach {A B} mst minit mpoll.
Arguments mst {A B} m.
Arguments minit {A B} m.
Arguments mpoll {A B} m.

(** A subscriber, and combinators on top of it. *)
Inductive pipe (D : Type) : Type -> Type :=
| PSource : pipe D D
| POn (A B : Type) (m : mach A B) (p : pipe D A) : pipe D B.
Arguments PSource {D}.
Arguments POn {D A B} m p.

(** For each combinator: its fields, the answers of its input that were used in the polls that are over, and those of the
    poll in progress. *)
Fixpoint pstate {D B} (p : pipe D B) : Type :=
  match p with
  | PSource => unit
  | @POn _ A _ m p => (mst m * list (poll (option A)) * list (poll (option A)) * pstate p)%type
  end.
Fixpoint pinit {D B} (p : pipe D B) : pstate p :=
  match p with
  | PSource => tt
  | POn m p => (minit m, [], [], pinit p)
  end.

(** The next step of a poll: either one poll of the channel, or one combinator gives its answer. A combinator whose
    poll needs more answers than there are asks its input for the next one; the poll is the same function at each attempt, so that
    nothing is lost by repeating it. The last component: the answer, when the poll is over. *)
Fixpoint advance {D B} (closed : bool) (p : pipe D B) : pstate p -> chan D -> option (pstate p * chan D * option (poll (option B))) :=
  match p with
  | PSource => fun _ c => let '(c', r) := cpoll closed c in Some (tt, c', Some r)
  | POn m p => fun ps c =>
      let '(st, log, known, below) := ps in
      let? ((st', after), r) := mpoll m (st, mkSrc log known) in
      if length log + length known <? length (past after) then
        let? ((below', c'), a) := advance closed p below c in
        Some ((st, log, match a with Some x => known ++ [x] | None => known end, below'), c', None)
      else Some ((st', past after, [], below), c, Some r)
  end.

(** ** Tasks *)

(** Not being polled; being polled by some thread; has completed; was dropped; has panicked. *)
Inductive tpc := TIdle | TBusy | TDone | TGone | TPanic.

(** for_each over a view (signal.rs 479-489 and 1001-1016, signal_vec.rs 505-515 and 648-664, signal_map.rs 138-148 and 491-507): the
    closure is called with each value; the futures it returns are ready. [tshown]: the answers so far; [twoken]: the task is in the
    executor's queue. Ghost: [tfrom], the number of answers the channel had given when the current poll began. *)
Record task (D : Type) := mkTask {
  tout : Type; tpipe : pipe D tout; tstate : pstate tpipe; tshown : list (poll (option tout)); tat : tpc; twoken : bool; tfrom : nat }.
Arguments mkTask {D} tout tpipe tstate tshown tat twoken tfrom.
Arguments tout {D} t.
Arguments tpipe {D} t.
Arguments tstate {D} t.
Arguments tshown {D} t.
Arguments tat {D} t.
Arguments twoken {D} t.
Arguments tfrom {D} t.

Section Step.
Context {C D O R : Type} (run : O -> C -> C * list D * option R) (first : C -> list D).

(** The task number [i] polls the channel number [i]. *)
Record system := mkSys { sh : shared C D O R; tasks : list (task D) }.

Definition sys_init (c : C) : system := mkSys (sh_init c) [].

(** - [XDo a]: a step of a thread that uses the MutableVec or MutableBTreeMap;
    - [XSpawn p]: somebody subscribes, and spawns the for_each;
    - [XStart i]: the executor begins to poll the task [i] (it may do so even if the task was not woken); [XStep i]: the poll
      goes on; [XCancel i]: the task is dropped. *)
Inductive xact := XDo (a : act O) | XSpawn (B : Type) (p : pipe D B) | XStart (i : nat) | XStep (i : nat) | XCancel (i : nat).

(** A step of a user of the contents. *)
Definition outside (a : act O) : bool := match a with ASubscribe | APoll _ | ADropSub _ => false | _ => true end.

(** The step from [c] to [c'] wakes the receiver. *)
Definition wakes (c c' : option (chan D)) : bool :=
  match c, c' with Some x, Some y => cwoken y && negb (cwoken x) | _, _ => false end.
Definition wake (t : task D) (b : bool) : task D :=
  mkTask (tout t) (tpipe t) (tstate t) (tshown t) (tat t) (twoken t || b) (tfrom t).
Fixpoint wake_all (i : nat) (ts : list (task D)) (before after : list (chan D)) : list (task D) :=
  match ts with
  | [] => []
  | t :: ts => wake t (wakes (nth_error before i) (nth_error after i)) :: wake_all (S i) ts before after
  end.

Definition set_at (t : task D) (at' : tpc) : task D :=
  mkTask (tout t) (tpipe t) (tstate t) (tshown t) at' (twoken t) (tfrom t).
(** The queue entry is taken out. *)
Definition begin (t : task D) (n : nat) : task D :=
  mkTask (tout t) (tpipe t) (tstate t) (tshown t) TBusy false n.
(** What for_each does with the answer. *)
Definition proceed (t : task D) (ps : pstate (tpipe t)) (r : option (poll (option (tout t)))) : task D :=
  match r with
  | None => mkTask (tout t) (tpipe t) ps (tshown t) TBusy (twoken t) (tfrom t)
  | Some x => mkTask (tout t) (tpipe t) ps (tshown t ++ [x]) match x with Pending => TIdle | Ready None => TDone | Ready (Some _) => TBusy end (twoken t) (tfrom t)
  end.

Definition sys_step (s : system) (x : xact) : option system :=
  match x with
  | XDo a =>
      if outside a then let? sh' := sh_step run first (sh s) a in Some (mkSys sh' (wake_all 0 (tasks s) (chans (sh s)) (chans sh')))
      else None
  | XSpawn _ p =>
      let? sh' := sh_step run first (sh s) ASubscribe in
      Some (mkSys sh' (tasks s ++ [mkTask _ p (pinit p) [] TIdle true 0]))
  | XStart i =>
      match nth_error (tasks s) i, nth_error (chans (sh s)) i with
      | Some t, Some c => match tat t with TIdle => Some (mkSys (sh s) (lupd i (begin t (length (cgot c))) (tasks s))) | _ => None end
      | _, _ => None
      end
  | XStep i =>
      match nth_error (tasks s) i, nth_error (chans (sh s)) i with
      | Some t, Some c =>
          match tat t with
          | TBusy =>
              match advance (owners (sh s) =? 0) (tpipe t) (tstate t) c with
              | Some (ps, c', r) =>
                  Some (mkSys (set_chans (senders (sh s)) (lupd i c' (chans (sh s))) (sh s)) (lupd i (proceed t ps r) (tasks s)))
              | None => Some (mkSys (sh s) (lupd i (set_at t TPanic) (tasks s)))
              end
          | _ => None
          end
      | _, _ => None
      end
  | XCancel i =>
      match nth_error (tasks s) i with
      | Some t =>
          match tat t with
          | TIdle =>
              let? sh' := sh_step run first (sh s) (ADropSub i) in
              Some (mkSys sh' (lupd i (set_at t TGone) (tasks s)))
          | _ => None
          end
      | None => None
      end
  end.

(** Nothing is going on: no call is in progress, every task has been polled since it was woken. *)
Definition settled (s : system) : Prop :=
  ready (sh s) = true /\ forall t, In t (tasks s) -> tat t <> TBusy /\ (tat t = TIdle -> twoken t = false).
End Step.
Arguments system : clear implicits. Arguments xact : clear implicits.
Arguments XDo {D O} a. Arguments XSpawn {D O B} p. Arguments XStart {D O} i. Arguments XStep {D O} i. Arguments XCancel {D O} i.

(** ** The combinators *)

(** to_signal_map, to_signal_cloned (signal_vec.rs 1240-1326, VecToSignal.v); the fields: whether [signal] is Some, [first], [values]. *)
Definition to_signal_mach {A B} (callback : list A -> B) : mach (vecdiff A) B :=
  mkMach (bool * bool * list A) (true, true, [])
    (fun x => let '((live, first, values), sr) := x in
       let? (st, r) := tsm_poll callback (mkTsm (live, sr) first values) in
       Some (((fst (tsm_signal st), tsm_first st, tsm_values st), snd (tsm_signal st)), r)).
(** sum (signal_vec.rs 2180-2269); [sum]: Sum::sum. *)
Definition sum_mach {A} (sum : list A -> A) : mach (vecdiff A) A :=
  mkMach (bool * bool * list A) (true, true, [])
    (fun x => let '((live, first, values), sr) := x in
       let? (st, r) := sum_poll sum (mkTsm (live, sr) first values) in
       Some (((fst (tsm_signal st), tsm_first st, tsm_values st), snd (tsm_signal st)), r)).
(** len (signal_vec.rs 1914-1988) *)
Definition len_mach {A} : mach (vecdiff A) nat :=
  mkMach (bool * bool * nat) (true, true, 0)
    (fun x => let '((live, first, len), sr) := x in
       let? (st, r) := len_poll (mkLen (live, sr) first len) in
       Some (((fst (len_signal st), len_first st, len_len st), snd (len_signal st)), r)).
(** is_empty (signal_vec.rs 1880-1907) *)
Definition is_empty_mach {A} : mach (vecdiff A) bool :=
  mkMach (bool * bool * nat * option bool) (true, true, 0, None)
    (fun x => let '((live, first, len, old), sr) := x in
       let? (st, r) := ie_poll (mkIe (mkLen (live, sr) first len) old) in
       let l := ie_len st in
       Some (((fst (len_signal l), len_first l, len_len l, ie_old st), snd (len_signal l)), r)).
(** map, filter, filter_map, sort_by_cloned, debug of SignalVec (signal_vec.rs 669-687, 2133-2172, 2396-2533, 2277-2296; VecSimple.v, Sort.v) *)
Definition vmap_mach {A B} (f : A -> B) : mach (vecdiff A) (vecdiff B) := mkMach _ [] (vmap_poll f).
Definition filter_mach {A} (p : A -> bool) : mach (vecdiff A) (vecdiff A) := mkMach _ fm_init (filter_poll p).
Definition filter_map_mach {A B} (f : A -> option B) : mach (vecdiff A) (vecdiff B) := mkMach _ fm_init (filter_map_poll f).
Definition sort_mach {A} (compare : A -> A -> comparison) : mach (vecdiff A) (vecdiff A) := mkMach _ sort_init (sort_poll compare).
Definition debug_mach {A} : mach (vecdiff A) (vecdiff A) := mkMach _ tt (@vdebug_poll A).
(** map_value, signal_vec_keys, entries_cloned, key_cloned (signal_map.rs 225-241, 963-994, 1011-1039, 399-466; MapComb.v) *)
Definition map_value_mach {K A B} (f : A -> B) : mach (mapdiff K A) (mapdiff K B) := mkMach _ [] (map_value_poll f).
Definition keys_mach {K A} (cmp : K -> K -> comparison) : mach (mapdiff K A) (vecdiff K) := mkMach _ [] (keys_poll cmp).
Definition entries_mach {K A} (cmp : K -> K -> comparison) : mach (mapdiff K A) (vecdiff (K * A)) := mkMach _ [] (entries_poll cmp).
Definition key_mach {K A} (key_eq : K -> K -> bool) (k : K) : mach (mapdiff K A) (option A) := mkMach _ true (key_poll key_eq k).
(** map, dedupe_cloned of Signal (signal.rs 1075-1092, 1484-1526; Sig.v) *)
Definition map_mach {A B} (f : A -> B) : mach A B := mkMach _ tt (map_poll f).
Definition dedupe_mach {A} (eqb : A -> A -> bool) : mach A A := mkMach _ (None, []) (dedupe_poll eqb).

(** ** Views *)

(** A SignalVec as it is written in a program; [VR A]: the ways to get a SignalVec of [A] from the source. *)
Inductive vec_view (VR : Type -> Type) : Type -> Type :=
| VRoot A (r : VR A) : vec_view VR A
| VMap A B (f : A -> B) (v : vec_view VR A) : vec_view VR B
| VFilter A (p : A -> bool) (v : vec_view VR A) : vec_view VR A
| VFilterMap A B (f : A -> option B) (v : vec_view VR A) : vec_view VR B
| VSort A (compare : A -> A -> comparison) (v : vec_view VR A) : vec_view VR A
| VDebug A (v : vec_view VR A) : vec_view VR A.
Arguments VRoot {VR A} r.
Arguments VMap {VR A B} f v.
Arguments VFilter {VR A} p v.
Arguments VFilterMap {VR A B} f v.
Arguments VSort {VR A} compare v.
Arguments VDebug {VR A} v.

(** A Signal; [SR B]: the ways to get a Signal directly from the source. *)
Inductive sig_view (VR SR : Type -> Type) : Type -> Type :=
| SRoot B (r : SR B) : sig_view VR SR B
| SToSignalMap A B (f : list A -> B) (v : vec_view VR A) : sig_view VR SR B
| SLen A (v : vec_view VR A) : sig_view VR SR nat
| SIsEmpty A (v : vec_view VR A) : sig_view VR SR bool
| SSum A (sum : list A -> A) (v : vec_view VR A) : sig_view VR SR A
| SMap A B (f : A -> B) (s : sig_view VR SR A) : sig_view VR SR B
| SDedupe A (eqb : A -> A -> bool) (s : sig_view VR SR A) : sig_view VR SR A.
Arguments SRoot {VR SR B} r.
Arguments SToSignalMap {VR SR A B} f v.
Arguments SLen {VR SR A} v.
Arguments SIsEmpty {VR SR A} v.
Arguments SSum {VR SR A} sum v.
Arguments SMap {VR SR A B} f s.
Arguments SDedupe {VR SR A} eqb s.

(** How the program is made of state machines. *)
Fixpoint vec_pipe {D VR A} (root : forall A, VR A -> pipe D (vecdiff A)) (v : vec_view VR A) : pipe D (vecdiff A) :=
  match v with
  | VRoot r => root _ r
  | VMap f v => POn (vmap_mach f) (vec_pipe root v)
  | VFilter p v => POn (filter_mach p) (vec_pipe root v)
  | VFilterMap f v => POn (filter_map_mach f) (vec_pipe root v)
  | VSort compare v => POn (sort_mach compare) (vec_pipe root v)
  | VDebug v => POn debug_mach (vec_pipe root v)
  end.
Fixpoint sig_pipe {D VR SR B} (root : forall A, VR A -> pipe D (vecdiff A)) (sroot : forall A, SR A -> pipe D A) (s : sig_view VR SR B) : pipe D B :=
  match s with
  | SRoot r => sroot _ r
  | SToSignalMap f v => POn (to_signal_mach f) (vec_pipe root v)
  | SLen v => POn len_mach (vec_pipe root v)
  | SIsEmpty v => POn is_empty_mach (vec_pipe root v)
  | SSum sum v => POn (sum_mach sum) (vec_pipe root v)
  | SMap f s => POn (map_mach f) (sig_pipe root sroot s)
  | SDedupe eqb s => POn (dedupe_mach eqb) (sig_pipe root sroot s)
  end.

(** From a MutableVec of [X]: signal_vec_cloned. *)
Inductive of_vec (X : Type) : Type -> Type := RVec : of_vec X X.
Arguments RVec {X}.
Inductive nothing : Type -> Type := .
Definition of_vec_pipe {X} A (r : of_vec X A) : pipe (vecdiff X) (vecdiff A) := match r with RVec => PSource end.
Definition nothing_pipe {D} A (r : nothing A) : pipe D A := match r with end.

(** From a MutableBTreeMap: signal_map_cloned and map_value; then signal_vec_keys, entries_cloned; key_cloned. *)
Inductive map_view (X : Type) : Type -> Type :=
| MSource : map_view X X
| MMapValue A B (f : A -> B) (v : map_view X A) : map_view X B.
Arguments MSource {X}.
Arguments MMapValue {X A B} f v.
Inductive of_map (K X : Type) : Type -> Type :=
| RKeys : of_map K X K
| REntries : of_map K X (K * X).
Arguments RKeys {K X}.
Arguments REntries {K X}.
Inductive key_of_map (K X : Type) : Type -> Type := RKey (k : K) : key_of_map K X (option X).
Arguments RKey {K X} k.
Fixpoint map_pipe {K X A} (v : map_view X A) : pipe (mapdiff K X) (mapdiff K A) :=
  match v with
  | MSource => PSource
  | MMapValue f v => POn (map_value_mach f) (map_pipe v)
  end.
Definition of_map_pipe {K X} cmp A (r : of_map K X A) : pipe (mapdiff K X) (vecdiff A) :=
  match r with RKeys => POn (keys_mach cmp) PSource | REntries => POn (entries_mach cmp) PSource end.
Definition key_pipe {K X} key_eq B (r : key_of_map K X B) : pipe (mapdiff K X) B :=
  match r with RKey k => POn (key_mach key_eq k) PSource end.
