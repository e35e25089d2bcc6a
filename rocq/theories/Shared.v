(** MutableVec and MutableBTreeMap used by any number of threads: every interleaving. Both are an
    Arc<RwLock<...>> of the contents and the senders (signal_vec.rs 2825-2828, 3366; signal_map.rs 527-530, 806), and
    differ only in the contents, the operations and the diffs. While a thread holds the write guard, an
    operation sends its diffs to the subscribers one after the other; the subscribers can be polled and dropped
    in between, since they only have the receiving half of their channel. Steps: taking and releasing the lock, one
    unbounded_send, one poll. The channel (futures_channel) is linearizable. *)
From Verif Require Import Base Conc Spec VecDiff MutVec MapDiff Mpsc MutMap.

(** The list without the first [t]. *)
Fixpoint remove_one (t : nat) (l : list nat) : list nat :=
  match l with [] => [] | x :: l => if x =? t then l else x :: remove_one t l end.

Section Shared.
(** [C]: contents; [D]: diffs; [O]: operations; [R]: what they return. [run]: the new contents, the diffs that are sent and
    what is returned ([None]: it panics); [first]: the messages for a new subscriber. *)
Context {C D O R : Type} (run : O -> C -> C * list D * option R) (first : C -> list D).

(** [owners]: handles; [writer], [readers]: the threads that hold a guard; [poisoned]: a write guard was dropped while
    panicking. The operation in progress: [cur] is the diff that is being sent and the senders that were not reached
    yet; [later] are the diffs after it; [failing]: it panics at the end. Ghost: [log], all diffs of all operations so
    far; [good], the contents before an operation panicked; [starts], for each subscriber the length of [log] and the
    contents when it subscribed; [calls], all operations so far with their threads and results. *)
Record shared := mkSh {
  contents : C; senders : list nat; chans : list (chan D); owners : nat;
  writer : option nat; readers : list nat; poisoned : bool;
  cur : option (D * list nat); later : list D; failing : bool;
  log : list D; good : C; starts : list (nat * C); calls : list (nat * O * option R) }.

Definition sh_init (c : C) : shared := mkSh c [] [] 1 None [] false None [] false [] c [] [].

(** - [ALock t]: lock_mut (signal_vec.rs 3395-3399, signal_map.rs 824-829); [AUnlock t p]: drop of the guard, while the thread
      panics if [p];
    - [AOp t o]: the thread begins an operation through its guard; [ASend t]: it goes on with sending;
    - [ARead t], [AUnread t]: lock_ref (3385-3391, 816-821) and drop of the guard;
    - [ASubscribe]: signal_vec / signal_vec_cloned (3413-3424), signal_map / signal_map_cloned (849-853, 875-879): takes
      the write lock for the whole call, so that it is one step;
    - [APoll], [ADropSub]: poll and drop of a subscriber; [AClone], [ADrop]: clone and drop of a handle. A
      guard borrows a handle, so that the last one cannot be dropped as long as there are guards. *)
Inductive act := ALock (t : nat) | AUnlock (t : nat) (p : bool) | AOp (t : nat) (o : O) | ASend (t : nat)
| ARead (t : nat) | AUnread (t : nat) | ASubscribe | APoll (id : nat) | ADropSub (id : nat) | AClone | ADrop.

Definition holds (t : nat) (st : shared) : bool := match writer st with Some t' => t' =? t | None => false end.
Definition is_none {X} (o : option X) : bool := match o with Some _ => false | None => true end.
Definition is_nil {X} (l : list X) : bool := match l with [] => true | _ => false end.
(** No operation is in progress. *)
Definition ready (st : shared) : bool := is_none (cur st) && is_nil (later st).
(** [self.0.write().unwrap()] is possible. *)
Definition free (st : shared) : bool := is_none (writer st) && is_nil (readers st) && (0 <? owners st) && negb (poisoned st).

Definition set_lock (wr : option nat) (rd : list nat) (po : bool) (st : shared) : shared :=
  mkSh (contents st) (senders st) (chans st) (owners st) wr rd po (cur st) (later st) (failing st) (log st) (good st) (starts st) (calls st).
Definition set_chans (sn : list nat) (cs : list (chan D)) (st : shared) : shared :=
  mkSh (contents st) sn cs (owners st) (writer st) (readers st) (poisoned st) (cur st) (later st) (failing st) (log st) (good st) (starts st) (calls st).
Definition set_job (cu : option (D * list nat)) (la : list D) (fa : bool) (st : shared) : shared :=
  mkSh (contents st) (senders st) (chans st) (owners st) (writer st) (readers st) (poisoned st) cu la fa (log st) (good st) (starts st) (calls st).
Definition set_owners (n : nat) (st : shared) : shared :=
  mkSh (contents st) (senders st) (chans st) n (writer st) (readers st) (poisoned st) (cur st) (later st) (failing st) (log st) (good st) (starts st) (calls st).

Definition sh_step (st : shared) (a : act) : option shared :=
  match a with
  | ALock t => if free st then Some (set_lock (Some t) [] false st) else None
  | AUnlock t p =>
      if holds t st && ready st then Some (set_job None [] false (set_lock None (readers st) (failing st || p) st)) else None
  | AOp t o =>
      if holds t st && ready st && negb (failing st) then
        let '(c, ds, r) := run o (contents st) in
        Some (mkSh c (senders st) (chans st) (owners st) (writer st) (readers st) (poisoned st) None ds (is_none r)
                   (log st ++ ds) (if is_none r then good st else c) (starts st) (calls st ++ [(t, o, r)]))
      else None
  | ASend t =>
      if holds t st then
        match cur st, later st with
        | Some (d, id :: l), _ => (* sender.unbounded_send(...).is_ok() (signal_vec.rs 2833-2837, 2855-2870; signal_map.rs 536-538, 552-563) *)
            let '(cs, ok) := csend id d (chans st) in
            Some (set_job (Some (d, l)) (later st) (failing st)
                   (set_chans (if ok then senders st else remove Nat.eq_dec id (senders st)) cs st))
        | Some (d, []), _ => Some (set_job None (later st) (failing st) st)
        | None, d :: ds => Some (set_job (Some (d, senders st)) ds (failing st) st)
        | None, [] => None
        end
      else None
  | ARead t => if is_none (writer st) && (0 <? owners st) && negb (poisoned st) then Some (set_lock None (t :: readers st) false st) else None
  | AUnread t =>
      if existsb (Nat.eqb t) (readers st) then
        Some (set_lock (writer st) (remove_one t (readers st)) (poisoned st) st)
      else None
  | ASubscribe =>
      if free st then
        Some (mkSh (contents st) (senders st ++ [length (chans st)]) (chans st ++ [new_chan (first (contents st))]) (owners st)
                   (writer st) (readers st) (poisoned st) (cur st) (later st) (failing st) (log st) (good st)
                   (starts st ++ [(length (log st), contents st)]) (calls st))
      else None
  | APoll id =>
      match nth_error (chans st) id with
      | Some s => if calive s then Some (set_chans (senders st) (lupd id (fst (cpoll (owners st =? 0) s)) (chans st)) st) else None
      | None => None
      end
  | ADropSub id =>
      match nth_error (chans st) id with
      | Some s => if calive s then Some (set_chans (senders st) (lupd id (cdrop s) (chans st)) st) else None
      | None => None
      end
  | AClone => if 0 <? owners st then Some (set_owners (S (owners st)) st) else None
  | ADrop =>
      match owners st with
      | 0 => None
      | 1 => if is_none (writer st) && is_nil (readers st) then Some (set_owners 0 (set_chans [] (map cclose (chans st)) st)) else None
      | S n => Some (set_owners n st)
      end
  end.
End Shared.
Arguments shared : clear implicits. Arguments act : clear implicits.

(** ** MutableVec *)

(** An operation of MutVec.v, run with one subscriber that records what is sent (by C05 this does not depend on the subscribers).
    The contents are behind the lock, so that it does not matter when during the operation they are changed. *)
Definition vec_run {A} (o : op A) (v : list A) : list A * list (vecdiff A) * option (ret A) :=
  let sent st := match subs st with s :: _ => queue s | [] => [] end in
  match mv_op o (mkVec v [0] [mkSub [] [] true false false] 1 false) with
  | Done st r => (values st, sent st, Some r)
  | Panic st => (values st, sent st, None)
  end.
(** signal_vec.rs 3003-3015, 3056-3068 *)
Definition vec_first {A} (v : list A) : list (vecdiff A) := match v with [] => [] | _ => [Replace v] end.
Notation vec_step := (sh_step vec_run vec_first).

(** ** MutableBTreeMap *)
Definition map_run {K V} (cmp : K -> K -> comparison) (o : mop K V) (m : list (K * V)) : list (K * V) * list (mapdiff K V) * option (mret V) :=
  match mm_op cmp o (mkMap m [0] [new_chan []] 1) with
  | Some (st, r) => (mm_values st, match mm_chans st with s :: _ => cqueue s | [] => [] end, Some r)
  | None => (m, [], None)
  end.
(** signal_map.rs 626-640, 669-683 *)
Definition map_first {K V} (m : list (K * V)) : list (mapdiff K V) := match m with [] => [] | _ => [MReplace m] end.
Notation map_step cmp := (sh_step (map_run cmp) map_first).
