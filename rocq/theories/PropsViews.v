(** C70: views of a MutableVec or MutableBTreeMap, polled by some threads while others change it. Model: Views.v; what the views are meant to
    show: ViewsSpec.v; proofs: ViewsFacts.v, ViewsRun.v, ViewsEnd.v, ViewsMach.v, ViewsProg.v, ViewsPrompt.v, ViewsAll.v. *)
From Coq Require Import Permutation.
From Verif Require Import Base Conc Spec VecDiff VecSpec SortSpec MutVec MutVecSpec MapDiff MapSpec MapFacts Mpsc MutMap Shared VecExecUse Views ViewsSpec ViewsAll Handles.

Notation vsys_step := (sys_step vec_run vec_first).
Notation msys_step cmp := (sys_step (map_run cmp) map_first).

(** ** C70: a task that sleeps shows the contents: whatever the threads have done, and however their steps and those of the polls
    were mixed, if no call is in progress and the task is not going to be polled again, what it was given makes exactly the view of
    the present contents *)
Theorem C70_vec_list_shows : forall X (v0 : list X) acts s i A (v : vec_view (of_vec X) A) ps shown n, exec vsys_step (sys_init v0) acts = Some s ->
  nth_error (tasks s) i = Some (mkTask _ (vec_pipe of_vec_pipe v) ps shown TIdle false n) -> vec_lawful v ->
  (vec_filters v = true -> forall t o r, In (t, o, r) (calls (sh s)) -> moves_forward o) ->
  ready (sh s) = true -> failing (sh s) = false -> poisoned (sh s) = false ->
  exists l, replay (yielded shown) = Some l /\ vec_shows of_vec_shows v (contents (sh s)) l.
Proof. exact @vec_list_shows. Qed.
Print Assumptions C70_vec_list_shows.

Theorem C70_vec_value_shows : forall X (v0 : list X) acts s i B (g : sig_view (of_vec X) nothing B) ps shown n, exec vsys_step (sys_init v0) acts = Some s ->
  nth_error (tasks s) i = Some (mkTask _ (sig_pipe of_vec_pipe nothing_pipe g) ps shown TIdle false n) -> sig_lawful g ->
  (sig_filters g = true -> forall t o r, In (t, o, r) (calls (sh s)) -> moves_forward o) ->
  ready (sh s) = true -> failing (sh s) = false -> poisoned (sh s) = false ->
  exists y, latest_of shown = Some y /\ sig_shows of_vec_shows nothing_shows g (contents (sh s)) y.
Proof. exact @vec_value_shows. Qed.
Print Assumptions C70_vec_value_shows.

(** Thread 7 pushes while two tasks are being polled on other threads: the first one gets the new element in the poll in progress, the second one is
    woken during its poll and polled again. *)
Definition ex_list : vec_view (of_vec nat) nat := VSort Nat.compare (VMap (fun x => x * 2) (VRoot RVec)).
Definition ex_value : sig_view (of_vec nat) nothing nat := SMap S (SSum (fold_right plus 0) (VFilter Nat.odd (VRoot RVec))).
Definition ex_vacts : list (xact (vecdiff nat) (op nat)) :=
  [XSpawn (vec_pipe of_vec_pipe ex_list); XSpawn (sig_pipe of_vec_pipe nothing_pipe ex_value);
   XStart 0; XStep 0; XDo (ALock 7); XStart 1; XStep 0; XStep 1; XStep 1; XDo (AOp 7 (OPush 2));
   XStep 0; XDo (ASend 7); XStep 1; XDo (ASend 7); XStep 0; XStep 0; XStep 0; XStep 0; XStep 0; XStep 0;
   XDo (ASend 7); XDo (ASend 7); XStep 1; XDo (AUnlock 7 false)] ++ repeat (XStep 1) 7.
Example C70_vec_list_shows_ex : exists s, exec vsys_step (sys_init [3; 1]) ex_vacts = Some s /\ exists ps n,
  nth_error (tasks s) 0 = Some (mkTask _ (vec_pipe of_vec_pipe ex_list) ps [Ready (Some (Replace [2; 6])); Ready (Some (InsertAt 1 4)); Pending] TIdle false n)
  /\ ready (sh s) = true /\ failing (sh s) = false /\ poisoned (sh s) = false /\ contents (sh s) = [3; 1; 2].
Proof. run_ex. see_ex. Qed.
(** In this state the task 1 was told to wait, but is going to be polled again. *)
Example C70_vec_value_woken_ex : exists s, exec vsys_step (sys_init [3; 1]) ex_vacts = Some s /\ exists ps n,
  nth_error (tasks s) 1 = Some (mkTask _ (sig_pipe of_vec_pipe nothing_pipe ex_value) ps [Ready (Some 5); Pending] TIdle true n)
  /\ ready (sh s) = true.
Proof. run_ex. see_ex. Qed.
Example C70_vec_value_shows_ex : exists s, exec vsys_step (sys_init [3; 1]) (ex_vacts ++ XStart 1 :: repeat (XStep 1) 4) = Some s /\ exists ps n,
  nth_error (tasks s) 1 = Some (mkTask _ (sig_pipe of_vec_pipe nothing_pipe ex_value) ps [Ready (Some 5); Pending; Pending] TIdle false n)
  /\ ready (sh s) = true /\ failing (sh s) = false /\ poisoned (sh s) = false /\ calls (sh s) = [(7, OPush 2, Some RUnit)].
Proof. run_ex. see_ex. Qed.
Example C70_lawful_ex : vec_lawful ex_list /\ sig_lawful ex_value /\ sig_filters ex_value = true /\ moves_forward (OPush 2).
Proof.
  split; [split; [exact nat_preorder|exact I]|]. split; [|split; [reflexivity|exact I]]. split; [|exact I].
  intros l l' H. induction H; simpl; lia.
Qed.
(** While a call is in progress, or the task is awake, the view may be behind. *)
Example C70_vec_list_behind_ex : exists s, exec vsys_step (sys_init [3; 1]) (XSpawn (vec_pipe of_vec_pipe ex_list) :: XStart 0 :: repeat (XStep 0) 6 ++ [XDo (ALock 7); XDo (AOp 7 OClear)]) = Some s /\ exists ps n,
  nth_error (tasks s) 0 = Some (mkTask _ (vec_pipe of_vec_pipe ex_list) ps [Ready (Some (Replace [2; 6])); Pending] TIdle false n)
  /\ ready (sh s) = false /\ contents (sh s) = [].
Proof. run_ex. see_ex. Qed.

(** Without the condition on moves the claim is false for filter (C10): the task sleeps, and was given diffs that cannot even be applied. *)
Theorem C70_filter_shows_refuted : exists s, exec vsys_step (sys_init [1; 2; 5]) backward_acts = Some s /\ exists ps n,
  nth_error (tasks s) 0 = Some (mkTask _ (vec_pipe of_vec_pipe (VFilter Nat.odd (VRoot RVec))) ps [Ready (Some (Replace [1; 5])); Pending; Ready (Some (Move 2 0)); Pending] TIdle false n)
  /\ ready (sh s) = true /\ failing (sh s) = false /\ poisoned (sh s) = false /\ contents (sh s) = [5; 1; 2].
Proof. exact filter_shows_wrong. Qed.
Print Assumptions C70_filter_shows_refuted.

(** ** C70: at any time, also in the middle of a poll or of a call: no view has panicked, and what it was given so far can be applied *)
Theorem C70_vec_list_safe : forall X (v0 : list X) acts s i A (v : vec_view (of_vec X) A) ps shown pc w n, exec vsys_step (sys_init v0) acts = Some s ->
  nth_error (tasks s) i = Some (mkTask _ (vec_pipe of_vec_pipe v) ps shown pc w n) -> vec_lawful v ->
  (vec_filters v = true -> forall t o r, In (t, o, r) (calls (sh s)) -> moves_forward o) ->
  pc <> TPanic /\ exists l, replay (yielded shown) = Some l.
Proof. exact @vec_list_safe. Qed.
Print Assumptions C70_vec_list_safe.

Theorem C70_vec_value_safe : forall X (v0 : list X) acts s i B (g : sig_view (of_vec X) nothing B) ps shown pc w n, exec vsys_step (sys_init v0) acts = Some s ->
  nth_error (tasks s) i = Some (mkTask _ (sig_pipe of_vec_pipe nothing_pipe g) ps shown pc w n) -> sig_lawful g ->
  (sig_filters g = true -> forall t o r, In (t, o, r) (calls (sh s)) -> moves_forward o) -> pc <> TPanic.
Proof. exact @vec_value_safe. Qed.
Print Assumptions C70_vec_value_safe.

Example C70_vec_list_safe_ex : exists s, exec vsys_step (sys_init [3; 1]) (firstn 14 ex_vacts) = Some s /\ exists ps n,
  nth_error (tasks s) 0 = Some (mkTask _ (vec_pipe of_vec_pipe ex_list) ps [Ready (Some (Replace [2; 6]))] TBusy false n) /\ ready (sh s) = false.
Proof. run_ex. see_ex. Qed.
Example C70_vec_value_safe_ex : exists s, exec vsys_step (sys_init [3; 1]) (firstn 14 ex_vacts) = Some s /\ exists ps n,
  nth_error (tasks s) 1 = Some (mkTask _ (sig_pipe of_vec_pipe nothing_pipe ex_value) ps [] TBusy false n) /\ ready (sh s) = false.
Proof. run_ex. see_ex. Qed.

(** ** C70: a view completes only when no handle is left, and then it shows the final contents; and it does not sleep when no handle is left (which means, by
    C70_vec_settles, that it completes). The latter is false for is_empty, and for what is built on it *)
Theorem C70_vec_list_ends : forall X (v0 : list X) acts s i A (v : vec_view (of_vec X) A) ps shown pc w n, exec vsys_step (sys_init v0) acts = Some s ->
  nth_error (tasks s) i = Some (mkTask _ (vec_pipe of_vec_pipe v) ps shown pc w n) -> vec_lawful v ->
  (vec_filters v = true -> forall t o r, In (t, o, r) (calls (sh s)) -> moves_forward o) ->
  (pc = TIdle -> w = false -> 0 < owners (sh s))
  /\ (pc = TDone -> owners (sh s) = 0 /\ (poisoned (sh s) = false -> exists l, replay (yielded shown) = Some l /\ vec_shows of_vec_shows v (contents (sh s)) l)).
Proof. exact @vec_list_ends. Qed.
Print Assumptions C70_vec_list_ends.

Theorem C70_vec_value_ends : forall X (v0 : list X) acts s i B (g : sig_view (of_vec X) nothing B) ps shown pc w n, exec vsys_step (sys_init v0) acts = Some s ->
  nth_error (tasks s) i = Some (mkTask _ (sig_pipe of_vec_pipe nothing_pipe g) ps shown pc w n) -> sig_lawful g ->
  (sig_filters g = true -> forall t o r, In (t, o, r) (calls (sh s)) -> moves_forward o) ->
  (asks_empty g = false -> pc = TIdle -> w = false -> 0 < owners (sh s))
  /\ (pc = TDone -> owners (sh s) = 0 /\ (poisoned (sh s) = false -> exists y, latest_of shown = Some y /\ sig_shows of_vec_shows nothing_shows g (contents (sh s)) y)).
Proof. exact @vec_value_ends. Qed.
Print Assumptions C70_vec_value_ends.

(** The MutableVec is pushed to and dropped while the task is being polled. *)
Definition ex_end (i : nat) : list (xact (vecdiff nat) (op nat)) :=
  ex_vacts ++ [XDo (ALock 8); XDo (AOp 8 (OPush 7)); XStart i] ++ repeat (XDo (ASend 8)) 4 ++ [XDo (AUnlock 8 false); XDo ADrop].
Example C70_vec_list_ends_ex : exists s, exec vsys_step (sys_init [3; 1]) (ex_end 0 ++ repeat (XStep 0) 6) = Some s /\ exists ps n,
  nth_error (tasks s) 0 = Some (mkTask _ (vec_pipe of_vec_pipe ex_list) ps
    [Ready (Some (Replace [2; 6])); Ready (Some (InsertAt 1 4)); Pending; Ready (Some (Push 14)); Ready None] TDone true n)
  /\ owners (sh s) = 0 /\ poisoned (sh s) = false /\ contents (sh s) = [3; 1; 2; 7].
Proof. run_ex. see_ex. Qed.
Example C70_vec_value_ends_ex : exists s, exec vsys_step (sys_init [3; 1]) (ex_end 1 ++ repeat (XStep 1) 8) = Some s /\ exists ps n,
  nth_error (tasks s) 1 = Some (mkTask _ (sig_pipe of_vec_pipe nothing_pipe ex_value) ps
    [Ready (Some 5); Pending; Ready (Some 12); Ready None] TDone true n)
  /\ owners (sh s) = 0 /\ poisoned (sh s) = false /\ contents (sh s) = [3; 1; 2; 7].
Proof. run_ex. see_ex. Qed.
Theorem C70_is_empty_ends_refuted : exists s, exec vsys_step (sys_init [1]) unended_acts = Some s /\ exists ps n,
  nth_error (tasks s) 0 = Some (mkTask _ (sig_pipe of_vec_pipe nothing_pipe (SIsEmpty (VRoot RVec))) ps [Ready (Some false); Pending; Pending] TIdle false n)
  /\ owners (sh s) = 0.
Proof. exact is_empty_sleeps. Qed.
Print Assumptions C70_is_empty_ends_refuted.

(** ** C70: from every state, if the users of the contents do nothing new, finitely many steps of the call in progress and of the executor lead to a
    state where nothing is going on any more, and all tasks sleep or have completed: no poll goes on for ever, and no two tasks wait for each other *)
Theorem C70_vec_settles : forall X (v0 : list X) acts s, exec vsys_step (sys_init v0) acts = Some s -> Forall viewing_vec (tasks s) ->
  exists more s', exec vsys_step s more = Some s' /\ Forall pending_act more /\ settled s' /\ same_contents s s'
    /\ length (tasks s') = length (tasks s) /\ forall i t', nth_error (tasks s') i = Some t' -> exists t, nth_error (tasks s) i = Some t /\ grown t t'.
Proof. exact @vec_settles. Qed.
Print Assumptions C70_vec_settles.

Example C70_vec_settles_ex : exists s, exec vsys_step (sys_init [3; 1]) (firstn 14 ex_vacts) = Some s /\ ready (sh s) = false /\ contents (sh s) = [3; 1; 2]
  /\ map tat (tasks s) = [TBusy; TBusy].
Proof. run_ex. see_ex. Qed.

(** ** C70: the same for a MutableBTreeMap: map_value on top of it *)
Theorem C70_map_entries : forall K X (cmp : K -> K -> comparison), total_order cmp -> forall (m0 : list (K * X)) acts s, is_map cmp m0 -> exec (msys_step cmp) (sys_init m0) acts = Some s ->
  forall i A (v : map_view X A) ps shown pc w n, nth_error (tasks s) i = Some (mkTask _ (map_pipe v) ps shown pc w n) ->
  (pc <> TPanic /\ exists l, mreplay cmp (yielded shown) = Some l)
  /\ (pc = TIdle -> w = false -> ready (sh s) = true -> exists l, mreplay cmp (yielded shown) = Some l /\ map_shows v (contents (sh s)) l)
  /\ (pc = TIdle -> w = false -> 0 < owners (sh s))
  /\ (pc = TDone -> owners (sh s) = 0 /\ exists l, mreplay cmp (yielded shown) = Some l /\ map_shows v (contents (sh s)) l).
Proof. exact @map_entries_all. Qed.
Print Assumptions C70_map_entries.

(** ** C70: its keys and entries, and SignalVec combinators on top of them *)
Theorem C70_map_list : forall K X (cmp : K -> K -> comparison), total_order cmp -> forall (m0 : list (K * X)) acts s, is_map cmp m0 -> exec (msys_step cmp) (sys_init m0) acts = Some s ->
  forall i A (v : vec_view (of_map K X) A) ps shown pc w n, nth_error (tasks s) i = Some (mkTask _ (vec_pipe (of_map_pipe cmp) v) ps shown pc w n) -> vec_lawful v ->
  (pc <> TPanic /\ exists l, replay (yielded shown) = Some l)
  /\ (pc = TIdle -> w = false -> ready (sh s) = true -> exists l, replay (yielded shown) = Some l /\ vec_shows of_map_shows v (contents (sh s)) l)
  /\ (pc = TIdle -> w = false -> 0 < owners (sh s))
  /\ (pc = TDone -> owners (sh s) = 0 /\ exists l, replay (yielded shown) = Some l /\ vec_shows of_map_shows v (contents (sh s)) l).
Proof. exact @map_list_all. Qed.
Print Assumptions C70_map_list.

(** ** C70: the value of one key, and Signals of its keys or entries *)
Theorem C70_map_value : forall K X (cmp : K -> K -> comparison), total_order cmp -> forall key_eq, lawful key_eq ->
  forall (m0 : list (K * X)) acts s, is_map cmp m0 -> exec (msys_step cmp) (sys_init m0) acts = Some s ->
  forall i B (g : sig_view (of_map K X) (key_of_map K X) B) ps shown pc w n,
  nth_error (tasks s) i = Some (mkTask _ (sig_pipe (of_map_pipe cmp) (key_pipe key_eq) g) ps shown pc w n) -> sig_lawful g ->
  pc <> TPanic
  /\ (pc = TIdle -> w = false -> ready (sh s) = true -> exists y, latest_of shown = Some y /\ sig_shows of_map_shows key_shows g (contents (sh s)) y)
  /\ (asks_empty g = false -> pc = TIdle -> w = false -> 0 < owners (sh s))
  /\ (pc = TDone -> owners (sh s) = 0 /\ exists y, latest_of shown = Some y /\ sig_shows of_map_shows key_shows g (contents (sh s)) y).
Proof. exact @map_signal_all. Qed.
Print Assumptions C70_map_value.

Theorem C70_map_settles : forall K X (cmp : K -> K -> comparison), total_order cmp -> forall key_eq (m0 : list (K * X)) acts s, is_map cmp m0 ->
  exec (msys_step cmp) (sys_init m0) acts = Some s -> Forall (viewing_map cmp key_eq) (tasks s) ->
  exists more s', exec (msys_step cmp) s more = Some s' /\ Forall pending_act more /\ settled s' /\ same_contents s s'
    /\ length (tasks s') = length (tasks s) /\ forall i t', nth_error (tasks s') i = Some t' -> exists t, nth_error (tasks s) i = Some t /\ grown t t'.
Proof. exact @map_settles. Qed.
Print Assumptions C70_map_settles.

(** Thread 7 inserts while the tasks 0 and 1 are being polled; then thread 8 removes, and the map is dropped. *)
Definition ex_entries : map_view nat nat := MMapValue S MSource.
Definition ex_keys : vec_view (of_map nat nat) nat := VFilter Nat.odd (VRoot RKeys).
Definition ex_key : sig_view (of_map nat nat) (key_of_map nat nat) (option nat) := SRoot (RKey 1).
Definition ex_macts : list (xact (mapdiff nat nat) (mop nat nat)) :=
  [XSpawn (map_pipe ex_entries); XSpawn (vec_pipe (of_map_pipe Nat.compare) ex_keys); XSpawn (sig_pipe (of_map_pipe Nat.compare) (key_pipe Nat.eqb) ex_key);
   XStart 0; XStep 0; XDo (ALock 7); XStart 1; XStep 0; XStep 1; XDo (AOp 7 (MOInsert 3 30)); XStart 2; XStep 1; XDo (ASend 7); XDo (ASend 7)]
  ++ repeat (XStep 0) 4 ++ XDo (ASend 7) :: XStep 2 :: XDo (ASend 7) :: XDo (ASend 7) :: repeat (XStep 1) 7 ++ repeat (XStep 2) 5 ++ [XDo (AUnlock 7 false)].
Definition ex_mend : list (xact (mapdiff nat nat) (mop nat nat)) :=
  ex_macts ++ [XDo (ALock 8); XDo (AOp 8 (MORemove 1)); XStart 2] ++ repeat (XDo (ASend 8)) 5 ++ [XDo (AUnlock 8 false); XDo ADrop].
Definition ex_mdone : list (xact (mapdiff nat nat) (mop nat nat)) :=
  ex_mend ++ XStart 0 :: XStart 1 :: repeat (XStep 0) 4 ++ repeat (XStep 1) 6 ++ repeat (XStep 2) 5.
Example C70_map_entries_ex : exists s, exec (msys_step Nat.compare) (sys_init [(1, 10); (2, 20)]) ex_macts = Some s /\ exists ps n,
  nth_error (tasks s) 0 = Some (mkTask _ (map_pipe ex_entries) ps [Ready (Some (MReplace [(1, 11); (2, 21)])); Ready (Some (MInsert 3 31)); Pending] TIdle false n)
  /\ ready (sh s) = true /\ contents (sh s) = [(1, 10); (2, 20); (3, 30)].
Proof. run_ex. see_ex. Qed.
Example C70_map_list_ex : exists s, exec (msys_step Nat.compare) (sys_init [(1, 10); (2, 20)]) ex_macts = Some s /\ exists ps n,
  nth_error (tasks s) 1 = Some (mkTask _ (vec_pipe (of_map_pipe Nat.compare) ex_keys) ps [Ready (Some (Replace [1])); Ready (Some (InsertAt 1 3)); Pending] TIdle false n)
  /\ ready (sh s) = true.
Proof. run_ex. see_ex. Qed.
Example C70_map_value_ex : exists s, exec (msys_step Nat.compare) (sys_init [(1, 10); (2, 20)]) ex_macts = Some s /\ exists ps n,
  nth_error (tasks s) 2 = Some (mkTask _ (sig_pipe (of_map_pipe Nat.compare) (key_pipe Nat.eqb) ex_key) ps [Ready (Some (Some 10)); Pending] TIdle false n)
  /\ ready (sh s) = true.
Proof. run_ex. see_ex. Qed.
Example C70_map_entries_ends_ex : exists s, exec (msys_step Nat.compare) (sys_init [(1, 10); (2, 20)]) ex_mdone = Some s /\ exists ps n,
  nth_error (tasks s) 0 = Some (mkTask _ (map_pipe ex_entries) ps
    [Ready (Some (MReplace [(1, 11); (2, 21)])); Ready (Some (MInsert 3 31)); Pending; Ready (Some (MRemove 1)); Ready None] TDone false n)
  /\ owners (sh s) = 0 /\ contents (sh s) = [(2, 20); (3, 30)].
Proof. run_ex. see_ex. Qed.
Example C70_map_list_ends_ex : exists s, exec (msys_step Nat.compare) (sys_init [(1, 10); (2, 20)]) ex_mdone = Some s /\ exists ps n,
  nth_error (tasks s) 1 = Some (mkTask _ (vec_pipe (of_map_pipe Nat.compare) ex_keys) ps
    [Ready (Some (Replace [1])); Ready (Some (InsertAt 1 3)); Pending; Ready (Some (RemoveAt 0)); Ready None] TDone false n)
  /\ owners (sh s) = 0.
Proof. run_ex. see_ex. Qed.
Example C70_map_value_ends_ex : exists s, exec (msys_step Nat.compare) (sys_init [(1, 10); (2, 20)]) ex_mdone = Some s /\ exists ps n,
  nth_error (tasks s) 2 = Some (mkTask _ (sig_pipe (of_map_pipe Nat.compare) (key_pipe Nat.eqb) ex_key) ps
    [Ready (Some (Some 10)); Pending; Ready (Some None); Ready None] TDone true n)
  /\ owners (sh s) = 0.
Proof. run_ex. see_ex. Qed.
Example C70_map_settles_ex : exists s, exec (msys_step Nat.compare) (sys_init [(1, 10); (2, 20)]) (firstn 13 ex_macts) = Some s
  /\ ready (sh s) = false /\ contents (sh s) = [(1, 10); (2, 20); (3, 30)] /\ map tat (tasks s) = [TBusy; TBusy; TBusy].
Proof. run_ex. see_ex. Qed.

(** ** C70: "no handle is left" in terms of what was done *)
Theorem C70_handles : forall C D O R run first (c : C) acts (s : system C D O R), exec (sys_step run first) (sys_init c) acts = Some s ->
  owners (sh s) + count x_drops acts = 1 + count x_clones acts.
Proof. exact @sys_handles. Qed.
Print Assumptions C70_handles.

Example C70_handles_ex : exists s, exec vsys_step (sys_init [3; 1]) (ex_vacts ++ [XDo AClone; XStart 1; XDo ADrop]) = Some s /\ owners (sh s) = 1.
Proof. run_ex. see_ex. Qed.
