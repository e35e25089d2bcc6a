(** Properties of map_signal (C14) and filter_signal_cloned (C15), with their parts of C23 and
    C24. The closure makes the signal [inner_of k] for the value [k]; it must honour the
    first-poll contract of Signal, otherwise the code panics. *)
From Verif Require Import Base Spec VecDiff VecSpec Slot ElemSignal ElemSignalFacts.

(** C14: nothing panics. [mas_signals] are the signals made for the current values of the source,
    in order; whenever map_signal answers Pending or ends, the output is the list of the most
    recent values of these signals; before that, the diffs still queued lead exactly there. *)
Theorem C14_map_signal : forall K B (inner_of : K -> list (poll (option B))) source,
  (forall k, has_initial (inner_of k)) -> good_vec_script source -> forall n, exists st outs vs shown,
    run (map_signal_poll inner_of) n (map_signal_init source) = Some (st, outs)
    /\ conveyed (snd (mas_signal st)) = Some (map ms_origin (mas_signals st))
    /\ Forall2 (fun m v => plays (inner_of (ms_origin m)) (snd (ms_signal m)) /\ latest (snd (ms_signal m)) = Some v)
               (mas_signals st) vs
    /\ replay (yielded outs) = Some shown
    /\ (last_out outs Pending \/ last_out outs (Ready None) -> shown = vs)
    /\ apply_all apply_to_vec shown (mas_pending st) = Some vs.
Proof. exact @map_signal_mirror. Qed.
Print Assumptions C14_map_signal.

(** C24: no signal is polled after its end; map_signal ends only when the source and all current
    signals have ended, at the first poll that has nothing else to say. *)
Theorem C24_map_signal : forall K B (inner_of : K -> list (poll (option B))) source,
  (forall k, has_initial (inner_of k)) -> good_vec_script source -> forall n st outs,
    run (map_signal_poll inner_of) n (map_signal_init source) = Some (st, outs) ->
    obeys_end (past (snd (mas_signal st)))
    /\ Forall (fun m => obeys_end (past (snd (ms_signal m)))) (mas_signals st)
    /\ (last_out outs (Ready None) ->
          ended (snd (mas_signal st)) /\ Forall (fun m => ended (snd (ms_signal m))) (mas_signals st))
    /\ (last_out outs Pending ->
          ~ (ended (snd (mas_signal st)) /\ Forall (fun m => ended (snd (ms_signal m))) (mas_signals st))).
Proof. exact @map_signal_ends. Qed.
Print Assumptions C24_map_signal.

(** C23: a poll that answers Pending has polled the source and all current signals (unless they
    have ended), and they answered Pending. *)
Theorem C23_map_signal : forall K B (inner_of : K -> list (poll (option B))) source,
  (forall k, has_initial (inner_of k)) -> good_vec_script source -> forall n st outs st',
    run (map_signal_poll inner_of) n (map_signal_init source) = Some (st, outs) -> ~ In (Ready None) outs ->
    map_signal_poll inner_of st = Some (st', Pending) ->
    listening (snd (mas_signal st)) (snd (mas_signal st'))
    /\ Forall2 (fun m m' => listening (snd (ms_signal m)) (snd (ms_signal m'))) (mas_signals st) (mas_signals st').
Proof. exact @map_signal_wakes. Qed.
Print Assumptions C23_map_signal.

Definition ex_sig (k : nat) : list (poll (option nat)) :=
  match k with
  | 0 => [Ready (Some 10); Ready (Some 11); Pending; Ready None]
  | 1 => [Ready (Some 20); Pending; Ready (Some 21)]
  | _ => [Ready (Some 30); Ready None]
  end.
Definition ex_src : list (poll (option (vecdiff nat))) :=
  [Ready (Some (Replace [0; 1])); Ready (Some (InsertAt 1 2)); Pending; Ready (Some (Move 2 0)); Pending; Ready (Some (RemoveAt 1))].

Example map_signal_ex : (forall k, has_initial (ex_sig k)) /\ good_vec_script ex_src
  /\ (exists st outs st', run (map_signal_poll ex_sig) 7 (map_signal_init ex_src) = Some (st, outs)
        /\ ~ In (Ready None) outs /\ map_signal_poll ex_sig st = Some (st', Pending)
        /\ replay (yielded outs) = Some [21; 30])
  /\ (exists st outs, run (map_signal_poll (fun _ : nat => [Ready (Some 1); Ready None])) 3
        (map_signal_init [Ready (Some (Push 0)); Ready None]) = Some (st, outs) /\ last_out outs (Ready None)).
Proof.
  split; [intros [|[|k]]; do 2 eexists; reflexivity|]. split; [vm_compute; discriminate|]. split.
  - vm_compute. do 3 eexists. split; [reflexivity|]. split; [|split; reflexivity].
    intros H. repeat (destruct H as [H|H]; [discriminate|]). exact H.
  - vm_compute. do 2 eexists. split; [reflexivity|].
    match goal with |- exists p, ?l = _ => exists (removelast l) end. reflexivity.
Qed.

(** C15 is violated: after a backward Move the output can be in the wrong order. The source
    moves the last of three elements to the front; the signal of the second one is false. *)
Theorem C15_filter_signal_refuted : exists (inner_of : nat -> list (poll (option bool))) source st outs shown,
  (forall k, has_initial (inner_of k)) /\ good_vec_script source
  /\ run (filter_signal_poll inner_of) 9 (filter_signal_init source) = Some (st, outs)
  /\ last_out outs Pending
  /\ conveyed (snd (fis_signal st)) = Some (map fs_value (fis_signals st))
  /\ Forall (fun f => latest (snd (fs_signal f)) = Some (negb (fs_value f =? 1))) (fis_signals st)
  /\ replay (yielded outs) = Some shown
  /\ shown <> map fs_value (filter (fun f => match latest (snd (fs_signal f)) with Some b => b | None => false end)
                                   (fis_signals st)).
Proof.
  exists (fun k => [Ready (Some (negb (k =? 1)))]),
    [Ready (Some (Replace [0; 1; 2; 3])); Ready (Some (Move 2 0))].
  do 3 eexists. split; [intros k; do 2 eexists; reflexivity|]. split; [vm_compute; discriminate|].
  split; [vm_compute; reflexivity|].
  split; [match goal with |- last_out ?l _ => exists (removelast l) end; reflexivity|].
  split; [vm_compute; reflexivity|]. split; [repeat constructor|]. split; [vm_compute; reflexivity|].
  vm_compute. discriminate.
Qed.
Print Assumptions C15_filter_signal_refuted.

(** C15 where it holds: backward Moves only move elements whose signal is never true, or pass
    over (directly) an element whose signal is always true. Then nothing panics, and whenever
    filter_signal_cloned answers Pending or ends, the output consists of the source elements
    whose signal is true, in source order; before that, the queued diffs lead exactly there. *)
Theorem C15_filter_signal_partial : forall K (inner_of : K -> list (poll (option bool))) source,
  (forall k, has_initial (inner_of k)) -> good_vec_script source ->
  backward_moves (fun x y => (forall b, In b (yielded (inner_of y)) -> b = true)
                             \/ (forall b, In b (yielded (inner_of x)) -> b = false)) (yielded source) ->
  forall n, exists st outs shown,
    run (filter_signal_poll inner_of) n (filter_signal_init source) = Some (st, outs)
    /\ conveyed (snd (fis_signal st)) = Some (map fs_value (fis_signals st))
    /\ Forall (fun f => plays (inner_of (fs_value f)) (snd (fs_signal f)) /\ latest (snd (fs_signal f)) <> None) (fis_signals st)
    /\ replay (yielded outs) = Some shown
    /\ let current := map fs_value (filter (fun f => match latest (snd (fs_signal f)) with Some b => b | None => false end)
                                           (fis_signals st)) in
       (last_out outs Pending \/ last_out outs (Ready None) -> shown = current)
       /\ apply_all apply_to_vec shown (fis_pending st) = Some current.
Proof. exact @filter_signal_mirror. Qed.
Print Assumptions C15_filter_signal_partial.

(** C24, and what remains of C15 for every source: nothing panics; no signal is polled after its
    end; filter_signal_cloned ends only when the source and all current signals have ended, at
    the first poll that has nothing else to say. *)
Theorem C15_C24_filter_signal : forall K (inner_of : K -> list (poll (option bool))) source,
  (forall k, has_initial (inner_of k)) -> good_vec_script source -> forall n, exists st outs,
    run (filter_signal_poll inner_of) n (filter_signal_init source) = Some (st, outs)
    /\ conveyed (snd (fis_signal st)) = Some (map fs_value (fis_signals st))
    /\ obeys_end (past (snd (fis_signal st)))
    /\ Forall (fun f => obeys_end (past (snd (fs_signal f)))) (fis_signals st)
    /\ (last_out outs (Ready None) ->
          ended (snd (fis_signal st)) /\ Forall (fun f => ended (snd (fs_signal f))) (fis_signals st))
    /\ (last_out outs Pending ->
          ~ (ended (snd (fis_signal st)) /\ Forall (fun f => ended (snd (fs_signal f))) (fis_signals st))).
Proof. exact @filter_signal_ends. Qed.
Print Assumptions C15_C24_filter_signal.

(** C23: a poll that answers Pending has polled the source and all current signals (unless they
    have ended), and they answered Pending. [new]: the diffs received in that poll; [before]: the
    current signals as they were before the poll, new ones being untouched. *)
Theorem C23_filter_signal : forall K (inner_of : K -> list (poll (option bool))) source,
  (forall k, has_initial (inner_of k)) -> good_vec_script source -> forall n st outs st',
    run (filter_signal_poll inner_of) n (filter_signal_init source) = Some (st, outs) -> ~ In (Ready None) outs ->
    filter_signal_poll inner_of st = Some (st', Pending) ->
    listening (snd (fis_signal st)) (snd (fis_signal st'))
    /\ exists new before, yielded (past (snd (fis_signal st'))) = yielded (past (snd (fis_signal st))) ++ new
         /\ carried (fun k => fresh (inner_of k)) new (map (fun f => snd (fs_signal f)) (fis_signals st)) = Some before
         /\ Forall2 listening before (map (fun f => snd (fs_signal f)) (fis_signals st')).
Proof. exact @filter_signal_wakes. Qed.
Print Assumptions C23_filter_signal.

Definition ex_bool (k : nat) : list (poll (option bool)) :=
  match k with
  | 0 => [Ready (Some true); Pending; Ready (Some false); Ready None]
  | 1 => [Ready (Some false); Pending; Ready (Some true)]
  | 2 => [Ready (Some true); Ready (Some true); Ready None]
  | _ => [Ready (Some false)]
  end.
Definition ex_src2 : list (poll (option (vecdiff nat))) :=
  [Ready (Some (Replace [0; 2; 1; 3])); Pending; Ready (Some (Move 2 0)); Pending; Ready (Some (Move 0 2)); Ready (Some (InsertAt 1 3)); Ready (Some (Move 1 0))].

Example filter_signal_ex : (forall k, has_initial (ex_bool k)) /\ good_vec_script ex_src2
  /\ backward_moves (fun x y => (forall b, In b (yielded (ex_bool y)) -> b = true)
                             \/ (forall b, In b (yielded (ex_bool x)) -> b = false)) (yielded ex_src2)
  /\ (exists st outs st', run (filter_signal_poll ex_bool) 7 (filter_signal_init ex_src2) = Some (st, outs)
        /\ ~ In (Ready None) outs /\ filter_signal_poll ex_bool st = Some (st', Pending)
        /\ replay (yielded outs) = Some [2; 1])
  /\ (exists st outs, run (filter_signal_poll (fun _ : nat => [Ready (Some true); Ready None])) 3
        (filter_signal_init [Ready (Some (Push 0)); Ready None]) = Some (st, outs) /\ last_out outs (Ready None)).
Proof.
  split; [intros [|[|[|k]]]; do 2 eexists; reflexivity|]. split; [vm_compute; discriminate|]. split.
  { intros pre o n post l x y E Hr Hlt Hx Hy.
    destruct pre as [|d0 [|d1 [|d2 [|d3 [|d4 pre]]]]]; injection E; intros; subst; try lia; try discriminate.
    - vm_compute in Hr. injection Hr as <-. injection Hx as <-. injection Hy as <-.
      left. simpl. intros b [<-|[<-|[]]]; reflexivity.
    - vm_compute in Hr. injection Hr as <-. injection Hx as <-. injection Hy as <-.
      right. simpl. intros b [<-|[]]; reflexivity.
    - destruct pre; discriminate. }
  split.
  - vm_compute. do 3 eexists. split; [reflexivity|]. split; [|split; reflexivity].
    intros H. repeat (destruct H as [H|H]; [discriminate|]). exact H.
  - vm_compute. do 2 eexists. split; [reflexivity|].
    match goal with |- exists p, ?l = _ => exists (removelast l) end. reflexivity.
Qed.
