(** Properties of flatten (C13, parts of C23 and C24). The outer SignalVec yields values of an
    arbitrary type, and [inner_of] says which inner SignalVec stands for a value. *)
From Verif Require Import Base Spec VecDiff VecSpec Slot Flatten FlattenFacts.

(** C13 is violated: when the outer SignalVec removes, overwrites, moves or pops an inner
    SignalVec, flatten outputs nothing for the items of that inner SignalVec. The four histories
    below differ in the last outer diff only; after all sources have ended, the output is
    [1; 2; 3] in the first two, and so on. [left]: the outer contents at the end. *)
Definition ex_inner (k : nat) : list (poll (option (vecdiff nat))) :=
  match k with
  | 0 => [Ready (Some (Replace [1; 2])); Ready None]
  | 1 => [Ready (Some (Push 3)); Ready None]
  | _ => [Ready (Some (Push 4)); Ready None]
  end.

Theorem C13_flatten_refuted : forall last, In last [RemoveAt 0; UpdateAt 0 2; Move 0 1; Pop] ->
  exists outer st outs ls shown,
    good_vec_script outer /\ (forall k, good_vec_script (ex_inner k))
    /\ outer = [Ready (Some (Replace [0; 1])); Ready (Some last); Ready None]
    /\ run (flatten_vec_poll ex_inner) 9 (flatten_vec_init outer) = Some (st, outs)
    /\ last_out outs (Ready None)
    /\ conveyed (snd (fla_signal st)) = Some (map fv_origin (fla_inner st))
    /\ Forall2 (fun f l => conveyed (snd (fv_signal_vec f)) = Some l) (fla_inner st) ls
    /\ replay (yielded outs) = Some shown /\ shown <> concat ls.
Proof.
  intros last H.
  assert (Hin : forall k, good_vec_script (ex_inner k)) by (intros [|[|]]; vm_compute; discriminate).
  destruct H as [<-|[<-|[<-|[<-|[]]]]]; eexists; do 4 eexists;
    (split; [|split; [exact Hin|]; split; [reflexivity|]; split; [vm_compute; reflexivity|]]);
    try (vm_compute; discriminate);
    (split; [match goal with |- last_out ?l _ => exists (removelast l) end; reflexivity|];
     split; [vm_compute; reflexivity|]; split; [repeat constructor|]; split; [vm_compute; reflexivity|]; vm_compute; discriminate).
Qed.
Print Assumptions C13_flatten_refuted.

(** C13 where it holds: the outer SignalVec may do anything (insert, push, replace, clear, end)
    except remove, overwrite, move or pop an inner SignalVec that has something to say. Then
    nothing panics; the outer contents are what [fla_inner] stands for, in order; whenever
    flatten answers Pending or ends, the output is the concatenation of the contents of the
    inner SignalVecs; before that, the diffs still queued lead exactly there. *)
Theorem C13_flatten_partial : forall K A (inner_of : K -> list (poll (option (vecdiff A)))) outer,
  (forall k, good_vec_script (inner_of k)) -> good_vec_script outer ->
  touches_only (fun k => yielded (inner_of k) = []) (yielded outer) -> forall n, exists st outs ls shown,
    run (flatten_vec_poll inner_of) n (flatten_vec_init outer) = Some (st, outs)
    /\ conveyed (snd (fla_signal st)) = Some (map fv_origin (fla_inner st))
    /\ Forall2 (fun f l => plays (inner_of (fv_origin f)) (snd (fv_signal_vec f))
                           /\ conveyed (snd (fv_signal_vec f)) = Some l) (fla_inner st) ls
    /\ replay (yielded outs) = Some shown
    /\ (last_out outs Pending \/ last_out outs (Ready None) -> shown = concat ls)
    /\ apply_all apply_to_vec shown (fla_pending st) = Some (concat ls).
Proof. exact @flatten_mirror. Qed.
Print Assumptions C13_flatten_partial.

Definition ex_inner2 (k : nat) : list (poll (option (vecdiff nat))) :=
  match k with
  | 0 => [Ready (Some (Replace [1; 2])); Pending; Ready (Some (Push 5)); Ready (Some (RemoveAt 0)); Ready None]
  | 1 => [Ready (Some (Push 3)); Pending; Ready (Some (Replace [6; 7])); Pending; Ready (Some (Move 0 1)); Ready (Some Pop)]
  | _ => [Ready None]
  end.
Definition ex_outer : list (poll (option (vecdiff nat))) :=
  [Ready (Some (Push 0)); Pending; Ready (Some (InsertAt 0 1)); Ready (Some (InsertAt 1 9)); Pending; Pending; Ready (Some (RemoveAt 1)); Pending].

Example C13_flatten_partial_ex : (forall k, good_vec_script (ex_inner2 k)) /\ good_vec_script ex_outer
  /\ touches_only (fun k => yielded (ex_inner2 k) = []) (yielded ex_outer)
  /\ exists st outs, run (flatten_vec_poll ex_inner2) 15 (flatten_vec_init ex_outer) = Some (st, outs)
     /\ last_out outs Pending /\ replay (yielded outs) = Some [7; 2; 5].
Proof.
  split; [intros [|[|k]]; vm_compute; discriminate|]. split; [vm_compute; discriminate|]. split.
  - intros pre d post l a E Hr Ha.
    destruct pre as [|d0 [|d1 [|d2 [|d3 pre]]]]; injection E; intros; subst; try contradiction.
    + vm_compute in Hr. injection Hr as <-. destruct Ha as [<-|[]]. reflexivity.
    + destruct pre; discriminate.
  - vm_compute. do 2 eexists. split; [reflexivity|]. split; [|reflexivity].
    match goal with |- exists p, ?l = _ => exists (removelast l) end. reflexivity.
Qed.

(** C24, and what remains of C13 for every outer history: nothing panics, the output can be
    applied, no source is polled after its end; flatten ends only when the outer SignalVec and
    all current inner ones have ended, at the first poll that has nothing else to say. *)
Theorem C13_C24_flatten : forall K A (inner_of : K -> list (poll (option (vecdiff A)))) outer,
  (forall k, good_vec_script (inner_of k)) -> good_vec_script outer -> forall n, exists st outs,
    run (flatten_vec_poll inner_of) n (flatten_vec_init outer) = Some (st, outs)
    /\ replay (yielded outs) <> None
    /\ conveyed (snd (fla_signal st)) = Some (map fv_origin (fla_inner st))
    /\ obeys_end (past (snd (fla_signal st)))
    /\ Forall (fun f => obeys_end (past (snd (fv_signal_vec f)))) (fla_inner st)
    /\ (last_out outs (Ready None) ->
          ended (snd (fla_signal st)) /\ Forall (fun f => ended (snd (fv_signal_vec f))) (fla_inner st))
    /\ (last_out outs Pending ->
          ~ (ended (snd (fla_signal st)) /\ Forall (fun f => ended (snd (fv_signal_vec f))) (fla_inner st))).
Proof. exact @flatten_ends. Qed.
Print Assumptions C13_C24_flatten.

(** C23: when flatten answers Pending, the outer SignalVec and every current inner SignalVec has
    ended, or was polled in that very poll and answered Pending last. [new]: the outer diffs
    received in that poll; [before]: the current inner SignalVecs as they were before the poll,
    those made in this poll being untouched. *)
Theorem C23_flatten : forall K A (inner_of : K -> list (poll (option (vecdiff A)))) outer,
  (forall k, good_vec_script (inner_of k)) -> good_vec_script outer -> forall n st outs st',
    run (flatten_vec_poll inner_of) n (flatten_vec_init outer) = Some (st, outs) -> ~ In (Ready None) outs ->
    flatten_vec_poll inner_of st = Some (st', Pending) ->
    listening (snd (fla_signal st)) (snd (fla_signal st'))
    /\ exists new before, yielded (past (snd (fla_signal st'))) = yielded (past (snd (fla_signal st))) ++ new
         /\ carried (fun k => fresh (inner_of k)) new (map (fun f => snd (fv_signal_vec f)) (fla_inner st)) = Some before
         /\ Forall2 listening before (map (fun f => snd (fv_signal_vec f)) (fla_inner st')).
Proof. exact @flatten_wakes. Qed.
Print Assumptions C23_flatten.

Example C23_C24_flatten_ex :
  (exists st outs st', run (flatten_vec_poll ex_inner2) 10 (flatten_vec_init ex_outer) = Some (st, outs)
     /\ ~ In (Ready None) outs /\ flatten_vec_poll ex_inner2 st = Some (st', Pending) /\ length (fla_inner st') = 2)
  /\ (exists st outs, run (flatten_vec_poll ex_inner) 9
        (flatten_vec_init [Ready (Some (Replace [0; 1])); Ready (Some (RemoveAt 1)); Ready None]) = Some (st, outs)
      /\ last_out outs (Ready None)).
Proof.
  split; vm_compute; do 2 eexists; [eexists|]; (split; [reflexivity|]).
  - split; [|split; reflexivity]. intros H. repeat (destruct H as [H|H]; [discriminate|]). exact H.
  - match goal with |- exists p, ?l = _ => exists (removelast l) end. reflexivity.
Qed.
