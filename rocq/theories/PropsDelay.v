(** Properties of delay_remove (C17), with its parts of C23 and C24. The closure makes the future
    [future_of k] for the value [k]. [dlr_futures]: the elements on display, in order, each with
    its future; [dr_removing]: it is waiting for removal. [dlr_gone]: the removed elements that
    were taken off the display. *)
From Verif Require Import Base Spec VecDiff VecSpec Slot DelaySpec DelayRemove DelayFacts.

(** C17: nothing panics. The elements on display are the current source elements in source
    order, and removed elements which have kept their place ([lingered]); whenever delay_remove
    answers Pending or ends, these are what the output holds; before that, the queued diffs lead
    exactly there. *)
Theorem C17_delay_remove : forall K (future_of : K -> list (poll unit)) source,
  good_vec_script source -> forall n, exists st outs shown,
    run (delay_remove_poll future_of) n (delay_remove_init source) = Some (st, outs)
    /\ lingered (yielded (past (snd (dlr_signal st)))) (map (fun f => (dr_value f, dr_removing f)) (dlr_futures st))
                (map dr_value (dlr_gone st))
    /\ conveyed (snd (dlr_signal st)) = Some (map dr_value (filter (fun f => negb (dr_removing f)) (dlr_futures st)))
    /\ replay (yielded outs) = Some shown
    /\ (last_out outs Pending \/ last_out outs (Ready None) -> shown = map dr_value (dlr_futures st))
    /\ apply_all apply_to_vec shown (dlr_pending st) = Some (map dr_value (dlr_futures st)).
Proof. exact @delay_mirror. Qed.
Print Assumptions C17_delay_remove.

(** C17: the future of a current source element is never polled; that of a removed element on
    display was polled and has not completed; that of an element taken off the display has
    completed, and was not polled afterwards. *)
Theorem C17_delay_remove_futures : forall K (future_of : K -> list (poll unit)) source,
  good_vec_script source -> forall n st outs,
    run (delay_remove_poll future_of) n (delay_remove_init source) = Some (st, outs) ->
    Forall (fun f => plays (future_of (dr_value f)) (dr_future f)
              /\ if dr_removing f then exists n, past (dr_future f) = repeat Pending (S n) else past (dr_future f) = [])
           (dlr_futures st)
    /\ Forall (fun f => plays (future_of (dr_value f)) (dr_future f)
                 /\ exists n, past (dr_future f) = repeat Pending n ++ [Ready tt]) (dlr_gone st).
Proof. exact @delay_futures. Qed.
Print Assumptions C17_delay_remove_futures.

(** C17, C24: the source is not polled after its end; delay_remove ends only when the source has
    ended and nothing is waiting for removal, at the first poll that has nothing else to say. *)
Theorem C17_C24_delay_remove : forall K (future_of : K -> list (poll unit)) source,
  good_vec_script source -> forall n st outs,
    run (delay_remove_poll future_of) n (delay_remove_init source) = Some (st, outs) ->
    obeys_end (past (snd (dlr_signal st)))
    /\ (last_out outs (Ready None) ->
          ended (snd (dlr_signal st)) /\ Forall (fun f => dr_removing f = false) (dlr_futures st))
    /\ (last_out outs Pending ->
          ~ (ended (snd (dlr_signal st)) /\ Forall (fun f => dr_removing f = false) (dlr_futures st))).
Proof. exact @delay_ends. Qed.
Print Assumptions C17_C24_delay_remove.

(** C23: a poll that answers Pending has polled the source (unless it has ended) and the futures
    of all elements that wait for removal, and they answered Pending. *)
Theorem C23_delay_remove : forall K (future_of : K -> list (poll unit)) source,
  good_vec_script source -> forall n st outs st',
    run (delay_remove_poll future_of) n (delay_remove_init source) = Some (st, outs) -> ~ In (Ready None) outs ->
    delay_remove_poll future_of st = Some (st', Pending) ->
    listening (snd (dlr_signal st)) (snd (dlr_signal st'))
    /\ Forall2 (fun f f' => dr_removing f' = true -> armed (dr_future f) (dr_future f')) (dlr_futures st) (dlr_futures st').
Proof. exact @delay_wakes. Qed.
Print Assumptions C23_delay_remove.

Definition ex_fut (k : nat) : list (poll unit) :=
  match k with
  | 0 => [Ready tt]
  | 1 => [Pending; Pending; Pending; Pending; Ready tt]
  | 2 => [Pending; Ready tt]
  | _ => []
  end.
Definition ex_dsrc : list (poll (option (vecdiff nat))) :=
  [Ready (Some (Replace [0; 1; 2; 3])); Pending; Ready (Some (RemoveAt 1)); Pending; Ready (Some (RemoveAt 0));
   Ready (Some (InsertAt 1 7)); Ready (Some (Move 0 1)); Pending; Ready (Some Pop); Pending; Ready (Some (Replace [9])); Pending;
   Ready None].

Example delay_ex : good_vec_script ex_dsrc
  /\ (exists st outs st', run (delay_remove_poll ex_fut) 1 (delay_remove_init ex_dsrc) = Some (st, outs)
        /\ ~ In (Ready None) outs /\ delay_remove_poll ex_fut st = Some (st', Pending)
        /\ map (fun f => (dr_value f, dr_removing f)) (dlr_futures st') = [(0, false); (1, true); (2, false); (3, false)])
  /\ (exists st outs, run (delay_remove_poll ex_fut) 10 (delay_remove_init ex_dsrc) = Some (st, outs)
        /\ ~ In (Ready None) outs
        /\ map (fun f => (dr_value f, dr_removing f)) (dlr_futures st) = [(7, true); (3, true); (9, false)]
        /\ map dr_value (dlr_gone st) = [0; 2; 1])
  /\ (exists st outs, run (delay_remove_poll (fun _ : nat => [Pending; Pending; Ready tt])) 9
        (delay_remove_init [Ready (Some (Replace [1; 2])); Ready (Some Pop); Ready None]) = Some (st, outs)
        /\ last_out outs (Ready None) /\ map dr_value (dlr_futures st) = [1]).
Proof.
  split; [vm_compute; discriminate|]. vm_compute. split; [|split].
  - do 3 eexists. split; [reflexivity|]. split; [|split; reflexivity].
    intros H. repeat (destruct H as [H|H]; [discriminate|]). exact H.
  - do 2 eexists. split; [reflexivity|]. split; [|split; reflexivity].
    intros H. repeat (destruct H as [H|H]; [discriminate|]). exact H.
  - do 2 eexists. split; [reflexivity|]. split; [|reflexivity].
    match goal with |- exists p, ?l = _ => exists (removelast l) end. reflexivity.
Qed.
