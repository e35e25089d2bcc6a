(** C75. See DESIGN.md for what is modelled and what the theorems rest on. *)
From Verif Require Import Base Spec VecDiff VecSpec MutVec MutVecSpec Caught CaughtFacts CaughtBack.

(** ** C75: a MutableVec after a panic that was caught while its guard was held *)

(** Whatever happens, panics included, the diffs of every subscriber give the contents, as long as none of three things happens: move_from_to
    or swap with a good first and a bad second index (also through apply_vec_diff), a closure of retain that
    panics after it has rejected something, a clone or a waker that panics in the middle of a notification. Missing: these
    (C75_move_refuted, C75_retain_refuted, C75_clone_refuted, C75_waker_refuted). *)
Theorem C75_in_step_partial : forall A (v : list A) es id s,
  (forall es1 e es2, es = es1 ++ e :: es2 -> ~ harmful e (krun es1 (mv_new v))) ->
  nth_error (subs (krun es (mv_new v))) id = Some s -> alive s = true -> poisoned (krun es (mv_new v)) = false ->
  replay (total s) = Some (values (krun es (mv_new v))).
Proof. exact @caught_in_step. Qed.
Print Assumptions C75_in_step_partial.

(** The condition is exact for the first two: they remove elements that no subscriber gets to know of, and the MutableVec can be used on. *)
Theorem C75_harm : forall A (e : kevent A) (st : mvec A) id s, 0 < owners st -> poisoned st = false ->
  (exists o a, e = KOp o /\ loses o (values st) a) \/ (exists f, e = KRetain f /\ half_way f (values st)) ->
  nth_error (subs st) id = Some s -> replay (total s) = Some (values st) ->
  nth_error (subs (kstep e st)) id = Some s /\ poisoned (kstep e st) = false /\ length (values (kstep e st)) < length (values st)
  /\ replay (total s) <> Some (values (kstep e st)).
Proof. exact @caught_harm. Qed.
Print Assumptions C75_harm.

(** What is left. *)
Theorem C75_loses : forall A (o : op A) (st : mvec A) a, 0 < owners st -> poisoned st = false -> loses o (values st) a ->
  kstep (KOp o) st = set_values (firstn a (values st) ++ skipn (a + 1) (values st)) st.
Proof. exact @caught_loses. Qed.
Print Assumptions C75_loses.
Theorem C75_retain : forall A (f : A -> option bool) (st : mvec A) p x r, 0 < owners st -> poisoned st = false ->
  values st = p ++ x :: r -> f x = None -> (forall y, In y p -> f y <> None) ->
  kstep (KRetain f) st = set_values (filter (fun y => match f y with Some b => b | None => true end) p ++ x :: r) st.
Proof. exact @caught_retain. Qed.
Print Assumptions C75_retain.

(** A panic in a notification, at sender [n]: the contents have changed, the subscribers before have got the diff (the one at [n] if it was its
    waker that panicked), the others have not. *)
Theorem C75_stop : forall A (v : list A) es d n sent k id s, let st := krun es (mv_new v) in
  (forall es1 e es2, es = es1 ++ e :: es2 -> ~ harmful e (krun es1 (mv_new v))) ->
  0 < owners st -> poisoned st = false -> apply_to_vec d (values st) <> None ->
  nth_error (senders st) k = Some id -> nth_error (subs st) id = Some s -> alive s = true ->
  exists s', nth_error (subs (kstep (KStop d n sent) st)) id = Some s' /\ alive s' = true
    /\ total s' = total s ++ (if (k <? n) || (sent && (k =? n)) then [d] else [])
    /\ apply_to_vec d (values st) = Some (values (kstep (KStop d n sent) st)).
Proof. exact @send_stop_total. Qed.
Print Assumptions C75_stop.

(** The way back. Whatever has happened before: an operation whose diff says everything (replace, or clear on a MutableVec that is not empty) puts every
    subscriber in step again, for as long as nothing else goes wrong. What a subscriber got before that diff no longer matters. *)
Theorem C75_back : forall A (v : list A) es1 o d es2 id s, let st1 := krun es1 (mv_new v) in let st2 := krun (es1 ++ KEvent (EOp o) :: es2) (mv_new v) in
  0 < owners st1 -> poisoned st1 = false -> says_all o (values st1) = Some d ->
  (forall es e es', es2 = es ++ e :: es' -> ~ harmful e (krun (es1 ++ KEvent (EOp o) :: es) (mv_new v))) ->
  nth_error (subs st2) id = Some s -> alive s = true -> poisoned st2 = false ->
  exists pre suf, total s = pre ++ suf /\ replay suf = Some (values st2)
    /\ (id < length (subs st1) -> exists suf', suf = d :: suf') /\ (length (subs st1) <= id -> pre = []).
Proof. exact @caught_back. Qed.
Print Assumptions C75_back.

(** clear on a MutableVec that is empty says nothing, and is no way back: the subscriber goes on with an element that is gone. *)
Theorem C75_clear_refuted : exists s, let st := krun [KEvent ESubscribe; KOp (OMove 0 2); KEvent (EOp (OPush 3)); KEvent (EOp OPop); KEvent (EOp OPop); KEvent (EOp OClear)] (mv_new [1; 2]) in
  subs st = [s] /\ alive s = true /\ poisoned st = false /\ values st = [] /\ replay (total s) = Some [1].
Proof. eexists. repeat split. Qed.
Print Assumptions C75_clear_refuted.

(** *** What goes wrong *)
(** move_from_to(0, 3) on three elements panics, is caught, and the MutableVec is used on: the subscriber is one element off for good. *)
Theorem C75_move_refuted : exists s, let st := krun [KEvent ESubscribe; KOp (OMove 0 3); KEvent (EOp (OPush 4)); KEvent (EOp (OSet 0 9))] (mv_new [1; 2; 3]) in
  subs st = [s] /\ alive s = true /\ poisoned st = false /\ values st = [9; 3; 4] /\ replay (total s) = Some [9; 2; 3; 4].
Proof. eexists. repeat split. Qed.
Print Assumptions C75_move_refuted.

(** The closure of retain rejects 1 and panics on 2. *)
Theorem C75_retain_refuted : exists s, let st := krun [KEvent ESubscribe; KRetain (fun x => if x =? 1 then Some false else None); KEvent (EOp (ORemove 1))] (mv_new [1; 2; 3]) in
  subs st = [s] /\ alive s = true /\ poisoned st = false /\ values st = [2] /\ replay (total s) = Some [1; 2].
Proof. eexists. repeat split. Qed.
Print Assumptions C75_retain_refuted.

(** The second clone of push_cloned panics: two subscribers disagree, and the second cannot apply a later diff. *)
Theorem C75_clone_refuted : exists s t, let st := krun [KEvent ESubscribe; KEvent ESubscribe; KEvent ESubscribe; KStop (Push 1) 1 false; KEvent (EOp OPop)] (mv_new []) in
  nth_error (subs st) 0 = Some s /\ nth_error (subs st) 1 = Some t /\ alive t = true /\ poisoned st = false /\ values st = []
  /\ replay (total s) = Some [] /\ replay (total t) = None.
Proof. do 2 eexists. repeat split. Qed.
Print Assumptions C75_clone_refuted.

(** The waker of the task of the first subscriber panics: the second is not told. *)
Theorem C75_waker_refuted : exists s t, let st := krun [KEvent ESubscribe; KEvent ESubscribe; KEvent (EPoll 0); KEvent (EPoll 1); KStop (Push 1) 0 true] (mv_new []) in
  subs st = [s; t] /\ alive t = true /\ poisoned st = false /\ values st = [1] /\ replay (total s) = Some [1] /\ woken s = true
  /\ replay (total t) = Some [] /\ waiting t = true /\ woken t = false.
Proof. do 2 eexists. repeat split. Qed.
Print Assumptions C75_waker_refuted.

(** *** The theorems are not empty *)
Definition ex_caught : list (kevent nat) :=
  [KEvent ESubscribe; KOp (ORemove 7); KOp (OSwap 5 1); KRetain (fun x => if x =? 3 then None else Some true); KOp (ORetain Nat.even); KOp (OMove 4 0);
   KStop (Push 6) 1 false; KOp (OSet 0 8)].
Example C75_in_step_partial_ex : exists s, subs (krun ex_caught (mv_new [1; 2; 3; 4])) = [s] /\ alive s = true
  /\ poisoned (krun ex_caught (mv_new [1; 2; 3; 4])) = false /\ values (krun ex_caught (mv_new [1; 2; 3; 4])) = [8; 4; 6]
  /\ op_panics (ORemove 7) [1; 2; 3; 4] /\ op_panics (OSwap 5 1) [1; 2; 3; 4] /\ op_panics (OMove 4 0) [2; 4].
Proof. eexists. repeat split; cbn; lia. Qed.
Example C75_in_step_partial_ok : forall es1 e es2, ex_caught = es1 ++ e :: es2 -> ~ harmful e (krun es1 (mv_new [1; 2; 3; 4])).
Proof.
  unfold ex_caught. intros es1 e es2 E.
  assert (HM : forall (v : list nat) o a, loses o v a -> (exists b, o = OMove a b /\ a < length v) \/ (exists b, o = OSwap a b /\ a < length v) \/ exists b, o = OApply (Move a b)).
  { intros v o a (b & [->|[->| ->]] & H & _); eauto. }
  destruct es1 as [|e1 es1]; [injection E as <- _; exact (fun F => F)|injection E as <- E].
  destruct es1 as [|e1 es1]; [injection E as <- _; intros (a & H); apply HM in H; destruct H as [(b & H & _)|[(b & H & _)|(b & H)]]; discriminate|injection E as <- E].
  destruct es1 as [|e1 es1]; [injection E as <- _; intros (a & H); apply HM in H; destruct H as [(b & H & _)|[(b & H & L)|(b & H)]]; try discriminate; injection H as <- <-; cbn in L; lia|injection E as <- E].
  destruct es1 as [|e1 es1]; [injection E as <- _; intros (p & x & r & _ & _ & _ & y & _ & H); destruct (y =? 3); discriminate|injection E as <- E].
  destruct es1 as [|e1 es1]; [injection E as <- _; intros (a & H); apply HM in H; destruct H as [(b & H & _)|[(b & H & _)|(b & H)]]; discriminate|injection E as <- E].
  destruct es1 as [|e1 es1]; [injection E as <- _; intros (a & H); apply HM in H; destruct H as [(b & H & L)|[(b & H & _)|(b & H)]]; try discriminate; injection H as <- <-; cbn in L; lia|injection E as <- E].
  destruct es1 as [|e1 es1]; [injection E as <- _; cbn; lia|injection E as <- E].
  destruct es1 as [|e1 es1]; [injection E as <- _; intros (a & H); apply HM in H; destruct H as [(b & H & _)|[(b & H & _)|(b & H)]]; discriminate|injection E as <- E].
  destruct es1; discriminate.
Qed.
Example C75_harm_ex : loses (OSwap 1 5) [1; 2; 3] 1 /\ half_way (fun x => if x =? 1 then Some false else None) [1; 2; 3].
Proof.
  split; [exists 5; cbn; split; [auto|lia]|]. exists [1], 2, [3]. split; [reflexivity|]. split; [reflexivity|].
  split; [intros y [<-|[]]; discriminate|exists 1; split; [left|]; reflexivity].
Qed.

(** Two things go wrong, replace follows, a subscriber from before and one from after are both right, though all that the first got cannot be right: its mirror went wrong. *)
Definition ex_wrong : list (kevent nat) := [KEvent ESubscribe; KOp (OMove 0 3); KEvent (EOp (OPush 4)); KRetain (fun x => if x =? 2 then Some false else None)].
Definition ex_right : list (kevent nat) := [KEvent (EPoll 0); KOp (ORemove 9); KEvent ESubscribe; KEvent (EOp (OPush 7))].
Example C75_back_ex : let st1 := krun ex_wrong (mv_new [1; 2; 3]) in let st2 := krun (ex_wrong ++ KEvent (EOp (OReplace [5; 6])) :: ex_right) (mv_new [1; 2; 3]) in
  0 < owners st1 /\ poisoned st1 = false /\ says_all (OReplace [5; 6]) (values st1) = Some (Replace [5; 6]) /\ values st1 = [3; 4]
  /\ (exists s, subs st1 = [s] /\ replay (total s) = Some [1; 2; 3; 4])
  /\ (forall es e es', ex_right = es ++ e :: es' -> ~ harmful e (krun (ex_wrong ++ KEvent (EOp (OReplace [5; 6])) :: es) (mv_new [1; 2; 3])))
  /\ poisoned st2 = false /\ values st2 = [5; 6; 7]
  /\ exists s t, subs st2 = [s; t] /\ alive s = true /\ alive t = true /\ total s = [Replace [1; 2; 3]; Push 4; Replace [5; 6]; Push 7] /\ total t = [Replace [5; 6]; Push 7].
Proof.
  repeat split; try (do 2 eexists; repeat split; reflexivity); try (eexists; repeat split; reflexivity); [cbn; lia|].
  intros es e es' E H. destruct es as [|? [|? [|? [|? [|]]]]]; cbn in E; injection E; intros; subst; try discriminate; cbn in H; try exact H.
  destruct H as (a & b & [H|[H|H]] & _); discriminate.
Qed.
