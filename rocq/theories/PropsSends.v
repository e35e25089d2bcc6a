(** C62: exactly which diffs every operation on a MutableVec sends. *)
From Verif Require Import Base Spec VecDiff MutVec MutVecSpec MutVecRun MutVecSends.

(** Every subscriber that has not been dropped gets, behind the diffs that are still waiting for it, exactly the diffs [op_sends] of the
    operation on the current contents; nothing it has received already changes. *)
Theorem C62_sends : forall A (v : list A) es (o : op A),
  let st := mv_run es (mv_new v) in
  0 < owners st -> poisoned st = false -> ~ op_panics o (values st) ->
  forall id s, nth_error (subs st) id = Some s -> alive s = true ->
  exists s', nth_error (subs (mv_event (EOp o) st)) id = Some s' /\ alive s' = true /\ got s' = got s
    /\ queue s' = queue s ++ op_sends o (values st).
Proof. exact @mv_sends. Qed.
Print Assumptions C62_sends.

(** Those diffs lead from the old contents to the new ones. *)
Theorem C62_leads : forall A (v : list A) es (o : op A),
  let st := mv_run es (mv_new v) in
  0 < owners st -> poisoned st = false -> ~ op_panics o (values st) ->
  apply_all apply_to_vec (values st) (op_sends o (values st)) = Some (values (mv_event (EOp o) st)).
Proof. exact @mv_sends_apply. Qed.
Print Assumptions C62_leads.

(** A new subscriber gets the contents as one Replace, or nothing if there are none. *)
Theorem C62_first : forall A (v : list A) es,
  let st := mv_run es (mv_new v) in
  0 < owners st -> poisoned st = false ->
  exists s, subs (mv_event ESubscribe st) = subs st ++ [s] /\ alive s = true /\ got s = []
    /\ queue s = match values st with [] => [] | vs => [Replace vs] end.
Proof. exact @mv_sends_first. Qed.
Print Assumptions C62_first.

(** What the specification says, for some operations. *)
Example C62_sends_ex :
  let st := mv_run [ESubscribe; EOp (OPush 4)] (mv_new [1; 2; 3]) in
  (0 < owners st /\ poisoned st = false /\ values st = [1; 2; 3; 4]
    /\ option_map (fun s => (alive s, queue s)) (nth_error (subs st) 0) = Some (true, [Replace [1; 2; 3]; Push 4]))
  /\ ~ op_panics (OSwap 0 2) (values st)
  /\ option_map (@queue nat) (nth_error (subs (mv_event (EOp (OSwap 0 2)) st)) 0) = Some [Replace [1; 2; 3]; Push 4; Move 0 2; Move 1 0]
  /\ option_map (@queue nat) (nth_error (subs (mv_event (EOp (ORetain Nat.odd)) st)) 0) = Some [Replace [1; 2; 3]; Push 4; Pop; RemoveAt 1]
  /\ option_map (@queue nat) (nth_error (subs (mv_event (EOp (ORetain (fun _ => false))) st)) 0) = Some [Replace [1; 2; 3]; Push 4; Clear].
Proof. cbn. repeat split; try lia; intros [_ [H|H]]; lia. Qed.

Example C62_sends_ex2 :
  op_sends (OSwap 2 0) [1; 2; 3] = [Move 2 0; Move 1 2] /\ op_sends (OSwap 1 1) [1; 2; 3] = []
  /\ op_sends (OTruncate 1) [1; 2; 3] = [Pop; Pop] /\ op_sends (OTruncate 0) [1; 2; 3] = [Clear] /\ op_sends (OTruncate 3) [1; 2; 3] = []
  /\ op_sends (ODrain (Included 0) (Included 1)) [1; 2; 3] = [RemoveAt 1; RemoveAt 0]
  /\ op_sends (ORetain (Nat.eqb 2)) [1; 2; 3] = [Pop; RemoveAt 0]
  /\ op_sends OReverse [1; 2; 3] = [Move 2 0; Move 2 1] /\ op_sends (OExtend [4; 5]) [1; 2; 3] = [Push 4; Push 5]
  /\ op_sends (OInsert 3 7) [1; 2; 3] = [Push 7] /\ op_sends (ORemove 2) [1; 2; 3] = [Pop] /\ op_sends OPop (@nil nat) = []
  /\ op_sends (OReplace []) (@nil nat) = [Replace []] /\ op_sends OClear (@nil nat) = [].
Proof. repeat split. Qed.
