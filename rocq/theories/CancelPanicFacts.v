(** Proofs about CancelPanic.v. *)
From Verif Require Import Base Conc CancelPanic.

Section Facts.
Context {A : Type}.
Implicit Types (s : cp_st A) (l : list (cp_move A)) (tr : list (cp_ev A)).

Lemma existsb_in f tr : existsb f tr = false <-> forall e, In e tr -> f e = false.
Proof.
  split.
  - intros H e He. destruct (f e) eqn:E; [|reflexivity]. assert (existsb f tr = true) by (apply existsb_exists; eauto). congruence.
  - intros H. destruct (existsb f tr) eqn:E; [|reflexivity]. apply existsb_exists in E as (e & He & Hf). rewrite (H e He) in Hf. discriminate.
Qed.

Lemma none f tr : true = negb (existsb f tr) -> filter f tr = [].
Proof. induction tr as [|e tr IH]; cbn; [auto|]. destruct (f e); [discriminate|exact IH]. Qed.

Ltac splits E s m := destruct s as [c w k b i cb pc h t tr]; destruct m as [t'| |ok|v|a|ok|ok| | | |ok]; destruct pc as [| | | | | | | | | |r|]; destruct h as [| | | | |w'|u|];
  cbn [cp_step cp_poll cp_discard] in E; try discriminate E;
  repeat match type of E with context [match ?x with _ => _ end] => is_var x; destruct x; try discriminate E end; injection E as <-; cbn [p_cancelled p_waker p_held p_bad p_inner p_cb p_pc p_h p_task p_trace] in *.

(** *** The parts of the state *)
(** What the trace says about the inner future, the callback and the mutex. *)
Definition cp_inv1 s : Prop :=
  p_inner s = negb (existsb v_drop (p_trace s)) /\ p_cb s = negb (existsb v_call (p_trace s)) /\ p_bad s = existsb v_bad (p_trace s)
  /\ count v_drop (p_trace s) <= 1 /\ count v_call (p_trace s) <= 1.
Lemma cp_inv1_step s m s' : cp_inv1 s -> cp_step s m = Some s' -> cp_inv1 s'.
Proof.
  unfold cp_inv1. intros (I1 & I2 & I3 & I4 & I5) E. splits E s m.
  all: unfold count in *; rewrite ?existsb_app, ?filter_app, ?app_length; cbn.
  all: rewrite ?orb_false_r, ?orb_true_r, ?Nat.add_0_r.
  all: refine (conj _ (conj _ (conj _ (conj _ _)))); auto.
  all: rewrite none by congruence; cbn; auto.
Qed.

(** Who holds the mutex, and where poll and discard are. *)
Definition in_poll s := match p_pc s with PStore | PUnlock => true | _ => false end.
Definition in_discard s := match p_h s with DStore | DTake | DUnlock _ => true | _ => false end.
Definition cp_inv2 s : Prop :=
  p_held s = in_poll s || in_discard s /\ in_poll s && in_discard s = false
  /\ (match p_pc s with PDrop | PTake => p_inner s = false /\ p_cancelled s = true | PCall => p_inner s = false /\ p_cancelled s = true /\ p_cb s = false
      | PInner | PClone | PLock | PStore | PUnlock | PRet Pending => p_inner s = true | PGone => In VDropFut (p_trace s) | _ => True end)
  /\ (p_cb s = false -> p_cancelled s = true /\ p_inner s = false)
  /\ (p_cancelled s = true -> match p_h s with DHeld | DUp | DLock | DStore => False | _ => True end)
  /\ (match p_h s with DTake | DUnlock _ | DWake _ => p_cancelled s = true | DDone => p_cancelled s = true \/ In VDropFut (p_trace s) \/ p_bad s = true | _ => True end)
  /\ (In VDiscardPanic (p_trace s) -> p_bad s = true \/ existsb v_wake (p_trace s) = true).
Lemma cp_inv2_step s m s' : cp_inv2 s -> cp_step s m = Some s' -> cp_inv2 s'.
Proof.
  unfold cp_inv2, in_poll, in_discard. intros (I1 & I2 & I3 & I4 & I5 & I6 & I7) E. splits E s m.
  all: cbn in *; try discriminate.
  all: refine (conj _ (conj _ (conj _ (conj _ (conj _ (conj _ _)))))); auto; try discriminate.
  all: rewrite ?in_app_iff, ?existsb_app; cbn [In existsb v_wake orb]; rewrite ?orb_true_r, ?orb_false_r.
  all: try (intuition (auto; discriminate); fail).
  all: idtac.
Qed.

Lemma cp_invs l s : exec cp_step cp_init l = Some s -> cp_inv1 s /\ cp_inv2 s.
Proof.
  intros E. split.
  - refine (exec_inv cp_step cp_inv1 cp_inv1_step l _ _ _ E). unfold cp_inv1, count. cbn. repeat split; lia.
  - refine (exec_inv cp_step cp_inv2 cp_inv2_step l _ _ _ E). unfold cp_inv2. cbn. intuition discriminate.
Qed.

Definition ordered tr : Prop := forall a b, tr = a ++ b -> existsb v_drop a = true -> existsb v_inner b = false.
Lemma ordered_app tr es : ordered tr -> (existsb v_inner es = true -> existsb v_drop (tr ++ es) = false) -> ordered (tr ++ es).
Proof.
  intros O H a b E Ha. destruct (existsb v_inner es) eqn:Ei.
  - rewrite E, existsb_app, Ha in H by reflexivity. discriminate (H eq_refl).
  - apply app_eq_app in E as (l & [[-> ->]|[-> ->]]).
    + rewrite existsb_app, Ei, (O a l eq_refl Ha). reflexivity.
    + rewrite existsb_app in Ei. apply orb_false_iff in Ei as [_ Ei]. exact Ei.
Qed.
Lemma step_emits s m s' : cp_step s m = Some s' -> exists es, p_trace s' = p_trace s ++ es /\ (existsb v_inner es = true -> p_pc s = PInner /\ existsb v_drop es = false).
Proof. intros E. splits E s m. all: first [eexists; split; [reflexivity|cbn; auto; discriminate] | exists []; split; [rewrite app_nil_r; reflexivity|discriminate]]. Qed.
Lemma ordered_exec l s : exec cp_step cp_init l = Some s -> ordered (p_trace s).
Proof.
  intros E. refine (proj1 (exec_inv cp_step (fun s => ordered (p_trace s) /\ cp_inv1 s /\ cp_inv2 s) _ l _ _ _ E)).
  - intros x m y (O & I1 & I2) E'. split; [|split; [eapply cp_inv1_step|eapply cp_inv2_step]; eassumption]. destruct (step_emits _ _ _ E') as (es & -> & He).
    apply ordered_app; [exact O|]. intros Hi. apply He in Hi as [Hp Hd]. destruct I1 as (I1 & _). destruct I2 as (_ & _ & I2 & _). rewrite Hp in I2. rewrite I2 in I1.
    rewrite existsb_app, Hd, orb_false_r. destruct (existsb v_drop (p_trace x)); [discriminate|reflexivity].
  - split; [|apply (cp_invs [] cp_init eq_refl)]. intros a b H Ha. symmetry in H. apply app_eq_nil in H as [-> ->]. discriminate.
Qed.

(** At most one call, at most one drop, no poll of the inner future after its drop. *)
Theorem cp_once l s : exec cp_step cp_init l = Some s ->
  count v_call (p_trace s) <= 1 /\ count v_drop (p_trace s) <= 1 /\ forall a b, p_trace s = a ++ VDropInner :: b -> existsb v_inner b = false.
Proof.
  intros E. destruct (cp_invs l s E) as [(_ & _ & _ & I4 & I5) _]. split; [exact I5|]. split; [exact I4|]. intros a b H.
  apply (ordered_exec l s E (a ++ [VDropInner]) b); [rewrite <- app_assoc; exact H|]. rewrite existsb_app. cbn. apply orb_true_r.
Qed.

(** *** After the cancellation *)
Definition cp_after s1 s : Prop := p_cancelled s = true /\ (match p_pc s with PIdle | PLoad | PDrop | PTake | PCall | PRet (Ready _) | PGone => True | _ => False end)
  /\ exists tr, p_trace s = p_trace s1 ++ tr /\ existsb v_inner tr = false /\ existsb v_pending tr = false.
Lemma cp_after_step s1 s m s' : cp_after s1 s -> cp_step s m = Some s' -> cp_after s1 s'.
Proof.
  unfold cp_after. intros (H1 & H2 & tr1 & H3 & H4 & H5) E. splits E s m. all: try discriminate; try (destruct H2; fail).
  all: try (destruct r; try (destruct H2; fail)).
  all: split; [reflexivity || exact H1|split; [exact I|]].
  all: rewrite H3, <- ?app_assoc; eexists; split; [reflexivity|]; rewrite ?existsb_app, ?H4, ?H5; cbn; auto.
Qed.
Theorem cp_cancelled l1 s1 l2 s2 : exec cp_step cp_init l1 = Some s1 -> p_cancelled s1 = true -> p_pc s1 = PIdle -> exec cp_step s1 l2 = Some s2 ->
  exists tr, p_trace s2 = p_trace s1 ++ tr /\ existsb v_inner tr = false /\ existsb v_pending tr = false.
Proof.
  intros E1 Hc Hp E2. refine (proj2 (proj2 (exec_inv cp_step (cp_after s1) (cp_after_step s1) l2 s1 s2 _ E2))).
  unfold cp_after. rewrite Hp. split; [exact Hc|]. split; [exact I|]. exists []. rewrite app_nil_r. auto.
Qed.

Definition cp_over s1 s : Prop := p_cancelled s = true /\ p_inner s = false /\ p_cb s = false /\ (match p_pc s with PIdle | PLoad | PTake | PGone => True | _ => False end)
  /\ exists tr, p_trace s = p_trace s1 ++ tr /\ existsb v_ret tr = false.
Lemma cp_over_step s1 s m s' : cp_over s1 s -> cp_step s m = Some s' -> cp_over s1 s'.
Proof.
  unfold cp_over. intros (H1 & H2 & H2' & H2'' & tr1 & H3 & H5) E. splits E s m. all: try discriminate; try (destruct H2''; fail).
  all: split; [reflexivity || exact H1|split; [assumption || reflexivity|split; [assumption|split; [exact I|]]]].
  all: rewrite H3, <- ?app_assoc; eexists; split; [reflexivity|]; rewrite ?existsb_app, ?H5; cbn; auto.
Qed.
(** Once the callback was called, every poll panics. *)
Theorem cp_gone l1 s1 l2 s2 : exec cp_step cp_init l1 = Some s1 -> In VCall (p_trace s1) -> p_pc s1 = PIdle -> exec cp_step s1 l2 = Some s2 ->
  exists tr, p_trace s2 = p_trace s1 ++ tr /\ existsb v_ret tr = false.
Proof.
  intros E1 Hc Hp E2. destruct (cp_invs l1 s1 E1) as [(_ & I2 & _) (_ & _ & _ & I4 & _)].
  assert (Hb : p_cb s1 = false). { rewrite I2. assert (existsb v_call (p_trace s1) = true) as -> by (apply existsb_exists; exists VCall; auto). reflexivity. }
  destruct (I4 Hb) as [H1 H2].
  refine (proj2 (proj2 (proj2 (proj2 (exec_inv cp_step (cp_over s1) (cp_over_step s1) l2 s1 s2 _ E2))))).
  unfold cp_over. rewrite Hp. repeat (split; [assumption || exact I|]). exists []. rewrite app_nil_r. auto.
Qed.
(** Until then, the next poll calls it, whatever has panicked before. *)
Theorem cp_next l s t v : exec cp_step cp_init l = Some s -> p_cancelled s = true -> p_pc s = PIdle -> ~ In VCall (p_trace s) ->
  let dropped := existsb v_drop (p_trace s) in
  exists s', exec cp_step s ([MPoll t; MGo] ++ (if dropped then [] else [MDropped true]) ++ [MGo; MCall (Some v); MGo]) = Some s'
    /\ p_trace s' = p_trace s ++ [VPoll t] ++ (if dropped then [] else [VDropInner]) ++ [VCall; VRet t (Ready v)] /\ p_pc s' = PIdle.
Proof.
  intros E Hc Hp Hn dropped. destruct (cp_invs l s E) as [(I1 & I2 & _) _].
  assert (Hb : p_cb s = true). { rewrite I2. destruct (existsb v_call (p_trace s)) eqn:X; [|reflexivity]. apply existsb_exists in X as (e & He & Hv). destruct e; try discriminate. contradiction. }
  unfold dropped in *. clear I2 E. destruct s as [c w k b i cb pc h t0 tr]. cbn in *. subst c cb pc. destruct (existsb v_drop tr); subst i; cbn.
  all: eexists; split; [reflexivity|]; cbn; rewrite <- ?app_assoc; auto.
Qed.

(** *** discard *)
Theorem cp_discards l s : exec cp_step cp_init l = Some s -> ~ In VBadDrop (p_trace s) ->
  (p_h s = DDone -> p_cancelled s = true \/ In VDropFut (p_trace s)) /\ (In VDiscardPanic (p_trace s) -> exists t, In (VWake t) (p_trace s)).
Proof.
  intros E Hn. destruct (cp_invs l s E) as [(_ & _ & I3 & _) (_ & _ & _ & _ & _ & I6 & I7)].
  assert (Hb : p_bad s = false). { rewrite I3. destruct (existsb v_bad (p_trace s)) eqn:X; [|reflexivity]. apply existsb_exists in X as (e & He & Hv). destruct e; try discriminate. contradiction. }
  split.
  - intros Hd. rewrite Hd, Hb in I6. intuition discriminate.
  - intros Hd. apply I7 in Hd as [Hd|Hd]; [congruence|]. apply existsb_exists in Hd as (e & He & Hv). destruct e; try discriminate. eauto.
Qed.

(** The slot holds the waker of the last poll that returned Pending. *)
Definition cp_slot s : Prop := p_bad s = false -> match p_h s with DHeld | DUp | DLock | DStore | DTake => True | _ => False end ->
  match p_pc s with PUnlock | PRet Pending => p_waker s = Some (p_task s) | _ => p_waker s = last_pending (p_trace s) end.
Lemma last_pending_app tr es : last_pending (tr ++ es) = match last_pending es with Some t => Some t | None => last_pending tr end.
Proof.
  unfold last_pending. rewrite fold_left_app. generalize (fold_left (fun o (e : cp_ev A) => match e with VRet t Pending => Some t | _ => o end) tr None). intros o.
  assert (G : forall o', match fold_left (fun o (e : cp_ev A) => match e with VRet t Pending => Some t | _ => o end) es o' with Some t => Some t | None => o end
    = fold_left (fun o (e : cp_ev A) => match e with VRet t Pending => Some t | _ => o end) es (match o' with Some t => Some t | None => o end)).
  { induction es as [|e es IH]; intros o'; cbn; [reflexivity|]. rewrite IH. f_equal. destruct e; try reflexivity. destruct r; reflexivity. }
  rewrite (G None). reflexivity.
Qed.
Lemma cp_slot_step s m s' : cp_slot s -> cp_step s m = Some s' -> cp_slot s'.
Proof.
  unfold cp_slot. intros H E. splits E s m. all: intros Hb Hh; try discriminate; try (destruct Hh; fail).
  all: try (destruct r); rewrite ?last_pending_app; cbn; try (apply H; auto; fail); auto.
Qed.
Lemma cp_held_exec l s : exec cp_step cp_init l = Some s -> ~ In VDiscard (p_trace s) -> p_h s = DHeld.
Proof.
  intros E H. destruct (exec_inv cp_step (fun s => p_h s = DHeld \/ In VDiscard (p_trace s))) with (l := l) (s := @cp_init A) (s' := s) as [X|X]; auto; [|contradiction].
  intros x m y Hx Ey. splits Ey x m. all: rewrite ?in_app_iff; cbn [In]; destruct Hx as [Hx|Hx]; auto; try discriminate.
Qed.
Theorem cp_wakes l s t : exec cp_step cp_init l = Some s -> ~ In VBadDrop (p_trace s) -> p_pc s = PIdle -> ~ In VDiscard (p_trace s) ->
  last_pending (p_trace s) = Some t ->
  exists s', exec cp_step s [MDiscard; MH; MH; MH; MH; MH; MWoke true] = Some s' /\ p_trace s' = p_trace s ++ [VDiscard; VWake t; VDiscarded] /\ p_cancelled s' = true.
Proof.
  intros E Hn Hp Hd Hl. assert (S : cp_slot s) by (refine (exec_inv cp_step cp_slot cp_slot_step l _ _ _ E); unfold cp_slot; cbn; auto).
  destruct (cp_invs l s E) as [(_ & _ & I3 & _) (I1 & _)]. pose proof (cp_held_exec l s E Hd) as Hh.
  assert (Hb : p_bad s = false). { rewrite I3. destruct (existsb v_bad (p_trace s)) eqn:X; [|reflexivity]. apply existsb_exists in X as (e & He & Hv). destruct e; try discriminate. contradiction. }
  unfold cp_slot, in_poll, in_discard in *. rewrite Hp, Hh in *. specialize (S Hb Logic.I). clear E I3. destruct s as [c w k b i cb pc h t0 tr]. cbn in *. subst.
  rewrite Hl. cbn. eexists. split; [reflexivity|]. cbn. rewrite <- app_assoc. auto.
Qed.

(** Until the cancellation, panics leave the inner future where it is. *)
Lemma cp_kept l s : exec cp_step cp_init l = Some s -> p_inner s = false -> p_cancelled s = true \/ p_pc s = PGone.
Proof.
  intros E. refine (exec_inv cp_step (fun s => p_inner s = false -> p_cancelled s = true \/ p_pc s = PGone) _ l _ _ _ E); [|discriminate].
  intros x m y H Ey. splits Ey x m. all: intros Hi; auto; try (destruct (H Hi); auto; discriminate).
Qed.
Theorem cp_through l s t a : exec cp_step cp_init l = Some s -> p_cancelled s = false -> p_pc s = PIdle ->
  exists s', exec cp_step s [MPoll t; MGo; MAns a] = Some s' /\ firstn (length (p_trace s) + 2) (p_trace s') = p_trace s ++ [VPoll t; VInner a]
    /\ (forall v, a = Some (Ready v) -> exists s2, cp_step s' MGo = Some s2 /\ p_trace s2 = p_trace s ++ [VPoll t; VInner a; VRet t (Ready v)]).
Proof.
  intros E Hc Hp. assert (Hi : p_inner s = true). { destruct (p_inner s) eqn:X; [reflexivity|]. destruct (cp_kept l s E X); congruence. }
  clear E. destruct s as [c w k b i cb pc h t0 tr]. cbn in *. subst c pc i.
  assert (F : forall es, firstn (length tr + 2) (tr ++ VPoll t :: VInner a :: es) = tr ++ [VPoll t; VInner a]) by (intros es; rewrite firstn_app_2; reflexivity).
  destruct a as [[|v]|]; cbn; eexists; (split; [reflexivity|]); cbn; rewrite <- ?app_assoc; (split; [apply F|]); intros v' Hv; try discriminate.
  injection Hv as ->. eexists. split; [reflexivity|]. cbn. rewrite <- ?app_assoc. reflexivity.
Qed.

(** *** Nothing gets stuck *)
Theorem cp_live l s : exec cp_step cp_init l = Some s -> (p_pc s <> PIdle /\ p_pc s <> PGone) \/ (p_h s <> DHeld /\ p_h s <> DDone) ->
  exists m s', goes_on m = true /\ cp_step s m = Some s'.
Proof.
  intros E H. destruct (cp_invs l s E) as [_ (I1 & _)]. unfold in_poll, in_discard in I1. clear E. destruct s as [c w k b i cb pc h t tr]. cbn in *.
  assert (G : forall m s', goes_on m = true -> cp_step (mkCp c w k b i cb pc h t tr) m = Some s' -> exists m s', goes_on m = true /\ cp_step (mkCp c w k b i cb pc h t tr) m = Some s') by eauto.
  destruct h; try (eapply (G MH); [reflexivity|cbn; reflexivity]); try (eapply (G (MWoke true)); reflexivity).
  all: destruct pc; try (destruct H as [[H1 H2]|[H1 H2]]; congruence); cbn in I1; subst k.
  all: try (eapply (G MGo); [reflexivity|cbn; reflexivity]).
  all: try (eapply (G (MDropped true)); [reflexivity|cbn; reflexivity]).
  all: try (eapply (G (MCall None)); [reflexivity|cbn; reflexivity]).
  all: try (eapply (G (MAns None)); [reflexivity|cbn; reflexivity]).
  all: try (eapply (G (MCloned true)); [reflexivity|cbn; reflexivity]).
  all: try (eapply (G (MOld true)); [reflexivity|cbn; reflexivity]).
  all: try (eapply (G MH); [reflexivity|cbn; reflexivity]).
  all: destruct c, i; (eapply (G MGo); [reflexivity|cbn; reflexivity]).
Qed.
Definition to_go s : nat :=
  match p_pc s with PIdle | PGone => 0 | PRet _ => 1 | PUnlock | PCall => 2 | PStore | PTake => 3 | PLock | PDrop => 4 | PClone => 5 | PInner => 6 | PLoad => 7 end
  + match p_h s with DHeld | DDone => 0 | DWake _ => 1 | DUnlock _ => 2 | DTake => 3 | DStore => 4 | DLock => 5 | DUp => 6 end.
Lemma to_go_step s m s' : goes_on m = true -> cp_step s m = Some s' -> to_go s' < to_go s.
Proof. intros G E. splits E s m; try discriminate G; unfold to_go; cbn; lia. Qed.
Theorem cp_bounded l : forall s s', forallb goes_on l = true -> exec cp_step s l = Some s' -> length l <= 13.
Proof.
  assert (K : forall l s s', forallb goes_on l = true -> exec cp_step s l = Some s' -> length l + to_go s' <= to_go s).
  { clear l. induction l as [|m l IH]; cbn; intros s s' G E; [injection E as <-; lia|]. apply andb_prop in G as [G1 G2]. destruct (cp_step s m) as [s1|] eqn:Es; [|discriminate].
    specialize (IH _ _ G2 E). pose proof (to_go_step _ _ _ G1 Es). lia. }
  intros s s' G E. specialize (K l s s' G E). assert (to_go s <= 13) by (unfold to_go; destruct (p_pc s), (p_h s); lia). lia.
Qed.
End Facts.
