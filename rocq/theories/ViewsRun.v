(** Every execution of Views.v: what holds in each state. *)
From Verif Require Import Base Conc Spec BaseFacts LoopFacts VecDiff VecSpec Mpsc MapDiff MutVec MutMap Shared SharedFacts VecExecFacts Views ViewsFacts.

Section Pipe.
Context {D : Type}.

(** If the answers of a view are complete, so are those of the channel. *)
Lemma complete_below {B} (p : pipe D B) : forall ps cg outs b, lawful_pipe p -> holds p ps cg outs b -> calm p ps -> complete outs -> complete cg.
Proof.
  induction p as [|A B m p IH]; intros ps cg outs b; cbn [holds lawful_pipe calm]; [intros _ ->; auto|].
  destruct ps as [[[st log] known] below]. intros (L1 & L2 & L3 & L4 & L5) ((k & Hk) & _ & _ & _ & H5) (-> & Hc) Hcomp.
  rewrite app_nil_r in H5. apply (IH _ _ _ _ L5 H5 Hc). destruct Hcomp as [(q & ->)|Hi].
  - destruct (run_unsnoc _ _ _ _ _ _ Hk) as (j & [s0 sr0] & K1 & K2 & K3).
    destruct (L2 _ _ _ _ _ _ _ K1 K2 K3) as [X|(q' & X)]; [right; exact X|left]. simpl in X. rewrite X, app_assoc. eexists. reflexivity.
  - right. exact (L3 _ _ _ _ _ Hk (run_end_last m k _ _ _ Hk Hi)).
Qed.
End Pipe.

Section Sys.
Context {C D O R : Type} (run : O -> C -> C * list D * option R) (first : C -> list D).
Notation step := (sys_step run first).
Notation sstep := (sh_step run first).
Implicit Types (s : system C D O R) (t : task D) (c : chan D).

(** ** What the users of the contents do to the channels *)
Lemma csend_keeps id d (cs cs' : list (chan D)) ok : csend id d cs = (cs', ok) -> length cs' = length cs
  /\ forall i c', nth_error cs' i = Some c' -> exists c, nth_error cs i = Some c /\ cgot c' = cgot c /\ calive c' = calive c /\ (cwoken c = true -> cwoken c' = true).
Proof.
  unfold csend. destruct (nth_error cs id) as [x|] eqn:E.
  2:{ intros H. injection H as <- <-. split; [reflexivity|]. eauto 10. }
  destruct (calive x); intros H; injection H as <- <-; [|split; [reflexivity|]; eauto 10].
  assert (X : firstn id cs ++ cdeliver d x :: skipn (id + 1) cs = lupd id (cdeliver d x) cs).
  { clear - E. revert id E. induction cs as [|y cs IH]; intros [|id] E; try discriminate; simpl in *; [reflexivity|]. rewrite IH; auto. }
  rewrite X. split; [apply lupd_length|]. intros i c' H. apply lupd_inv in H. destruct H as [(<- & ->)|(_ & H)]; [|eauto 10].
  exists x. split; [exact E|]. cbn. split; [reflexivity|]. split; [reflexivity|]. intros ->. reflexivity.
Qed.

Lemma outside_keeps (st st' : shared C D O R) a : sstep st a = Some st' -> outside a = true -> length (chans st') = length (chans st)
  /\ forall i c', nth_error (chans st') i = Some c' -> exists c, nth_error (chans st) i = Some c /\ cgot c' = cgot c /\ calive c' = calive c /\ (cwoken c = true -> cwoken c' = true).
Proof.
  assert (Same : forall st'' : shared C D O R, chans st'' = chans st -> length (chans st'') = length (chans st)
    /\ forall i c', nth_error (chans st'') i = Some c' -> exists c, nth_error (chans st) i = Some c /\ cgot c' = cgot c /\ calive c' = calive c /\ (cwoken c = true -> cwoken c' = true)).
  { intros st'' E. rewrite E. split; [reflexivity|]. eauto 10. }
  intros H Ho. destruct a; try discriminate; cbn [sh_step] in H.
  - destruct (free st); [|discriminate]. injection H as <-. apply Same. reflexivity.
  - destruct (Shared.holds t st && ready st); [|discriminate]. injection H as <-. apply Same. reflexivity.
  - destruct (_ && _); [|discriminate]. destruct (run o (contents st)) as [[x y] z]. injection H as <-. apply Same. reflexivity.
  - destruct (Shared.holds t st); [|discriminate]. destruct (cur st) as [[d [|id l]]|].
    + injection H as <-. apply Same. reflexivity.
    + destruct (csend id d (chans st)) as [cs ok] eqn:E. injection H as <-. cbn. exact (csend_keeps _ _ _ _ _ E).
    + destruct (later st); [discriminate|]. injection H as <-. apply Same. reflexivity.
  - destruct (_ && _); [|discriminate]. injection H as <-. apply Same. reflexivity.
  - destruct (existsb _ _); [|discriminate]. injection H as <-. apply Same. reflexivity.
  - destruct (0 <? owners st); [|discriminate]. injection H as <-. apply Same. reflexivity.
  - destruct (owners st) as [|[|n]]; [discriminate| |].
    + destruct (_ && _); [|discriminate]. injection H as <-. cbn. split; [apply map_length|]. intros i c' Hc.
      rewrite nth_error_map in Hc. destruct (nth_error (chans st) i) as [c|]; [|discriminate]. injection Hc as <-. exists c. cbn. repeat split; auto. intros ->. reflexivity.
    + injection H as <-. apply Same. reflexivity.
Qed.

(** ** The tasks *)
Record task_fine t c : Prop := {
  tf_alive : tat t <> TGone -> calive c = true;
  tf_from : tfrom t <= length (cgot c);
  tf_holds : lawful_pipe (tpipe t) -> holds (tpipe t) (tstate t) (cgot c) (tshown t) (tfrom t <? length (cgot c));
  tf_calm : lawful_pipe (tpipe t) -> tat t <> TBusy -> tat t <> TPanic -> calm (tpipe t) (tstate t);
  tf_open : tat t <> TDone -> ~ In (Ready None) (tshown t);
  tf_done : tat t = TDone -> In (Ready None) (tshown t);
  tf_idle : tat t = TIdle -> tshown t = [] /\ twoken t = true \/ last_out (tshown t) Pending;
  tf_flag : cwoken c = true -> twoken t = true \/ (tat t = TBusy /\ tfrom t = length (cgot c)) \/ tat t = TGone \/ tat t = TDone \/ tat t = TPanic
            \/ (lawful_pipe (tpipe t) -> In (Ready None) (cgot c));
  tf_panic : tat t = TPanic -> exists closed ch, cgot ch = cgot c /\ advance closed (tpipe t) (tstate t) ch = None }.

Definition sys_fine (c0 : C) s : Prop :=
  (exists acts, exec sstep (sh_init c0) acts = Some (sh s))
  /\ length (tasks s) = length (chans (sh s))
  /\ forall i t c, nth_error (tasks s) i = Some t -> nth_error (chans (sh s)) i = Some c -> task_fine t c.

Lemma wake_all_nth : forall ts i k before after t, nth_error (wake_all k ts before after) i = Some t ->
  exists t0, nth_error ts i = Some t0 /\ t = wake t0 (wakes (nth_error before (k + i)) (nth_error after (k + i))).
Proof.
  induction ts as [|x ts IH]; intros [|i] k before after t H; simpl in H; try discriminate.
  - injection H as <-. exists x. rewrite Nat.add_0_r. auto.
  - destruct (IH _ _ _ _ _ H) as (t0 & H1 & H2). exists t0. rewrite <- Nat.add_succ_comm. auto.
Qed.
Lemma wake_all_length : forall (ts : list (task D)) k before after, length (wake_all k ts before after) = length ts.
Proof. induction ts as [|x ts IH]; intros; simpl; auto. Qed.

Lemma exec_snoc {S M} (st : S -> M -> option S) a l x b y : exec st a l = Some x -> st x b = Some y -> exec st a (l ++ [b]) = Some y.
Proof. intros H1 H2. rewrite exec_app, H1. simpl. rewrite H2. reflexivity. Qed.

Lemma lupd_id {A} i (x : A) l : nth_error l i = Some x -> lupd i x l = l.
Proof. revert i. induction l as [|y l IH]; intros [|i] H; simpl in *; try discriminate; [congruence|]. rewrite IH; auto. Qed.

Lemma advance_chan {B} (p : pipe D B) closed : forall ps c ps' c' a, advance closed p ps c = Some (ps', c', a) -> c' = c \/ c' = fst (cpoll closed c).
Proof.
  induction p as [|A B m p IH]; intros ps c ps' c' a; cbn [advance].
  - destruct (cpoll closed c). intros H. injection H as <- <- <-. auto.
  - destruct ps as [[[st log] known] below]. destruct (mpoll m _) as [[[st1 after] r]|]; [|discriminate]. destruct (_ <? _).
    + destruct (advance closed p below c) as [[[b' c1] x]|] eqn:E; [|discriminate]. intros H. injection H as <- <- <-. eauto.
    + intros H. injection H as <- <- <-. auto.
Qed.

Lemma cpoll_woken closed c : cwoken (fst (cpoll closed c)) = false.
Proof. unfold cpoll. destruct (cqueue c); [destruct closed|]; reflexivity. Qed.
Lemma cpoll_alive closed c : calive (fst (cpoll closed c)) = calive c.
Proof. unfold cpoll. destruct (cqueue c); [destruct closed|]; reflexivity. Qed.

(** The start of a poll. *)
Lemma begin_fine t c : task_fine t c -> tat t = TIdle -> task_fine (begin t (length (cgot c))) c.
Proof.
  intros F E. constructor; cbn; try discriminate; auto.
  - intros _. apply (tf_alive _ _ F). congruence.
  - intros L. eapply holds_start; [|apply (tf_holds _ _ F L)]. apply (tf_calm _ _ F L); congruence.
  - intros _ ?. congruence.
  - intros _. apply (tf_open _ _ F). congruence.
Qed.

(** One step of a poll. *)
Lemma proceed_fine t c closed ps c' a : task_fine t c -> tat t = TBusy -> advance closed (tpipe t) (tstate t) c = Some (ps, c', a) ->
  task_fine (proceed t ps a) c'.
Proof.
  intros F E Ha. pose proof (advance_chan _ _ _ _ _ _ _ Ha) as Hc.
  assert (Hgot : length (cgot c) <= length (cgot c')).
  { destruct Hc as [->| ->]; [lia|]. rewrite cpoll_got, app_length. lia. }
  assert (Hal : calive c' = true).
  { assert (calive c = true) by (apply (tf_alive _ _ F); congruence). destruct Hc as [->| ->]; [|rewrite cpoll_alive]; auto. }
  assert (Hop : ~ In (Ready None) (tshown t)) by (apply (tf_open _ _ F); congruence).
  pose proof (tf_from _ _ F) as Hf.
  assert (Hb : c' <> c -> (tfrom t <? length (cgot c')) = true).
  { intros Hne. destruct Hc as [->| ->]; [congruence|]. apply Nat.ltb_lt. rewrite cpoll_got, app_length. simpl. lia. }
  assert (Hh : lawful_pipe (tpipe t) -> match a with
     | None => holds (tpipe t) ps (cgot c') (tshown t) (tfrom t <? length (cgot c'))
     | Some r => holds (tpipe t) ps (cgot c') (tshown t ++ [r]) (tfrom t <? length (cgot c')) /\ calm (tpipe t) ps
                 /\ (r = Pending -> (tfrom t <? length (cgot c')) = true \/ In (Ready None) (cgot c'))
     end).
  { intros L. pose proof (tf_holds _ _ F L) as H0.
    refine (proj2 (advance_holds (tpipe t) closed _ _ _ _ (tfrom t <? length (cgot c')) _ _ _ L H0 (or_intror Hop) Ha _ Hb)).
    intros X. apply Nat.ltb_lt in X. apply Nat.ltb_lt. lia. }
  assert (Hw : cwoken c' = true -> twoken t = true \/ tfrom t = length (cgot c') \/ (lawful_pipe (tpipe t) -> In (Ready None) (cgot c'))).
  { intros X. destruct Hc as [->| ->]; [|rewrite cpoll_woken in X; discriminate].
    destruct (tf_flag _ _ F X) as [Y|[(_ & Y)|[Y|[Y|[Y|Y]]]]]; auto; congruence. }
  destruct a as [r|]; cbn [proceed].
  - constructor; cbn; auto; try lia.
    + intros L. apply Hh. exact L.
    + intros L _ _. apply Hh. exact L.
    + intros X Hi. apply in_app_or in Hi. destruct Hi as [Hi|[Hi|[]]]; [auto|]. subst r. apply X. reflexivity.
    + destruct r as [|[r|]]; try discriminate. intros _. apply in_or_app. right. left. reflexivity.
    + destruct r as [|[r|]]; try discriminate. intros _. right. eexists. reflexivity.
    + intros X. destruct (Hw X) as [Y|[Y|Y]]; [auto| |auto 10].
      destruct r as [|[r|]]; auto 10. right. right. right. right. right. intros L.
      destruct (Hh L) as (_ & _ & Z). destruct (Z eq_refl) as [Z'|Z']; [|exact Z']. apply Nat.ltb_lt in Z'. lia.
    + destruct r as [|[r|]]; discriminate.
  - constructor; cbn; auto; try lia; try discriminate.
    + intros _ X. congruence.
    + intros X. destruct (Hw X) as [Y|[Y|Y]]; auto 10.
Qed.

Lemma step_fine (c0 : C) s x s' : sys_fine c0 s -> step s x = Some s' -> sys_fine c0 s'.
Proof.
  intros ((acts & Hex) & Hlen & Hall) H. destruct x as [a|B p|i|i|i]; cbn [sys_step] in H.
  - destruct (outside a) eqn:Ho; [|discriminate]. destruct (sstep (sh s) a) as [sh'|] eqn:E; [|discriminate]. injection H as <-.
    destruct (outside_keeps _ _ _ E Ho) as [K1 K2]. split; [exists (acts ++ [a]); eapply exec_snoc; eauto|].
    split; [cbn; rewrite wake_all_length; lia|]. cbn. intros i t c' Ht Hc'.
    destruct (wake_all_nth _ _ _ _ _ _ Ht) as (t0 & Ht0 & ->). destruct (K2 _ _ Hc') as (c & Hc & E1 & E2 & E3). cbn. rewrite Hc, Hc'.
    destruct (Hall _ _ _ Ht0 Hc) as [F1 F2 F3 F4 F5 F6 F7 F8 F9]. constructor; cbn; rewrite ?E1, ?E2; auto.
    + intros X. destruct (F7 X) as [(Y & Z)|Y]; [rewrite Z; auto|auto].
    + intros X. rewrite X. destruct (cwoken c) eqn:Ew; cbn.
      * rewrite orb_false_r. auto.
      * rewrite orb_true_r. auto.
  - destruct (sstep (sh s) ASubscribe) as [sh'|] eqn:E; [|discriminate]. injection H as <-.
    split; [exists (acts ++ [ASubscribe]); eapply exec_snoc; eauto|].
    cbn [sh_step] in E. destruct (free (sh s)); [|discriminate]. injection E as <-. cbn.
    split; [rewrite !app_length; simpl; lia|]. intros i t c Ht Hc. destruct (Nat.lt_ge_cases i (length (tasks s))) as [Hi|Hi].
    + rewrite nth_error_app1 in Ht by exact Hi. rewrite nth_error_app1 in Hc by lia. eauto.
    + rewrite nth_error_app2 in Ht by exact Hi. rewrite nth_error_app2 in Hc by lia. rewrite <- Hlen in Hc.
      destruct (i - length (tasks s)) as [|[|]]; try discriminate. injection Ht as <-. injection Hc as <-.
      constructor; cbn; try discriminate; auto; [intros _; apply holds_init|intros _ _ _; apply calm_init].
  - destruct (nth_error (tasks s) i) as [t|] eqn:Et; [|discriminate]. destruct (nth_error (chans (sh s)) i) as [c|] eqn:Ec; [|discriminate].
    destruct (tat t) eqn:Ea; try discriminate. injection H as <-. split; [eauto|]. cbn. split; [rewrite lupd_length; auto|].
    intros j t' c' Ht' Hc'. apply lupd_inv in Ht'. destruct Ht' as [(<- & ->)|(_ & Ht')]; [|eauto].
    rewrite Ec in Hc'. injection Hc' as <-. apply begin_fine; eauto.
  - destruct (nth_error (tasks s) i) as [t|] eqn:Et; [|discriminate]. destruct (nth_error (chans (sh s)) i) as [c|] eqn:Ec; [|discriminate].
    destruct (tat t) eqn:Ea; try discriminate. pose proof (Hall _ _ _ Et Ec) as F.
    destruct (advance (owners (sh s) =? 0) (tpipe t) (tstate t) c) as [[[ps c'] r]|] eqn:Ead; injection H as <-.
    + pose proof (advance_chan _ _ _ _ _ _ _ Ead) as Hc. split; [|split].
      * destruct Hc as [->| ->].
        -- exists acts. cbn. rewrite lupd_id by exact Ec. destruct (sh s); exact Hex.
        -- exists (acts ++ [APoll i]). eapply exec_snoc; [exact Hex|]. cbn [sh_step]. rewrite Ec.
           rewrite (tf_alive _ _ F) by congruence. reflexivity.
      * cbn. rewrite !lupd_length. exact Hlen.
      * cbn. intros j t' x Ht' Hx. apply lupd_inv in Ht'. destruct Ht' as [(<- & ->)|(Hne & Ht')].
        -- rewrite (lupd_same _ _ _ _ Ec) in Hx. injection Hx as <-. eapply proceed_fine; eauto.
        -- rewrite lupd_other in Hx by exact Hne. eauto.
    + split; [eauto|]. cbn. split; [rewrite lupd_length; auto|].
      intros j t' c' Ht' Hc'. apply lupd_inv in Ht'. destruct Ht' as [(<- & ->)|(_ & Ht')]; [|eauto].
      rewrite Ec in Hc'. injection Hc' as <-. destruct F as [F1 F2 F3 F4 F5 F6 F7 F8 F9].
      constructor; cbn; try discriminate; auto.
      all: intros; try congruence; eauto 8. all: first [apply F1; congruence|apply F5; congruence].
  - destruct (nth_error (tasks s) i) as [t|] eqn:Et; [|discriminate]. destruct (tat t) eqn:Ea; try discriminate.
    destruct (sstep (sh s) (ADropSub i)) as [sh'|] eqn:E; [|discriminate]. injection H as <-.
    split; [exists (acts ++ [ADropSub i]); eapply exec_snoc; eauto|].
    cbn [sh_step] in E. destruct (nth_error (chans (sh s)) i) as [c|] eqn:Ec; [|discriminate]. destruct (calive c); [|discriminate]. injection E as <-. cbn.
    split; [rewrite !lupd_length; exact Hlen|]. intros j t' x Ht' Hx. apply lupd_inv in Ht'. destruct Ht' as [(<- & ->)|(Hne & Ht')].
    + rewrite (lupd_same _ _ _ _ Ec) in Hx. injection Hx as <-. destruct (Hall _ _ _ Et Ec) as [F1 F2 F3 F4 F5 F6 F7 F8 F9].
      constructor; cbn; try discriminate; auto.
      all: intros; try congruence; eauto 8. all: first [apply F4; congruence|apply F5; congruence].
    + rewrite lupd_other in Hx by exact Hne. eauto.
Qed.

Lemma sys_reach (c0 : C) acts s : exec step (sys_init c0) acts = Some s -> sys_fine c0 s.
Proof.
  apply (exec_inv step (sys_fine c0)); [intros x m x'; apply step_fine|].
  split; [exists []; reflexivity|]. split; [reflexivity|]. intros [|i]; discriminate.
Qed.
End Sys.
