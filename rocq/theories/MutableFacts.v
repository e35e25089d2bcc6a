(** Facts about Mutable.v that hold for every interleaving. *)
From Verif Require Import Base BaseFacts Conc Mutable.

(** Case analysis of one move. *)
Ltac sub_none E := repeat match type of E with
  | (match ?x with Some _ => _ | None => None end) = Some _ => destruct x eqn:?; [|discriminate E]
  | (if ?b then Some _ else None) = Some _ => destruct b eqn:?; [|discriminate E]
  end.

Ltac mu_cases E :=
  match type of E with mu_step ?s ?mv = Some ?s' =>
    destruct mv as [v|h f|h|h h'|h|h|m|i v|i|m|k|k|k]; unfold mu_step in E;
    [ | | | | | | |
      destruct (nth_error (m_ops s) i) as [o|] eqn:Hop; [|discriminate E];
      destruct (o_pc o) as [m f|m f|m|m b|a b|a b|a b|m|m|m|m|m|m v'|c fl m todo kept st|ms|] eqn:Hpc; try discriminate E
      |
      destruct (nth_error (m_ops s) i) as [o|] eqn:Hop; [|discriminate E];
      unfold op_step in E;
      destruct (o_pc o) as [m f|m f|m|m b|a b|a b|a b|m|m|m|m|m|m v'|c fl m todo kept st|ms|] eqn:Hpc; try discriminate E;
      [ | | | destruct b | | | | | | | | | |
        unfold notify_step in E; destruct todo as [|k todo];
        [destruct c as [|b|a|]|destruct st as [| | | |w];
          [destruct (g_alive (m_sig s k)) eqn:Hal|destruct (g_mutex (m_sig s k)) eqn:Hmx; [discriminate E|]
          |destruct fl|destruct (g_waker (m_sig s k)) eqn:Hwk|]]
      | destruct ms as [|m ms] ]
      |
      | destruct (k <? m_nsig s) eqn:Hk; [|discriminate E];
        destruct (g_pc (m_sig s k)) eqn:Hg; try discriminate E
      | destruct (k <? m_nsig s) eqn:Hk; [|discriminate E]; unfold sig_step in E;
        destruct (g_pc (m_sig s k)) eqn:Hg; try discriminate E
      | destruct (k <? m_nsig s) eqn:Hk; [|discriminate E];
        destruct (g_pc (m_sig s k)) eqn:Hg; try discriminate E ];
    unfold acq_w, acq_r in E;
    repeat match type of E with
    | context [lookup ?h (m_live s)] => destruct (lookup h (m_live s)) eqn:?; [|discriminate E]
    | context [if ?b then Some _ else None] => destruct b eqn:?; [|discriminate E]
    | context [if ?b then None else Some _] => destruct b eqn:?; [discriminate E|]
    | context [match g_mutex (m_sig s ?k) with _ => _ end] => destruct (g_mutex (m_sig s k)) eqn:?; [discriminate E|]
    | context [match ?f (v_val (m_mut s ?m)) with _ => _ end] => destruct (f (v_val (m_mut s m))) as [[v r]|] eqn:?
    | context [match v_sigs (m_mut s ?m) with _ => _ end] => destruct (v_sigs (m_mut s m)) eqn:?
    | context [if (v_senders (m_mut s ?m) =? ?n) then _ else _] => destruct (Nat.eqb_spec (v_senders (m_mut s m)) n)
    | context [if g_changed (m_sig s ?k) then _ else _] => destruct (g_changed (m_sig s k)) eqn:?
    end;
    injection E as <-
  end.

Section Mu.
Context {A : Type}.
Implicit Types (s : mu_st A).

(** ** Locks *)
Definition op_w (p : opc A) : list nat :=
  match p with
  | QBody m _ | QGuard m _ | QDropChk m => [m]
  | QSAcq2 a b => [a]
  | QSBody a b => [a; b]
  | QNotify c _ m _ _ _ => m :: match c with KSwap b => [b] | KSwapEnd a => [a] | _ => [] end
  | QRel ms => ms
  | _ => []
  end.
Definition op_mx (p : opc A) : option nat :=
  match p with QNotify _ _ _ (k :: _) _ (NStore | NTake) => Some k | _ => None end.

(** All Mutables that a call has to do with. *)
Definition op_ms (p : opc A) : list nat :=
  match p with
  | QAcq m _ | QGAcq m | QClone m | QDropSub m | QDropAcq m | QRAcq m | QRHold m _ => [m]
  | QSAcq1 a b | QSAcq2 a b => [a; b]
  | p => op_w p
  end.

Record lk s : Prop := {
  lk_w : forall i o m, nth_error (m_ops s) i = Some o -> In m (op_w (o_pc o)) -> v_w (m_mut s m) = Some (WOp i);
  lk_nodup : forall i o, nth_error (m_ops s) i = Some o -> NoDup (op_w (o_pc o));
  lk_r : forall i o m v, nth_error (m_ops s) i = Some o -> o_pc o = QRHold m v -> In (WOp i) (v_r (m_mut s m));
  lk_gw : forall k, g_pc (m_sig s k) = GPushDo -> v_w (m_mut s (g_mut (m_sig s k))) = Some (WSig k);
  lk_gr : forall k, match g_pc (m_sig s k) with GRead | GRRel _ => In (WSig k) (v_r (m_mut s (g_mut (m_sig s k)))) | _ => True end;
  lk_x : forall m, v_w (m_mut s m) <> None -> v_r (m_mut s m) = [];
  lk_mx : forall i o k, nth_error (m_ops s) i = Some o -> op_mx (o_pc o) = Some k -> g_mutex (m_sig s k) = Some i;
  lk_unborn : forall k, m_nsig s <= k -> g_pc (m_sig s k) = GNew;
  lk_unborn_m : forall m, m_born s <= m -> v_w (m_mut s m) = None /\ v_r (m_mut s m) = [] /\ v_sigs (m_mut s m) = [] /\ v_senders (m_mut s m) = 0;
  lk_mut : forall k, k < m_nsig s -> g_mut (m_sig s k) < m_born s;
  lk_ms : forall i o m, nth_error (m_ops s) i = Some o -> In m (op_ms (o_pc o)) -> m < m_born s;
  lk_live : forall h m, In (h, m) (m_live s) -> m < m_born s;
  lk_sigs : forall m k, In k (v_sigs (m_mut s m)) -> k < m_nsig s /\ g_mut (m_sig s k) = m;
  lk_todo : forall i o k, nth_error (m_ops s) i = Some o ->
    match o_pc o with QNotify _ _ m todo kept _ => In k (todo ++ kept) -> k < m_nsig s /\ g_mut (m_sig s k) = m | _ => True end }.

Lemma w_free_spec (x : mut A) : w_free x = true -> v_w x = None /\ v_r x = [].
Proof. unfold w_free. destruct (v_w x), (v_r x); try discriminate; auto. Qed.
Lemma r_free_spec (x : mut A) : r_free x = true -> v_w x = None.
Proof. unfold r_free. destruct (v_w x); try discriminate; auto. Qed.
Lemma in_r_remove w w' l : w <> w' -> In w l -> In w (r_remove w' l).
Proof.
  intros N H. apply filter_In. split; auto. destruct w', w; simpl; auto; destruct (Nat.eqb_spec i i0) || destruct (Nat.eqb_spec k k0); simpl; congruence.
Qed.

Lemma lookup_In h l m : lookup h l = Some m -> In (h, m) l.
Proof.
  induction l as [|[h' m'] t IH]; simpl; [discriminate|]. destruct (Nat.eqb_spec h h'); auto.
  intros [= ->]. subst. auto.
Qed.
End Mu.

Ltac fu := unfold rel_w, rel_r in *; unfold set_mut, set_sig, set_op, add_op, set_live, log_wake, log_mark, new_op,
  o_goto, o_return in *; cbn [m_mut m_born m_sig m_nsig m_live m_next m_ops m_woken m_marks
   o_hs o_pc o_ret] in *.

(** Fields that a step does not change. *)
Ltac frame := repeat match goal with
  | |- context [?p (fupd ?k ?x ?f ?j)] => rewrite (fupd_proj p k x f j eq_refl)
  | H : context [?p (fupd ?k ?x ?f ?j)] |- _ => rewrite (fupd_proj p k x f j eq_refl) in H
  end.
Ltac inv_ops := repeat match goal with
  | H : nth_error (lupd _ _ _) _ = Some _ |- _ => apply lupd_inv in H; destruct H as [[? ?]|[? H]]; subst
  | H : nth_error (_ ++ [_]) _ = Some _ |- _ => apply snoc_inv in H; destruct H as [[? ?]|[? H]]; subst
  end.
Ltac bools := repeat match goal with
  | H : w_free _ = true |- _ => apply w_free_spec in H; destruct H
  | H : r_free _ = true |- _ => apply r_free_spec in H
  | H : (_ <? _) = true |- _ => apply Nat.ltb_lt in H
  end.

(** Splits on the remaining updates. *)
Ltac fsplit1 i j x f := let e := fresh "e" in let n := fresh "n" in
  destruct (Nat.eq_dec j i) as [e|n];
    [rewrite ?(fupd_eq i j x f e) in *; try subst|rewrite ?(fupd_other i j x f n) in *].
Ltac fsplit := repeat match goal with
  | |- context [fupd ?i ?x ?f ?j] => fsplit1 i j x f
  | H : context [fupd ?i ?x ?f ?j] |- _ => fsplit1 i j x f
  end.

Ltac lk_solve := try solve [eapply lk_w; eauto | eapply lk_nodup; eauto | eapply lk_r; eauto | eapply lk_gw; eauto
    | eapply lk_gr; eauto | eapply lk_x; eauto | eapply lk_mx; eauto | eapply lk_unborn; eauto; lia
    | eapply lk_unborn_m; eauto; lia | eapply lk_mut; eauto; lia | eapply lk_ms; eauto | eapply lk_live; eauto
    | eapply lk_sigs; eauto | eapply lk_todo; eauto
    | discriminate | contradiction | lia | exfalso; lia
    | repeat constructor; simpl; tauto | auto | congruence ].

Section Mu.
Context {A : Type}.
Implicit Types (s : mu_st A).

Lemma lk_step s mv s' : lk s -> mu_step s mv = Some s' -> lk s'.
Proof.
  intros L E. mu_cases E.
  all: bools; fu.
  all: repeat match goal with H : lookup _ _ = Some _ |- _ => apply lookup_In in H; pose proof (lk_live s L _ _ H) end.
  all: try (pose proof (fun m => lk_w s L _ _ m Hop) as Lw; rewrite Hpc in Lw; simpl in Lw;
            try pose proof (Lw _ (or_introl eq_refl)); try pose proof (Lw _ (or_intror (or_introl eq_refl)))).
  all: try (pose proof (lk_nodup s L _ _ Hop) as Ld; rewrite Hpc in Ld; simpl in Ld).
  all: try (pose proof (fun k => lk_mx s L _ _ k Hop) as Lm; rewrite Hpc in Lm; simpl in Lm; try specialize (Lm _ eq_refl)).
  all: try (pose proof (fun m => lk_ms s L _ _ m Hop) as Lms; rewrite Hpc in Lms; simpl in Lms;
            try pose proof (Lms _ (or_introl eq_refl)); try pose proof (Lms _ (or_intror (or_introl eq_refl)))).
  all: try (pose proof (fun k => lk_todo s L _ _ k Hop) as Lt; rewrite Hpc in Lt; simpl in Lt;
            try pose proof (Lt _ (or_introl eq_refl))).
  all: try (assert (Lk : g_mut (m_sig s k) < m_born s) by (apply (lk_mut s L); assumption)).
  all: constructor.
  all: intros; fu; inv_ops; fu; frame; simpl in *.
  all: lk_solve.
  all: try discriminate.
  all: repeat match goal with
    | L : lk ?s, H : nth_error (m_ops ?s) ?i = Some ?o, H0 : In ?m (op_w (o_pc ?o)) |- _ => pose proof (lk_w s L _ _ _ H H0); revert H0
    | L : lk ?s, H : nth_error (m_ops ?s) ?i = Some ?o, H0 : op_mx (o_pc ?o) = Some ?k |- _ => pose proof (lk_mx s L _ _ _ H H0); revert H0
    | L : lk ?s, H0 : g_pc (m_sig ?s ?k) = GPushDo |- _ => pose proof (lk_gw s L _ H0); revert H0
    | H : match ?l with [] => None | _ :: _ => _ end = Some _ |- _ => destruct l; discriminate H
    | H : In _ (_ ++ []) |- _ => rewrite app_nil_r in H
    end; intros.
  all: try (match goal with L : lk ?s |- context [g_pc (m_sig ?s ?k)] => pose proof (lk_gr s L k) end).
  all: try (pose proof (lk_unborn_m s L (m_born s) (le_n _)) as [Ub1 [Ub2 [Ub3 Ub4]]]).
  all: try (pose proof (lk_unborn s L (m_nsig s) (le_n _)) as Ub5).
  all: fsplit; simpl in *; try congruence.
  all: lk_solve.
  all: try solve [rewrite <- Ub2; eapply lk_r; eauto].
  all: try (rewrite ?Ub2 in *; assumption).
  all: try solve [right; eapply lk_r; eauto].
  all: try solve [apply in_r_remove; [congruence|eapply lk_r; eauto]].
  all: try match goal with H : match g_pc ?g with _ => _ end |- match g_pc ?g with _ => _ end =>
     destruct (g_pc g) eqn:?; auto; try (apply in_r_remove; [congruence|assumption]); try contradiction end.
  all: try solve [apply Nat.lt_lt_succ_r; eapply lk_ms; eauto | apply Nat.lt_lt_succ_r; eapply lk_live; eauto ].
  all: intros; repeat match goal with H : In _ (_ ++ []) |- _ => rewrite app_nil_r in H end.
  all: try solve [eapply lk_sigs; eauto].
  all: try solve [exfalso; match goal with H : nth_error _ _ = Some _, H0 : o_pc _ = QRHold _ _ |- _ =>
     pose proof (lk_r s L _ _ _ _ H H0); rewrite Ub2 in *; contradiction end].
  all: try solve [intuition (subst; auto; lia)].
  all: try solve [repeat constructor; simpl; intros [<-|[]]; congruence].
  all: try solve [inversion Ld; auto].
  all: try solve [rewrite lk_x; auto; congruence].
  all: try solve [destruct (lk_sigs s L _ _ ltac:(eassumption)); lia].
  all: try solve [destruct (lk_sigs s L _ _ ltac:(eassumption)); split; auto; lia].
  all: try match goal with Hg : g_pc (m_sig _ ?k) = _, H : In _ (_ ++ [?k]) |- _ => apply in_app_or in H; destruct H as [H|[<-|[]]] end.
  all: try solve [eapply lk_sigs; eauto].
  all: try solve [apply Lt; rewrite ?app_assoc; apply in_or_app; tauto].
  - rewrite e, Ub2 in H. exact H.
  - rewrite e, Ub2 in H. exact H.
  - pose proof (lk_mut s L k ltac:(assumption)). lia.
  - apply in_app_or in H. destruct H as [H|[[= <- <-]|[]]]; [|lia]. pose proof (lk_live s L _ _ H). lia.
  - apply filter_In in H0. eapply lk_live; [exact L|apply H0].
  - constructor; [|constructor; [easy|constructor]]. intros [->|[]]. congruence.
  - apply in_app_or in H0. destruct H0 as [H0|[[= <- <-]|[]]]; [|lia]. eapply lk_live; eauto.
  - rewrite app_nil_r in *. apply (lk_sigs s L). rewrite Heql. simpl; auto.
  - inversion Ld as [|? ? Hn Hd]; subst. constructor; [|constructor; [easy|constructor]].
    intros [->|[]]. apply Hn. left. reflexivity.
  - apply Lt. rewrite !in_app_iff in *. simpl in *. tauto.
  - apply Lt. rewrite !in_app_iff in *. simpl in *. tauto.
  - inversion Ld; subst. contradiction.
  - exfalso. destruct (o_pc o) as [| | | | | | | | | | | | |c fl m' todo kept st| |] eqn:Hp; try discriminate.
    destruct todo as [|k' t]; [discriminate|]. pose proof (lk_todo s L _ _ (m_nsig s) H) as X. rewrite Hp in X.
    destruct X as [X _]; [|lia]. simpl in H0. simpl. left. destruct st; congruence.
  - destruct (o_pc o) eqn:Hp; auto. intros Hi. pose proof (lk_todo s L _ _ (m_nsig s) H) as X. rewrite Hp in X.
    destruct X as [X _]; auto. lia.
  - destruct (o_pc o) eqn:Hp; auto. intros Hi. pose proof (lk_todo s L _ _ k H) as X. rewrite Hp in X.
    destruct X as [X Y]; auto.
  - pose proof (lk_gw s L k0 H1). congruence.
  - pose proof (lk_gw s L k0 H). pose proof (lk_gw s L k Hg). congruence.
  - auto.
  - pose proof (lk_gr s L k0) as X. rewrite e in X. destruct (g_pc (m_sig s k0)); auto.
  - exact Logic.I || (pose proof (lk_gr s L k) as X; rewrite Hg in X; exact X).
  - pose proof (lk_gr s L k0) as X. rewrite e in X. destruct (g_pc (m_sig s k0)) eqn:?; auto; apply in_r_remove; auto; congruence.
Qed.

Lemma lk_init (d : A) : lk (mu_init d).
Proof.
  constructor; simpl; intros; auto; try (destruct i; discriminate); try discriminate; try lia; try contradiction.
Qed.
End Mu.
