(** Programs with SignalVec pipelines (VecExec.v): conditions on the operations of the program under which the side
    conditions of filter, filter_map and chain are always met. *)
From Verif Require Import Base Conc Spec BaseFacts LoopFacts VecDiff VecFacts VecSpec VecSimple VecSimpleFacts Sort SortSpec SortFacts
  Chain ChainFacts Slot SlotFacts MutVec MutVecSpec MutVecFacts MutVecRun MutVecSends VecCalm VecExec VecExecFacts VecExecRun
  VecExecEnd VecExecUse.

(** ** Specification *)

(** The operation moves nothing backwards. *)
Definition forward_op {V} (o : op V) (v : list V) : Prop :=
  match o with
  | OMove a b | OApply (Move a b) => a <= b
  | OSwap a b => a = b \/ b = a + 1
  | OReverse => length v <= 1
  | _ => True
  end.

(** The operation does not replace nothing by nothing. *)
Definition filling_op {V} (o : op V) (v : list V) : Prop :=
  match o with
  | OReplace vs | OReplaceCloned vs | OApply (Replace vs) => v <> [] \/ vs <> []
  | _ => True
  end.

(** The pipeline has no filter and no filter_map. *)
Fixpoint unfiltered {V} (p : pipe V) : Prop :=
  match p with
  | PMut _ => True
  | POne c p => unfiltered p /\ match c with CFilter _ | CFilterMap _ => False | _ => True end
  | PChain p q => unfiltered p /\ unfiltered q
  end.

(** What is asked of a pipeline: beneath each filter and filter_map are only MutableVecs in [F], beneath each chain only MutableVecs in
    [N] and no filter or filter_map; the comparison functions of sort_by_cloned are total preorders. *)
Fixpoint sound {V} (F N : nat -> Prop) (p : pipe V) : Prop :=
  match p with
  | PMut _ => True
  | POne c p => sound F N p /\ match c with
                               | CFilter _ | CFilterMap _ => forall m, In m (muts p) -> F m
                               | CSort compare => total_preorder compare
                               | _ => True
                               end
  | PChain p q => sound F N p /\ sound F N q /\ unfiltered p /\ unfiltered q /\ forall m, In m (muts p ++ muts q) -> N m
  end.

(** What is asked of the program: nothing moves backwards in the MutableVecs in [F], and those in [N] are never replaced by nothing
    while they are empty. *)
Definition careful_move {V} (F N : nat -> Prop) (w : world V) (mv : move V) : Prop :=
  match mv with
  | MOp m o => (F m -> forward_op o (contents w m)) /\ (N m -> filling_op o (contents w m))
  | _ => True
  end.

Fixpoint careful {V} (F N : nat -> Prop) (w : world V) (mvs : list (move V)) : Prop :=
  match mvs with
  | [] => True
  | mv :: mvs => careful_move F N w mv /\ match step w mv with Some w' => careful F N w' mvs | None => True end
  end.

(** ** The operations *)
Section Ops.
Context {V : Type}.
Implicit Types (o : op V) (v : list V).

Lemma removed_tidy is : forall len, Forall (@fwd V) (removed_at is len) /\ Forall (@mild V) (removed_at is len).
Proof.
  induction is as [|i is IH]; intros len; cbn [removed_at]; [split; constructor|]. destruct (IH (len - 1)) as [H1 H2].
  split; constructor; auto; destruct (i + 1 =? len); try exact I; split; discriminate.
Qed.

Lemma range_forward a b len : Forall (@fwd V) (removed_range a b len).
Proof.
  unfold removed_range. destruct (b <=? a); [constructor|]. destruct (_ && _); [repeat constructor|]. apply removed_tidy.
Qed.

Lemma range_fills a b v : fills v (removed_range a b (length v)).
Proof.
  unfold removed_range. destruct (Nat.leb_spec b a); [exact I|]. destruct ((a =? 0) && (b =? length v)) eqn:E.
  - apply andb_prop in E. destruct E as [_ E]. apply Nat.eqb_eq in E. cbn [fills]. split; [|exact I].
    intros ->. cbn in E. lia.
  - apply fills_mild. apply removed_tidy.
Qed.

Lemma op_forward o v : forward_op o v -> Forall fwd (op_sends o v).
Proof.
  intros H. destruct o as [|i|a b|  |f|b1 b2|n|a b| |x|i x|i x|vs|x|i x|i x|vs|vs|d]; cbn [op_sends forward_op] in *.
  19: destruct d as [vs|i x|i x|i|a b|x| |].
  all: try (repeat constructor; fail).
  all: try (destruct v; repeat constructor; fail).
  all: try (match goal with |- context [if ?b then _ else _] => destruct b end; repeat constructor; fail).
  all: try (apply range_forward).
  - unfold moved. destruct (a =? b); repeat constructor. exact H.
  - destruct v as [|x v]; [constructor|]. destruct (filter f (x :: v)); [repeat constructor|]. apply removed_tidy.
  - destruct H as [->| ->].
    + unfold moved. rewrite Nat.eqb_refl, !Nat.ltb_irrefl. constructor.
    + replace (a <? a + 1) with true by (symmetry; apply Nat.ltb_lt; lia). replace (a + 1 - 1) with a by lia.
      unfold moved. rewrite Nat.eqb_refl. destruct (a =? a + 1); repeat constructor. simpl. lia.
  - replace (length v - 1) with 0 by lia. constructor.
  - apply Forall_map, Forall_forall. intros x _. exact I.
  - unfold moved. destruct (a =? b); repeat constructor. exact H.
Qed.

Lemma op_fills o v : filling_op o v -> fills v (op_sends o v).
Proof.
  intros H. destruct o as [|i|a b|  |f|b1 b2|n|a b| |x|i x|i x|vs|x|i x|i x|vs|vs|d]; cbn [op_sends filling_op] in *.
  19: destruct d as [vs|i x|i x|i|a b|x| |].
  all: try (apply range_fills).
  all: try (apply fills_mild; repeat (constructor; try (split; discriminate)); fail).
  all: try (destruct v; [apply fills_mild; repeat (constructor; try (split; discriminate))|
            cbn [fills]; split; [discriminate|]; destruct (apply_to_vec _ _); exact I]; fail).
  all: try (apply fills_mild; match goal with |- context [if ?b then _ else _] => destruct b end; repeat (constructor; try (split; discriminate)); fail).
  all: try (cbn [fills]; split; [|destruct (apply_to_vec _ _); exact I]; intros ->; split; [discriminate|]; intros E; injection E as ->; destruct H as [H|H]; exact (H eq_refl)).
  - unfold moved. destruct (a =? b); apply fills_mild; repeat (constructor; try (split; discriminate)).
  - destruct v as [|x v]; [exact I|]. destruct (filter f (x :: v)); [cbn [fills]; split; [discriminate|exact I]|].
    apply fills_mild. apply removed_tidy.
  - assert (M : forall a b, Forall (@mild V) (moved a b)).
    { intros a0 b0. unfold moved. destruct (a0 =? b0); repeat (constructor; try (split; discriminate)). }
    apply fills_mild, Forall_app. split; [apply M|]. destruct (a <? b); [apply M|]. destruct (b <? a); [apply M|constructor].
  - apply fills_mild, Forall_map, Forall_forall. intros x _. split; discriminate.
  - apply fills_mild, Forall_map, Forall_forall. intros x _. split; discriminate.
  - unfold moved. destruct (a =? b); apply fills_mild; repeat (constructor; try (split; discriminate)).
Qed.

(** What one event does to the totals of the subscribers. *)
Lemma event_totals (e : event V) (st : mvec V) : inv st -> forall y, In y (subs (mv_event e st)) ->
  (exists x, In x (subs st) /\ total y = total x)
  \/ (e = ESubscribe /\ (total y = [] \/ values st <> [] /\ total y = [Replace (values st)]))
  \/ (exists o x, e = EOp o /\ In x (subs st) /\ alive x = true /\ poisoned st = false /\ total y = total x ++ op_sends o (values st)).
Proof.
  intros Hi y. pose proof Hi as [W _].
  destruct e as [o| |k|k| |].
  - destruct ((0 <? owners st) && negb (poisoned st)) eqn:Eb.
    + apply andb_prop in Eb. destruct Eb as [E1 E2]. apply Nat.ltb_lt in E1. apply negb_true_iff in E2.
      destruct (op_event o (values st)) as [(_ & v' & H)|(Hn & _)].
      * destruct (H st eq_refl W E1 E2) as [_ ->]. intros Hy. left. exists y. auto.
      * destruct (op_event_exact o st W E1 E2 Hn) as [-> _]. intros Hy. apply in_map_iff in Hy. destruct Hy as (x & <- & Hx).
        destruct (alive x) eqn:Ha.
        -- right. right. exists o, x. split; [reflexivity|]. split; [exact Hx|]. split; [exact Ha|]. split; [exact E2|apply total_recv; exact Ha].
        -- left. exists x. split; [exact Hx|]. unfold recv. rewrite Ha. reflexivity.
    + unfold mv_event. rewrite Eb. intros Hy. left. exists y. auto.
  - unfold mv_event. destruct (_ && _); [|intros Hy; left; exists y; auto]. unfold mv_subscribe. cbn [subs]. intros Hy.
    apply in_app_or in Hy. destruct Hy as [Hy|[<-|[]]]; [left; exists y; auto|]. right. left. split; [reflexivity|].
    unfold total. cbn. destruct (values st); [left; reflexivity|right]. split; [discriminate|reflexivity].
  - unfold mv_event. destruct (nth_error (subs st) k) as [t|] eqn:Ek; [|intros Hy; left; exists y; auto].
    destruct (alive t); [|intros Hy; left; exists y; auto]. intros Hy. left. apply In_nth_error in Hy. destruct Hy as (j & Hy).
    unfold set_sub in Hy. cbn [subs] in Hy. rewrite (nth_replace _ _ _ _ _ Ek) in Hy. destruct (j =? k).
    + injection Hy as <-. exists t. split; [exact (nth_error_In _ _ Ek)|apply total_poll].
    + exists y. split; [exact (nth_error_In _ _ Hy)|reflexivity].
  - unfold mv_event. destruct (nth_error (subs st) k) as [t|] eqn:Ek; [|intros Hy; left; exists y; auto].
    intros Hy. left. apply In_nth_error in Hy. destruct Hy as (j & Hy).
    unfold set_sub in Hy. cbn [subs] in Hy. rewrite (nth_replace _ _ _ _ _ Ek) in Hy. destruct (j =? k).
    + injection Hy as <-. exists t. split; [exact (nth_error_In _ _ Ek)|reflexivity].
    + exists y. split; [exact (nth_error_In _ _ Hy)|reflexivity].
  - unfold mv_event. destruct (0 <? owners st); intros Hy; left; exists y; auto.
  - unfold mv_event. destruct (owners st) as [|[|n]]; intros Hy; left; try (exists y; auto; fail).
    cbn in Hy. apply in_map_iff in Hy. destruct Hy as (x & <- & Hx). exists x. split; [exact Hx|reflexivity].
Qed.
End Ops.

(** ** The combinators *)
Section Calm.
Context {V : Type}.
Notation ans := (poll (option (vecdiff V))).

Lemma fwd_ok acc (ds : list (vecdiff V)) : Forall fwd ds -> backward_moves_ok acc ds.
Proof.
  intros H pre o n post l x y -> _ Hn. exfalso. apply Forall_app in H. destruct H as [_ H]. inversion H; subst. simpl in *. lia.
Qed.

Lemma shape_nee {A B} (ds : list (vecdiff A)) (es : list (vecdiff B)) : Forall2 shape ds es -> replay ds <> None ->
  never_empties_empty ds -> never_empties_empty es.
Proof. rewrite !nee_fills. intros H G. apply (shape_fills ds es H [] []); [reflexivity|exact G]. Qed.

Lemma c_calm (c : comb V) log st outs : VecExecFacts.ran (cpoll c) (cinit c) log st outs -> good_vec_script log -> cgood c log ->
  (Forall fwd (yielded log) -> Forall fwd (yielded outs))
  /\ (match c with CFilter _ | CFilterMap _ => False | _ => True end -> never_empties_empty (yielded log) -> never_empties_empty (yielded outs)).
Proof.
  intros (k & H) G C. destruct c as [f|p|f|compare|mk|]; cbn [cpoll cinit cgood] in *.
  - assert (S : Forall2 shape (yielded log) (yielded outs)).
    { exact (shape_emit (vmap_step f) [] log (vmap_shape f) k _ _ _ H). }
    split; [apply shape_fwd; exact S|]. intros _. apply shape_nee; assumption.
  - split; [|contradiction]. exact (filter_map_forward _ _ _ _ _ _ H).
  - split; [|contradiction]. exact (filter_map_forward _ _ _ _ _ _ H).
  - destruct (sort_calm compare C _ _ _ _ _ G H) as [H1 H2]. auto.
  - change (run (cpoll (CEnumerate mk)) k (cinit (CEnumerate mk), fresh log) = Some ((st, mkSrc log []), outs)) in H.
    rewrite run_enumerate in H.
    assert (E : exists outs1, run enumerate_poll k (en_init, fresh log) = Some ((st, mkSrc log []), outs1)
      /\ outs = map (fun r => match r with Pending => Pending | Ready o => Ready (option_map (fun d => fst (vd_map (fun cv => mk (fst cv) (snd cv)) d)) o) end) outs1).
    { revert H. change (cinit (CEnumerate mk)) with en_init. match goal with |- context [run enumerate_poll k ?s] => destruct (run enumerate_poll k s) as [[[st1 sr1] outs1]|] eqn:E0 end; [|discriminate].
      intros X. injection X as <- <- <-. exists outs1. auto. }
    destruct E as (outs1 & E & ->). assert (S : Forall2 shape (yielded log) (yielded outs1)).
    { exact (shape_emit (@enumerate_step V) en_init log enumerate_shape k _ _ _ E). }
    rewrite yielded_map.
    assert (S2 : Forall2 shape (yielded log) (map (fun d => fst (vd_map (fun cv => mk (fst cv) (snd cv)) d)) (yielded outs1))).
    { clear - S. induction S as [|d e ds es H _ IH]; cbn [map]; constructor; [|exact IH].
      exact (shape_trans _ _ _ H (shape_vd_map _ e)). }
    split; [apply shape_fwd; exact S2|]. intros _. apply shape_nee; assumption.
  - assert (S : Forall2 shape (yielded log) (yielded outs)).
    { exact (shape_emit (@vdebug_step V) tt log vdebug_shape k _ _ _ H). }
    split; [apply shape_fwd; exact S|]. intros _. apply shape_nee; assumption.
Qed.
End Calm.

(** ** The invariant *)
Section Tame.
Context {V : Type} (F N : nat -> Prop).
Notation ans := (poll (option (vecdiff V))).
Implicit Types (s : sig V) (v : vecs V) (w : world V) (x : task V).

Definition leafgood v : Prop := forall m y, In y (subs (v m)) -> (F m -> Forall fwd (total y)) /\ (N m -> never_empties_empty (total y)).

Lemma said_calm v s : (forall m, inv (v m)) -> leafgood v -> forall outs, said v s outs -> sound F N (pipe_of s) ->
  tame s /\ good_vec_script outs
  /\ ((forall m, In m (muts (pipe_of s)) -> F m) -> Forall fwd (yielded outs))
  /\ (unfiltered (pipe_of s) -> (forall m, In m (muts (pipe_of s)) -> N m) -> never_empties_empty (yielded outs)).
Proof.
  intros Hv Hl. induction s as [m id|c st log s IH|st s1 IH1 s2 IH2]; intros outs Hs Hp; cbn [said pipe_of sound tame muts unfiltered] in *.
  - destruct Hs as (x & Hx & Ha & <-). split; [exact I|]. destruct (Hl m x (nth_error_In _ _ Hx)) as [L1 L2]. split; [|split].
    + destruct (Hv m) as [_ H]. destruct (H id x Hx Ha) as ((l & E & _) & _).
      unfold good_vec_script. apply (replay_prefix _ (queue x)). unfold total in E. rewrite E. discriminate.
    + intros H. specialize (L1 (H m (or_introl eq_refl))). unfold total in L1. apply Forall_app in L1. apply L1.
    + intros _ H. specialize (L2 (H m (or_introl eq_refl))). exact (nee_left _ _ L2).
  - destruct Hs as (Hs & log0 & known & El & Hr). destruct Hp as [Hp Hc]. destruct (IH log Hs Hp) as (T & G & HF & HN).
    assert (C : cgood c log).
    { destruct c; cbn [cgood] in *; auto; apply fwd_ok, HF; exact Hc. }
    assert (G0 : good_vec_script log0).
    { unfold good_vec_script in *. rewrite El, yielded_app in G. exact (replay_prefix _ _ G). }
    assert (C0 : cgood c log0).
    { destruct c; cbn [cgood] in *; auto; specialize (HF Hc); rewrite El, yielded_app in HF; apply Forall_app in HF; apply fwd_ok, HF. }
    destruct (c_calm c log0 st outs Hr G0 C0) as [K1 K2]. split; [split; [exact T|exact C]|]. split; [|split].
    + destruct Hr as (k & Hr). destruct (c_mirror c log0 G0 C0 k) as (st1 & sr1 & outs1 & l & E & _ & R & _).
      rewrite Hr in E. injection E as <- <- <-. exact R.
    + intros H. apply K1. specialize (HF H). rewrite El, yielded_app in HF. apply Forall_app in HF. apply HF.
    + intros [U1 U2] H. apply K2; [exact U2|]. specialize (HN U1 H). rewrite El, yielded_app in HN. exact (nee_left _ _ HN).
  - destruct Hs as (Hs1 & Hs2 & st0 & kl & kr & (_ & _ & k & Hk) & El & Er). destruct Hp as (P1 & P2 & U1 & U2 & HNm).
    destruct (IH1 _ Hs1 P1) as (T1 & G1 & F1 & N1). destruct (IH2 _ Hs2 P2) as (T2 & G2 & F2 & N2).
    assert (M1 : never_empties_empty (yielded (log_of (ch_left st)))).
    { apply N1; [exact U1|]. intros m Hm. apply HNm, in_or_app. left. exact Hm. }
    assert (M2 : never_empties_empty (yielded (log_of (ch_right st)))).
    { apply N2; [exact U2|]. intros m Hm. apply HNm, in_or_app. right. exact Hm. }
    split; [auto|].
    assert (G1' : good_vec_script (log_of (ch_left st0))).
    { unfold good_vec_script in *. rewrite El, yielded_app in G1. exact (replay_prefix _ _ G1). }
    assert (G2' : good_vec_script (log_of (ch_right st0))).
    { unfold good_vec_script in *. rewrite Er, yielded_app in G2. exact (replay_prefix _ _ G2). }
    split; [|split].
    + destruct (chain_mirror _ _ G1' G2' k) as (st1 & outs1 & L & R & sh & E & _ & _ & Hr & _).
      rewrite Hk in E. injection E as <- <-. unfold good_vec_script. rewrite Hr. discriminate.
    + intros H. apply (chain_forward _ _ _ _ _ Hk).
      * assert (X : Forall fwd (yielded (log_of (ch_left st)))) by (apply F1; intros m Hm; apply H, in_or_app; left; exact Hm).
        rewrite El, yielded_app in X. apply Forall_app in X. apply X.
      * assert (X : Forall fwd (yielded (log_of (ch_right st)))) by (apply F2; intros m Hm; apply H, in_or_app; right; exact Hm).
        rewrite Er, yielded_app in X. apply Forall_app in X. apply X.
    + intros _ _. rewrite El, yielded_app in M1. rewrite Er, yielded_app in M2.
      exact (chain_filled _ _ _ _ _ G1' G2' (nee_left _ _ M1) (nee_left _ _ M2) Hk).
Qed.

(** ** Events *)
Lemma leaf_event v m e : (forall m, inv (v m)) -> leafgood v ->
  match e with EOp o => (F m -> forward_op o (values (v m))) /\ (N m -> filling_op o (values (v m))) | _ => True end ->
  leafgood (fupd m (mv_event e (v m)) v).
Proof.
  intros Hv Hl He k y. unfold fupd. destruct (Nat.eqb_spec k m) as [->|n]; [|apply Hl]. intros Hy.
  destruct (event_totals e (v m) (Hv m) y Hy) as [(x & Hx & ->)|[(-> & [->|(Hn & ->)])|(o & x & -> & Hx & Ha & Hp & ->)]].
  - exact (Hl m x Hx).
  - split; intros _; [constructor|]. apply nee_fills. exact I.
  - split; intros _; [repeat constructor|]. apply nee_fills. cbn [fills]. split; [|exact I]. intros _. split; [discriminate|].
    intros E. injection E as E. exact (Hn E).
  - destruct (Hl m x Hx) as [L1 L2]. destruct He as [He1 He2]. split; intros Hm.
    + apply Forall_app. split; [exact (L1 Hm)|]. apply op_forward. exact (He1 Hm).
    + apply nee_fills. destruct (Hv m) as [_ Hs]. apply In_nth_error in Hx. destruct Hx as (id & Hx).
      destruct (Hs id x Hx Ha) as ((l & R & El) & _). rewrite (El Hp) in R.
      apply (fills_app _ _ [] (values (v m)) R). split; [apply nee_fills; exact (L2 Hm)|]. apply op_fills. exact (He2 Hm).
Qed.

Definition vgood v : Prop := (forall m, inv (v m)) /\ leafgood v.

Lemma vgood_event v m e : vgood v -> match e with EOp _ => False | _ => True end -> vgood (fupd m (mv_event e (v m)) v).
Proof.
  intros [H1 H2] He. split.
  - intros k. unfold fupd. destruct (Nat.eqb_spec k m) as [->|]; [apply event_inv|]; apply H1.
  - apply leaf_event; auto. destruct e; auto. contradiction.
Qed.

Definition pgood (r : pres V) : Prop := match r with POut => True | PPanic _ v | POk _ v _ => vgood v end.

Lemma drive_vgood pollin : (forall s v, vgood v -> pgood (pollin s v)) ->
  forall k c st log known s v, vgood v -> pgood (drive pollin k c st log known s v).
Proof.
  intros H. induction k as [|k IH]; intros c st log known s v Hg; cbn [drive];
    destruct (cpoll c (st, mkSrc log known)) as [[[st' after] a]|]; try exact Hg; destruct (starved log known after); try exact Hg; try exact I.
  specialize (H s v Hg). destruct (pollin s v) as [|s1 v1|s1 v1 b]; [exact I|exact H|]. apply IH. exact H.
Qed.

Lemma drive2_vgood pollin : (forall s v, vgood v -> pgood (pollin s v)) ->
  forall k st kl kr s1 s2 v, vgood v -> pgood (drive2 pollin k st kl kr s1 s2 v).
Proof.
  intros H. induction k as [|k IH]; intros st kl kr s1 s2 v Hg; cbn [drive2];
    destruct (chain_poll (feed kl kr st)) as [[st' a]|]; try exact Hg; destruct (starved (log_of (ch_left st)) kl (snd (ch_left st')));
    try exact I; try (destruct (starved (log_of (ch_right st)) kr (snd (ch_right st'))); try exact I; try exact Hg).
  - pose proof (H s1 v Hg) as X. destruct (pollin s1 v) as [|s3 v1|s3 v1 b]; [exact I|exact X|]. apply IH. exact X.
  - pose proof (H s1 v Hg) as X. destruct (pollin s1 v) as [|s3 v1|s3 v1 b]; [exact I|exact X|]. apply IH. exact X.
  - pose proof (H s2 v Hg) as X. destruct (pollin s2 v) as [|s3 v1|s3 v1 b]; [exact I|exact X|]. apply IH. exact X.
Qed.

Lemma poll_vgood n : forall s v, vgood v -> pgood (poll_sig n s v).
Proof.
  induction n as [|n IH]; intros s v Hg; [exact I|]. destruct s as [m id|c st log s|st s1 s2]; cbn [poll_sig].
  - destruct (nth_error (subs (v m)) id) as [y|]; [|exact I]. apply (vgood_event v m (EPoll id)); [exact Hg|exact I].
  - apply drive_vgood; assumption.
  - apply drive2_vgood; assumption.
Qed.

Lemma build_vgood p : forall v, vgood v -> vgood (snd (build p v)).
Proof.
  induction p as [m|c p IH|p IHp q IHq]; intros v Hg; cbn [build].
  - apply (vgood_event v m ESubscribe); [exact Hg|exact I].
  - specialize (IH v Hg). destruct (build p v). exact IH.
  - specialize (IHp v Hg). destruct (build p v) as [s1 v1]. specialize (IHq v1 IHp). destruct (build q v1). exact IHq.
Qed.

Lemma drop_vgood s v : vgood v -> vgood (drop_sig s v).
Proof.
  unfold drop_sig. generalize (leaves s). intros L. revert v. induction L as [|[m id] L IH]; intros v Hg; [exact Hg|].
  cbn [fold_left]. apply IH. apply (vgood_event v m (EDropSub id)); [exact Hg|exact I].
Qed.

(** ** Steps *)
Definition winv2 w : Prop :=
  winv w /\ leafgood (w_vec w)
  /\ forall t, t < w_nt w -> sound F N (t_pipe (w_task w t)) ->
       t_pc (w_task w t) <> TPanic /\ (t_pc (w_task w t) = TDone -> tame (t_sig (w_task w t))).

Lemma init_winv2 : winv2 w_init.
Proof. split; [apply init_winv|]. split; [intros m y []|]. intros t H. simpl in H. lia. Qed.

Lemma step_winv2 w mv w' : winv2 w -> careful_move F N w mv -> step w mv = Some w' -> winv2 w'.
Proof.
  intros (Hw & Hl & Ht) Hc E. split; [exact (step_winv _ _ _ Hw E)|]. pose proof Hw as (Hv & Htk & _).
  assert (Hg : vgood (w_vec w)) by (split; assumption).
  assert (Hh : forall m e, match e with EOp o => (F m -> forward_op o (values (w_vec w m))) /\ (N m -> filling_op o (values (w_vec w m))) | _ => True end ->
    leafgood (w_vec (happens m e w))
    /\ forall t, t < w_nt w -> sound F N (t_pipe (w_task (happens m e w) t)) ->
       t_pc (w_task (happens m e w) t) <> TPanic /\ (t_pc (w_task (happens m e w) t) = TDone -> tame (t_sig (w_task (happens m e w) t)))).
  { intros m e He. split; [apply leaf_event; assumption|]. intros t Hlt. exact (Ht t Hlt). }
  assert (Hst : forall t x, (t < w_nt w -> sound F N (t_pipe x) -> t_pc x <> TPanic /\ (t_pc x = TDone -> tame (t_sig x))) ->
    forall u, u < w_nt w -> sound F N (t_pipe (fupd t x (w_task w) u)) ->
       t_pc (fupd t x (w_task w) u) <> TPanic /\ (t_pc (fupd t x (w_task w) u) = TDone -> tame (t_sig (fupd t x (w_task w) u)))).
  { intros t x Hx u Hu. unfold fupd. destruct (Nat.eqb_spec u t) as [->|]; [exact (Hx Hu)|exact (Ht u Hu)]. }
  destruct mv as [vs|m|m|m o|p|t|t|t|t n|t r]; cbn [step] in E.
  - injection E as <-. split; [|exact Ht]. intros m y. cbn. unfold fupd. destruct (m =? w_nvec w); [intros []|apply Hl].
  - destruct (held m w); [|discriminate]. injection E as <-. apply Hh. exact I.
  - destruct (held m w); [|discriminate]. injection E as <-. apply Hh. exact I.
  - destruct (held m w); [|discriminate]. injection E as <-. apply Hh. exact Hc.
  - destruct (closed (w_nvec w) (w_vec w) p); [|discriminate]. pose proof (build_vgood p (w_vec w) Hg) as B.
    destruct (build p (w_vec w)) as [s v]. injection E as <-. split; [exact (proj2 B)|]. cbn. intros t Hlt. unfold fupd.
    destruct (Nat.eqb_spec t (w_nt w)) as [->|]; [|apply Ht; lia]. intros _. split; discriminate.
  - destruct (_ && _); [|discriminate]. injection E as <-. split; [exact (proj2 (drop_vgood _ _ Hg))|].
    cbn. apply Hst. intros _ _. split; discriminate.
  - destruct (t <? w_nt w); [|discriminate]. injection E as <-. split; [exact Hl|]. cbn. apply Hst. exact (Ht t).
  - destruct (_ && _); [|discriminate].
    destruct (t_pc (w_task w t)); try discriminate; injection E as <-; (split; [exact Hl|]); cbn; apply Hst; intros _ _; split; discriminate.
  - destruct (t_pc (w_task w t)) eqn:Epc; try discriminate. destruct (t <? w_nt w) eqn:Hlt; [|discriminate]. apply Nat.ltb_lt in Hlt.
    destruct (Htk t Hlt) as (H1 & H2 & H3 & H4). rewrite Epc in H4. destruct H4 as [Hok Hne].
    pose proof (poll_sig_good n (t_sig (w_task w t)) (w_vec w) _ Hv Hok Hne H1) as X.
    pose proof (poll_vgood n (t_sig (w_task w t)) (w_vec w) Hg) as Y.
    destruct (poll_sig n (t_sig (w_task w t)) (w_vec w)) as [|s v|s v r]; [discriminate| |].
    + destruct X as (X1 & X2 & X3 & X4 & X5). injection E as <-. split; [exact (proj2 Y)|]. cbn. apply Hst. cbn.
      intros _ Hs. exfalso. apply X1. rewrite <- H2, <- X3 in Hs. exact (proj1 (said_calm v s (proj1 Y) (proj2 Y) _ X5 Hs)).
    + destruct X as (X1 & X2 & X3 & X4 & X5). destruct r as [|[d|]]; injection E as <-; cbn.
      * split; [exact (proj2 Y)|]. apply Hst. intros _ _. split; discriminate.
      * split; [exact (proj2 Y)|]. apply Hst. intros _ _. split; discriminate.
      * split; [exact (proj2 (drop_vgood s v Y))|]. apply Hst. cbn. intros _ Hs. split; [discriminate|]. intros _.
        rewrite <- H2, <- X3 in Hs. exact (proj1 (said_calm v s (proj1 Y) (proj2 Y) _ (ok_said _ _ _ X1) Hs)).
  - destruct (t_pc (w_task w t)) eqn:Epc; try discriminate. destruct (t <? w_nt w); [|discriminate]. injection E as <-.
    split; [exact Hl|]. cbn. apply Hst. cbn. intros _ _. split; destruct r; discriminate.
Qed.

Lemma reach_winv2 mvs : forall w w', winv2 w -> careful F N w mvs -> exec step w mvs = Some w' -> winv2 w'.
Proof.
  induction mvs as [|mv mvs IH]; intros w w' Hw Hc E; cbn [exec careful] in *.
  - injection E as <-. exact Hw.
  - destruct Hc as [Hc1 Hc2]. destruct (step w mv) as [w1|] eqn:Es; [|discriminate].
    exact (IH w1 w' (step_winv2 _ _ _ Hw Hc1 Es) Hc2 E).
Qed.

(** ** What follows *)
Section Reached.
Variables (mvs : list (move V)) (w : world V).
Hypothesis H : exec step w_init mvs = Some w.
Hypothesis Hc : careful F N w_init mvs.

Lemma sound_tame t : t < w_nt w -> sound F N (t_pipe (w_task w t)) ->
  t_pc (w_task w t) <> TPanic /\ (t_pc (w_task w t) <> TGone -> tame (t_sig (w_task w t))).
Proof.
  intros Ht Hs. destruct (reach_winv2 mvs w_init w init_winv2 Hc H) as ((Hv & Htk & _) & Hl & Hx).
  destruct (Hx t Ht Hs) as [X1 X2]. split; [exact X1|]. intros Hg. destruct (Htk t Ht) as (_ & H2 & _ & H4).
  rewrite <- H2 in Hs.
  assert (K : ok (w_vec w) (t_sig (w_task w t)) (t_outs (w_task w t)) -> tame (t_sig (w_task w t))).
  { intros Hok. exact (proj1 (said_calm (w_vec w) _ Hv Hl _ (ok_said _ _ _ Hok) Hs)). }
  destruct (t_pc (w_task w t)); try (apply K; apply H4); auto; contradiction.
Qed.

Lemma sound_shows t : t < w_nt w -> t_pc (w_task w t) = TSleep -> t_woken (w_task w t) = false ->
  sound F N (t_pipe (w_task w t)) -> unpoisoned w (t_pipe (w_task w t)) ->
  pipe_of (t_sig (w_task w t)) = t_pipe (w_task w t)
  /\ exists out, replay (seen (w_task w t)) = Some out /\ shows (contents w) (t_sig (w_task w t)) out.
Proof.
  intros Ht Hpc Hw Hs Hp. apply (asleep_shows mvs); auto. apply (sound_tame t Ht Hs). rewrite Hpc. discriminate.
Qed.

Lemma sound_done t : t < w_nt w -> t_pc (w_task w t) = TDone ->
  sound F N (t_pipe (w_task w t)) -> unpoisoned w (t_pipe (w_task w t)) ->
  pipe_of (t_sig (w_task w t)) = t_pipe (w_task w t)
  /\ (forall m, In m (muts (t_pipe (w_task w t))) -> owners (w_vec w m) = 0)
  /\ exists out, replay (seen (w_task w t)) = Some out /\ shows (contents w) (t_sig (w_task w t)) out.
Proof.
  intros Ht Hpc Hs Hp. destruct (done_shows mvs w t H Ht Hpc) as (D1 & D2 & D3). split; [exact D1|]. split.
  - intros m Hm. rewrite <- D1 in Hm. destruct (muts_leaves _ _ Hm) as (id & Hi). exact (D2 m id Hi).
  - apply D3; [|exact Hp]. apply (sound_tame t Ht Hs). rewrite Hpc. discriminate.
Qed.

Lemma sound_completes t : idle w -> t < w_nt w -> t_pc (w_task w t) <> TGone -> t_pc (w_task w t) <> TFut ->
  sound F N (t_pipe (w_task w t)) ->
  (t_pc (w_task w t) = TDone <-> forall m, In m (muts (t_pipe (w_task w t))) -> owners (w_vec w m) = 0).
Proof. intros Hi Ht Hg Hf Hs. apply (completes mvs); auto. apply (sound_tame t Ht Hs). exact Hg. Qed.
End Reached.
End Tame.

(** ** Running concrete programs: every MutableVec in [F] and in [N] *)
Section Check.
Context {V : Type}.

Definition forward_opb (o : op V) (v : list V) : bool :=
  match o with
  | OMove a b | OApply (Move a b) => a <=? b
  | OSwap a b => (a =? b) || (b =? a + 1)
  | OReverse => length v <=? 1
  | _ => true
  end.

Definition filling_opb (o : op V) (v : list V) : bool :=
  match o with
  | OReplace vs | OReplaceCloned vs | OApply (Replace vs) => match v, vs with [], [] => false | _, _ => true end
  | _ => true
  end.

Fixpoint carefulb (w : world V) (mvs : list (move V)) : bool :=
  match mvs with
  | [] => true
  | mv :: mvs => match mv with MOp m o => forward_opb o (contents w m) && filling_opb o (contents w m) | _ => true end
                 && match step w mv with Some w' => carefulb w' mvs | None => true end
  end.

Lemma careful_is F N mvs : forall w, carefulb w mvs = true -> careful F N w mvs.
Proof.
  induction mvs as [|mv mvs IH]; intros w H; [exact I|]. cbn [careful carefulb] in *. apply andb_prop in H. destruct H as [H1 H2]. split.
  - destruct mv as [ | | |m o| | | | | | ]; try exact I. apply andb_prop in H1. destruct H1 as [H1 H3]. split; intros _.
    + destruct o as [|i|a b|  |f|b1 b2|n|a b| |x|i x|i x|vs|x|i x|i x|vs|vs|d]; try exact I; cbn in *; try (apply Nat.leb_le; exact H1).
      * apply orb_prop in H1. destruct H1 as [H1|H1]; apply Nat.eqb_eq in H1; auto.
      * destruct d; try exact I. apply Nat.leb_le. exact H1.
    + destruct o as [|i|a b|  |f|b1 b2|n|a b| |x|i x|i x|vs|x|i x|i x|vs|vs|d]; try exact I; try destruct d; try exact I; cbn in *;
        destruct (contents w m); try (left; discriminate); right; intros ->; discriminate.
  - destruct (step w mv); [apply IH; exact H2|exact I].
Qed.
End Check.
