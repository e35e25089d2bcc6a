(** Further facts on VecExec.v: the MutableVecs contain what the program wrote; what the tasks have seen is kept; pipelines that are
    always tame; running concrete programs. *)
From Verif Require Import Base Conc Spec VecDiff VecSpec VecSimple Sort Chain Slot MutVec SortSpec.
From Verif Require Import BaseFacts MutVecSpec MutVecFacts MutVecRun VecExec VecExecFacts VecExecRun VecExecEnd.

Section Use.
Context {V : Type}.

(** ** The contents *)

(** What the move does to the contents. *)
Definition written (mv : move V) (w : world V) (m : nat) (l : list V) : Prop :=
  match mv with
  | MVec vs => if m =? w_nvec w then l = vs else l = contents w m
  | MOp k o => if m =? k
               then (poisoned (w_vec w k) = true -> l = contents w m)
                    /\ (poisoned (w_vec w k) = false -> ~ op_panics o (contents w m) -> exists r, op_means o (contents w m) l r)
               else l = contents w m
  | _ => l = contents w m
  end.

Lemma event_values (e : event V) st : match e with EOp _ => False | _ => True end -> values (mv_event e st) = values st.
Proof.
  intros H. destruct e as [o| |id|id| |]; try contradiction; unfold mv_event; simpl;
    repeat match goal with |- context [match ?x with _ => _ end] => destruct x; simpl; try reflexivity end; reflexivity.
Qed.

Lemma op_written o (st : mvec V) : inv st -> 0 < owners st ->
  (poisoned st = true -> values (mv_event (EOp o) st) = values st)
  /\ (poisoned st = false -> ~ op_panics o (values st) -> exists r, op_means o (values st) (values (mv_event (EOp o) st)) r).
Proof.
  intros Hi Ho. split.
  - intros Hp. unfold mv_event. rewrite Hp, andb_false_r. reflexivity.
  - intros Hp Hn. destruct (op_event o (values st)) as [[H _]|(_ & v' & ds & r & _ & Hm & _ & H)]; [contradiction|]. exists r.
    destruct Hi as [W _]. destruct (H st eq_refl W Ho Hp) as (_ & _ & -> & _). exact Hm.
Qed.

Definition kept (v v' : vecs V) : Prop := forall m, values (v' m) = values (v m).

Lemma kept_one v m x : values x = values (v m) -> kept v (fupd m x v).
Proof. intros H k. unfold fupd. destruct (Nat.eqb_spec k m) as [->|]; [exact H|reflexivity]. Qed.

Lemma drive_kept pollin : (forall s v s' v' r, pollin s v = POk s' v' r -> kept v v') ->
  (forall s v s' v', pollin s v = PPanic s' v' -> kept v v') ->
  forall k c st log known s v s' v' r, drive pollin k c st log known s v = POk s' v' r \/ drive pollin k c st log known s v = PPanic s' v' -> kept v v'.
Proof.
  intros H1 H2. induction k as [|k IH]; intros c st log known s v s' v' r; simpl;
    destruct (cpoll c (st, mkSrc log known)) as [[[st' after] a]|]; try destruct (starved log known after);
    try solve [intros [E|E]; (discriminate || (injection E as <- <-; intros m; reflexivity) || (injection E as <- <- <-; intros m; reflexivity))].
  destruct (pollin s v) as [|s1 v1|s1 v1 b] eqn:E; intros Hc.
  - destruct Hc; discriminate.
  - destruct Hc as [Hc|Hc]; [discriminate|]. injection Hc as <- <-. exact (H2 _ _ _ _ E).
  - intros m. rewrite (IH _ _ _ _ _ _ _ _ _ Hc m). exact (H1 _ _ _ _ _ E m).
Qed.

Lemma drive2_kept pollin : (forall s v s' v' r, pollin s v = POk s' v' r -> kept v v') ->
  (forall s v s' v', pollin s v = PPanic s' v' -> kept v v') ->
  forall k st kl kr s1 s2 v s' v' r, drive2 pollin k st kl kr s1 s2 v = POk s' v' r \/ drive2 pollin k st kl kr s1 s2 v = PPanic s' v' -> kept v v'.
Proof.
  intros H1 H2. induction k as [|k IH]; intros st kl kr s1 s2 v s' v' r; simpl;
    destruct (chain_poll (feed kl kr st)) as [[st' a]|]; try destruct (starved (log_of (ch_left st)) kl (snd (ch_left st')));
    try destruct (starved (log_of (ch_right st)) kr (snd (ch_right st')));
    try solve [intros [E|E]; (discriminate || (injection E as <- <-; intros m; reflexivity) || (injection E as <- <- <-; intros m; reflexivity))].
  - destruct (pollin s1 v) as [|s3 v1|s3 v1 b] eqn:E; intros Hc.
    + destruct Hc; discriminate.
    + destruct Hc as [Hc|Hc]; [discriminate|]. injection Hc as <- <-. exact (H2 _ _ _ _ E).
    + intros m. rewrite (IH _ _ _ _ _ _ _ _ _ Hc m). exact (H1 _ _ _ _ _ E m).
  - destruct (pollin s1 v) as [|s3 v1|s3 v1 b] eqn:E; intros Hc.
    + destruct Hc; discriminate.
    + destruct Hc as [Hc|Hc]; [discriminate|]. injection Hc as <- <-. exact (H2 _ _ _ _ E).
    + intros m. rewrite (IH _ _ _ _ _ _ _ _ _ Hc m). exact (H1 _ _ _ _ _ E m).
  - destruct (pollin s2 v) as [|s3 v1|s3 v1 b] eqn:E; intros Hc.
    + destruct Hc; discriminate.
    + destruct Hc as [Hc|Hc]; [discriminate|]. injection Hc as <- <-. exact (H2 _ _ _ _ E).
    + intros m. rewrite (IH _ _ _ _ _ _ _ _ _ Hc m). exact (H1 _ _ _ _ _ E m).
Qed.

Lemma poll_kept n : (forall s v s' v' r, poll_sig n s v = POk s' v' r -> kept v v') /\ (forall s v s' v', poll_sig n s v = PPanic s' v' -> kept v v').
Proof.
  induction n as [|n [I1 I2]]; [split; discriminate|].
  assert (X : forall s v s' v' r, poll_sig (S n) s v = POk s' v' r \/ poll_sig (S n) s v = PPanic s' v' -> kept v v').
  { intros s v s' v' r Hc. destruct s as [m id|c st log s|st s1 s2]; simpl in Hc.
    - destruct (nth_error (subs (v m)) id) as [x|]; destruct Hc as [E|E]; try discriminate.
      pose proof (f_equal (fun z => match z with POk _ v1 _ => v1 | _ => v end) E) as Ev. cbv beta iota in Ev. rewrite <- Ev. apply kept_one. destruct (alive x); reflexivity.
    - exact (drive_kept _ I1 I2 _ _ _ _ _ _ _ _ _ _ Hc).
    - exact (drive2_kept _ I1 I2 _ _ _ _ _ _ _ _ _ _ Hc). }
  split; [intros s v s' v' r E|intros s v s' v' E]; [exact (X s v s' v' r (or_introl E))|exact (X s v s' v' Pending (or_intror E))].
Qed.

Lemma build_kept p : forall v, kept v (snd (build p v)).
Proof.
  induction p as [m|c p IH|p IHp q IHq]; intros v; simpl.
  - apply kept_one. exact (event_values ESubscribe (v m) I).
  - specialize (IH v). destruct (build p v). exact IH.
  - specialize (IHp v). destruct (build p v) as [s1 v1]. specialize (IHq v1). destruct (build q v1) as [s2 v2].
    intros m. simpl in *. rewrite (IHq m). exact (IHp m).
Qed.

Lemma drop_kept (s : sig V) v : kept v (drop_sig s v).
Proof. intros m. apply (fr_vals _ _ _ (drop_sig_frame s v) m). Qed.

Lemma end_contents mvs w mv w' : exec step w_init mvs = Some w -> step w mv = Some w' -> forall m, written mv w m (contents w' m).
Proof.
  intros H E m. destruct (reach_winv _ _ H) as (Hv & _). unfold written, contents.
  assert (Hh : forall k e, match e with EOp _ => False | _ => True end -> values (w_vec (happens k e w) m) = values (w_vec w m)).
  { intros k e He. unfold happens. cbn [w_vec]. apply kept_one. apply event_values. exact He. }
  destruct mv as [vs|k|k|k o|p|t|t|t|t n|t r]; simpl in E.
  - injection E as <-. cbn. unfold fupd. destruct (m =? w_nvec w); reflexivity.
  - destruct (held k w); [|discriminate]. injection E as <-. apply Hh. exact I.
  - destruct (held k w); [|discriminate]. injection E as <-. apply Hh. exact I.
  - destruct (held k w) eqn:Hd; [|discriminate]. injection E as <-. apply andb_prop in Hd. destruct Hd as [_ Ho]. apply Nat.ltb_lt in Ho.
    unfold happens. cbn [w_vec]. unfold fupd. destruct (Nat.eqb_spec m k) as [->|]; [|reflexivity].
    exact (op_written o (w_vec w k) (Hv k) Ho).
  - destruct (closed (w_nvec w) (w_vec w) p); [|discriminate]. pose proof (build_kept p (w_vec w) m) as K.
    destruct (build p (w_vec w)) as [s v]. injection E as <-. exact K.
  - destruct (_ && _); [|discriminate]. injection E as <-. apply drop_kept.
  - destruct (t <? w_nt w); [|discriminate]. injection E as <-. reflexivity.
  - destruct (_ && _); [|discriminate]. destruct (t_pc (w_task w t)); try discriminate; injection E as <-; reflexivity.
  - destruct (t_pc (w_task w t)); try discriminate. destruct (t <? w_nt w); [|discriminate]. destruct (poll_kept n) as [K1 K2].
    destruct (poll_sig n (t_sig (w_task w t)) (w_vec w)) as [|s v|s v [|[d|]]] eqn:Ep; try discriminate; injection E as <-.
    + exact (K2 _ _ _ _ Ep m).
    + exact (K1 _ _ _ _ _ Ep m).
    + exact (K1 _ _ _ _ _ Ep m).
    + cbn. rewrite (drop_kept s v m). exact (K1 _ _ _ _ _ Ep m).
  - destruct (t_pc (w_task w t)); try discriminate. destruct (t <? w_nt w); [|discriminate]. injection E as <-. reflexivity.
Qed.

(** ** The tasks *)

(** The pipeline of a task stays, and the diffs it has seen are kept: at most one is added at the end. *)
Lemma end_grows (w : world V) mv w' t : step w mv = Some w' -> t < w_nt w ->
  t < w_nt w' /\ t_pipe (w_task w' t) = t_pipe (w_task w t)
  /\ exists o, seen (w_task w' t) = seen (w_task w t) ++ o /\ length o <= 1.
Proof.
  intros E Ht. unfold seen.
  assert (Hk : forall x : task V, exists o, yielded (t_outs x) = yielded (t_outs x) ++ o /\ length o <= 1).
  { intros x. exists []. rewrite app_nil_r. split; [reflexivity|simpl; lia]. }
  assert (Hp : forall (x : task V) r, exists o, yielded (t_outs x ++ [r]) = yielded (t_outs x) ++ o /\ length o <= 1).
  { intros x r. rewrite yielded_app. eexists. split; [reflexivity|]. destruct r as [|[d|]]; simpl; lia. }
  destruct mv as [vs|k|k|k o|p|k|k|k|k n|k r]; simpl in E;
    repeat match type of E with
           | (if ?b then _ else _) = _ => destruct b; [|discriminate]
           | (let '(_, _) := ?x in _) = _ => destruct x
           | match ?x with _ => _ end = _ => destruct x; try discriminate
           end; injection E as <-; cbn; unfold fupd; try (split; [lia|]); try (destruct (Nat.eqb_spec t k) as [->|]; cbn); auto.
  destruct (Nat.eqb_spec t (w_nt w)) as [->|]; [lia|]. auto.
Qed.

(** A new task. *)
Lemma end_spawn (w : world V) p w' : step w (MSpawn p) = Some w' ->
  w_nt w' = S (w_nt w) /\ t_pipe (w_task w' (w_nt w)) = p /\ seen (w_task w' (w_nt w)) = []
  /\ t_pc (w_task w' (w_nt w)) = TSleep /\ t_woken (w_task w' (w_nt w)) = true.
Proof.
  simpl. destruct (closed _ _ _); [|discriminate]. destruct (build p (w_vec w)). intros [= <-]. cbn. rewrite fupd_same. auto.
Qed.

(** ** Pipelines without filter, filter_map and chain *)

Fixpoint gentle (p : pipe V) : Prop :=
  match p with
  | PMut _ => True
  | POne c p => gentle p /\ match c with
                            | CFilter _ | CFilterMap _ => False
                            | CSort compare => total_preorder compare
                            | _ => True
                            end
  | PChain _ _ => False
  end.

Lemma gentle_tame s : gentle (pipe_of s) -> tame s.
Proof.
  induction s as [m id|c st log s IH|st s1 IH1 s2 IH2]; simpl; intros H; try contradiction; auto.
  destruct H as [H1 H2]. split; [exact (IH H1)|]. destruct c; try contradiction; auto.
Qed.

Lemma gentle_shows mvs w t : exec step w_init mvs = Some w -> idle w -> t < w_nt w ->
  t_pc (w_task w t) = TSleep -> gentle (t_pipe (w_task w t)) -> unpoisoned w (t_pipe (w_task w t)) ->
  pipe_of (t_sig (w_task w t)) = t_pipe (w_task w t)
  /\ exists out, replay (seen (w_task w t)) = Some out /\ shows (contents w) (t_sig (w_task w t)) out.
Proof.
  intros H Hi Ht Hpc Hg Hu. apply (idle_shows mvs); auto. apply gentle_tame.
  destruct (reach_winv _ _ H) as (_ & X & _). destruct (X t Ht) as (_ & H2 & _). rewrite H2. exact Hg.
Qed.

(** ** Checking that the diffs so far were tame *)

Definition forwardb (ds : list (vecdiff V)) : bool := forallb (fun d => match d with Move o n => o <=? n | _ => true end) ds.

Fixpoint filledb (l : list V) (ds : list (vecdiff V)) : bool :=
  match ds with
  | [] => true
  | d :: ds' => match l, d with [], Clear => false | [], Replace [] => false | _, _ => true end
                && match apply_to_vec d l with Some l' => filledb l' ds' | None => true end
  end.

Fixpoint tameb (s : sig V) : bool :=
  match s with
  | GMut _ _ => true
  | GOne c _ log s => tameb s && match c with CFilter _ | CFilterMap _ => forwardb (yielded log) | _ => true end
  | GChain st s1 s2 => tameb s1 && tameb s2 && filledb [] (yielded (log_of (ch_left st))) && filledb [] (yielded (log_of (ch_right st)))
  end.

(** The comparison functions are total preorders. *)
Fixpoint sorts_ok (p : pipe V) : Prop :=
  match p with
  | PMut _ => True
  | POne c p => sorts_ok p /\ match c with CSort compare => total_preorder compare | _ => True end
  | PChain p q => sorts_ok p /\ sorts_ok q
  end.

Lemma forward_ok acc ds : forwardb ds = true -> backward_moves_ok acc ds.
Proof.
  intros H pre o n post l x y -> _ Hn. exfalso. unfold forwardb in H. rewrite forallb_forall in H.
  specialize (H (Move o n) ltac:(apply in_or_app; right; left; reflexivity)). apply Nat.leb_le in H. lia.
Qed.

Lemma filled_from ds : forall l, filledb l ds = true -> forall pre d post, ds = pre ++ d :: post ->
  apply_all apply_to_vec l pre = Some [] -> d <> Clear /\ d <> Replace [].
Proof.
  induction ds as [|e ds IH]; intros l H pre d post E Hp; [destruct pre; discriminate|]. simpl in H. apply andb_prop in H. destruct H as [H1 H2].
  destruct pre as [|e' pre]; simpl in E; injection E as <- E.
  - simpl in Hp. injection Hp as ->. split; intros ->; discriminate.
  - simpl in Hp. destruct (apply_to_vec e l) as [l'|] eqn:Ea; [|discriminate]. exact (IH l' H2 pre d post E Hp).
Qed.

Lemma tame_is s : tameb s = true -> sorts_ok (pipe_of s) -> tame s.
Proof.
  induction s as [m id|c st log s IH|st s1 IH1 s2 IH2]; simpl; auto.
  - intros H [H1 H2]. apply andb_prop in H. destruct H as [Ha Hb]. split; [exact (IH Ha H1)|].
    destruct c; auto; apply forward_ok; exact Hb.
  - intros H [K1 K2]. apply andb_prop in H. destruct H as [H Hd]. apply andb_prop in H. destruct H as [H Hc]. apply andb_prop in H. destruct H as [Ha Hb].
    split; [exact (IH1 Ha K1)|]. split; [exact (IH2 Hb K2)|]. split; intros pre d post; eapply filled_from; eassumption.
Qed.

(** ** Running concrete programs *)

Definition idleb (w : world V) : bool :=
  forallb (fun t => match t_pc (w_task w t) with
                    | TSleep | TFut => negb (t_woken (w_task w t))
                    | TRun | TCall => false
                    | _ => true
                    end) (seq 0 (w_nt w)).

Lemma idle_is w : idleb w = true -> idle w.
Proof.
  unfold idleb. rewrite forallb_forall. intros h t ht. specialize (h t ltac:(apply in_seq; lia)).
  destruct (t_pc (w_task w t)), (t_woken (w_task w t)); auto; discriminate.
Qed.

Lemma ran_both (e : option (world V)) (P Q R : world V -> Prop) :
  match e with Some w => P w /\ R w | None => False end -> (forall w, P w -> Q w) -> exists w, e = Some w /\ Q w /\ R w.
Proof. destruct e as [w|]; [|contradiction]. intros [H1 H2] H. eauto. Qed.
End Use.

Lemma nat_preorder : total_preorder Nat.compare.
Proof.
  repeat split; intros; rewrite ?Nat.compare_lt_iff, ?Nat.compare_gt_iff, ?Nat.compare_eq_iff, ?Nat.compare_refl in *; try lia.
  all: try apply Nat.compare_antisym; try (rewrite Nat.compare_le_iff in *; lia).
Qed.
