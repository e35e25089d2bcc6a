(** Proofs about the AtomicOption model. *)
From Verif Require Import Base Conc AtomicOption.

Section AO.
Context {A : Type} (v0 : option A).

Definition pc_vals (c : ao_pc A) : list A :=
  match c with AToPtr _ v => olist v | ADrop v _ => olist v | _ => [] end.
Definition pc_ptrs (c : ao_pc A) : list nat :=
  match c with ASwap _ q => olist q | AFrom _ q _ => olist q | _ => [] end.
Definition cell_ptrs (ph : ao_phase) (p : option nat) : list nat :=
  match ph with AAlive | ADropLoad => olist p | ADropFree q => olist q | ADropped => [] end.
Definition ptrs (s : ao_st A) : list nat := cell_ptrs (ao_phase_of s) (ao_ptr s) ++ flat_map pc_ptrs (ao_ops s).
Definition owned (s : ao_st A) : list A := flat_map olist (ao_heap s) ++ flat_map pc_vals (ao_ops s).
Fixpoint last_in (v : option A) (l : list (nat * option A * option A)) : option A :=
  match l with [] => v | (_, i, _) :: t => last_in i t end.

Definition pc_ok (s : ao_st A) (i : nat) (c : ao_pc A) : Prop :=
  match c with
  | AToPtr k v => nth_error (ao_args s) i = Some v
  | ASwap k q => nth_error (ao_args s) i = Some (ao_deref (ao_heap s) q)
  | AFrom k q n => exists a, nth_error (ao_swaps s) n = Some (i, a, ao_deref (ao_heap s) q)
  | ADrop v n => exists a, nth_error (ao_swaps s) n = Some (i, a, v)
  | ADone _ v n => exists a, nth_error (ao_swaps s) n = Some (i, a, v)
  end.

(** Whether a call has already swapped. *)
Definition swapped (c : ao_pc A) : bool :=
  match c with AFrom _ _ _ | ADrop _ _ | ADone _ _ _ => true | _ => false end.

Record ao_inv (s : ao_st A) : Prop := {
  iv_perm : Permutation (ao_put v0 s) (ao_returned s ++ ao_destroyed s ++ owned s);
  iv_nodup : NoDup (ptrs s);
  iv_live : forall i, In i (ptrs s) <-> exists v, nth_error (ao_heap s) i = Some (Some v);
  iv_fault : ao_fault s = false;
  iv_quiet : ao_phase_of s <> AAlive -> ao_quiet s;
  iv_chain : handed_over v0 (ao_swaps s);
  iv_last : ao_phase_of s <> ADropped -> ao_deref (ao_heap s) (ao_ptr s) = last_in v0 (ao_swaps s);
  iv_free : forall q, ao_phase_of s = ADropFree q -> q = ao_ptr s;
  iv_args : length (ao_args s) = length (ao_ops s);
  iv_pc : forall i c, nth_error (ao_ops s) i = Some c -> pc_ok s i c;
  iv_log : forall n i a o, nth_error (ao_swaps s) n = Some (i, a, o) ->
             nth_error (ao_args s) i = Some a /\ exists c, nth_error (ao_ops s) i = Some c /\ swapped c = true;
  iv_once : NoDup (map (fun e => fst (fst e)) (ao_swaps s)) }.

Lemma handed_snoc v l i a o : handed_over v (l ++ [(i, a, o)]) <-> handed_over v l /\ o = last_in v l.
Proof.
  revert v. induction l as [|[[j b] c] l IH]; intros v; simpl; [tauto|]. rewrite IH. tauto.
Qed.

Lemma last_in_snoc v l i a o : last_in v (l ++ [(i, a, o)]) = a.
Proof. revert v. induction l as [|[[j b] c] l IH]; intros v; simpl; auto. Qed.

Lemma flat_upd {B} (f : ao_pc A -> list B) ops i c : nth_error ops i = Some c ->
  Permutation (flat_map f ops) (f c ++ flat_map f (firstn i ops ++ skipn (S i) ops))
  /\ forall d, Permutation (flat_map f (lupd i d ops)) (f d ++ flat_map f (firstn i ops ++ skipn (S i) ops)).
Proof.
  intros H. destruct (lupd_split i c c ops H) as (l1 & l2 & -> & <- & E).
  rewrite firstn_app, Nat.sub_diag, firstn_all. simpl firstn. rewrite app_nil_r.
  assert (Es : skipn (S (length l1)) (l1 ++ c :: l2) = l2).
  { clear. induction l1; simpl; auto. }
  rewrite Es. split; [|intros d; rewrite E];
    rewrite !flat_map_app; simpl; apply Permutation_app_swap_app.
Qed.

Lemma heap_upd (h : list (option A)) i v : nth_error h i = Some (Some v) ->
  Permutation (flat_map olist h) (v :: flat_map olist (lupd i None h)).
Proof.
  intros H. destruct (lupd_split i None (Some v) h H) as (l1 & l2 & -> & <- & E).
  rewrite E, !flat_map_app. simpl. symmetry. apply Permutation_middle.
Qed.

Lemma deref_live (h : list (option A)) i v : nth_error h i = Some (Some v) -> ao_deref h (Some i) = Some v.
Proof. simpl. intros ->. reflexivity. Qed.

Lemma deref_alloc (h : list (option A)) x q : (forall i, q = Some i -> i < length h) ->
  ao_deref (h ++ [x]) q = ao_deref h q.
Proof.
  destruct q as [i|]; simpl; auto. intros H. rewrite nth_error_app1; auto.
Qed.

Lemma deref_free (h : list (option A)) j q : (forall i, q = Some i -> i <> j) ->
  ao_deref (lupd j None h) q = ao_deref h q.
Proof.
  destruct q as [i|]; simpl; auto. intros H. rewrite lupd_other; auto.
  intro E. apply (H i); auto.
Qed.

Lemma in_ptrs_pc s i c j : nth_error (ao_ops s) i = Some c -> In j (pc_ptrs c) -> In j (ptrs s).
Proof.
  intros H Hj. unfold ptrs. apply in_or_app. right. apply in_flat_map. exists c. split; auto.
  eapply nth_error_In; eauto.
Qed.

Lemma live_lt s j : ao_inv s -> In j (ptrs s) -> j < length (ao_heap s).
Proof.
  intros I H. apply (iv_live s I) in H. destruct H as [v H]. apply nth_error_Some. congruence.
Qed.

Lemma init_inv : ao_inv (ao_init v0).
Proof.
  destruct v0 as [v|] eqn:E; constructor; simpl; unfold ao_put, owned, ptrs, ao_quiet; simpl; rewrite ?E; simpl;
    auto; try congruence.
  - constructor; auto. constructor.
  - intros i. split.
    + intros [<-|[]]. exists v. reflexivity.
    + intros [w H]. destruct i as [|[|i]]; simpl in H; try discriminate. auto.
  - intros [|i] c H; discriminate.
  - intros [|n] i a o H; discriminate.
  - constructor.
  - constructor.
  - intros i. split; [tauto|]. intros [w H]. destruct i; discriminate.
  - intros [|i] c H; discriminate.
  - intros [|n] i a o H; discriminate.
  - constructor.
Qed.

Lemma begin_inv s k v s' : ao_inv s -> ao_begin s k v = Some s' -> ao_inv s'.
Proof.
  intros [] E. destruct s as [h p ph ops ar re de fa sw]. unfold ao_begin in E. simpl in *.
  destruct ph; try discriminate. injection E as <-.
  assert (Hf : forall {B} (f : ao_pc A -> list B), f (AToPtr k v) = [] ->
            flat_map f (ops ++ [AToPtr k v]) = flat_map f ops).
  { intros B f Hf. rewrite flat_map_app. simpl. rewrite Hf, !app_nil_r. reflexivity. }
  constructor; simpl; auto.
  - unfold ao_put, owned in *. simpl in *. rewrite flat_map_app. simpl. rewrite app_nil_r.
    rewrite flat_map_app. simpl. rewrite app_nil_r.
    rewrite !app_assoc in *. apply Permutation_app_tail. exact iv_perm0.
  - unfold ptrs in *; simpl in *. rewrite Hf by reflexivity. auto.
  - intros i. unfold ptrs in *; simpl in *. rewrite Hf by reflexivity. apply iv_live0.
  - congruence.
  - rewrite !app_length; simpl; lia.
  - intros i c H. apply snoc_inv in H. destruct H as [[-> ->]|[L H]].
    + simpl. rewrite <- iv_args0. apply snoc_new.
    + specialize (iv_pc0 i c H). destruct c; simpl in *; auto; apply snoc_old; auto.
  - intros n i a o H. apply iv_log0 in H. destruct H as (H1 & c & H2 & H3). split; [apply snoc_old; auto|].
    exists c. split; auto. apply snoc_old; auto.
Qed.

Definition ptr_ok (h : list (option A)) (l : list nat) : Prop :=
  NoDup l /\ forall i, In i l <-> exists v, nth_error h i = Some (Some v).

Lemma ptr_ok_perm h l l' : Permutation l l' -> ptr_ok h l -> ptr_ok h l'.
Proof.
  intros P [N L]. split; [eapply Permutation_NoDup; eauto|].
  intros i. rewrite <- L. split; apply Permutation_in; [symmetry|]; exact P.
Qed.

Lemma ptr_ok_lt h l j : ptr_ok h l -> In j l -> j < length h.
Proof. intros [_ L] H. apply L in H. destruct H as [v H]. apply nth_error_Some. congruence. Qed.

Lemma ptr_ok_alloc h l x : ptr_ok h l -> ptr_ok (h ++ [Some x]) (length h :: l).
Proof.
  intros P. split.
  - constructor; [|apply P]. intros H. apply (ptr_ok_lt _ _ _ P) in H. lia.
  - intros i. split.
    + intros [<-|H]; [exists x; apply snoc_new|]. apply P in H. destruct H as [v H].
      exists v. apply snoc_old; auto.
    + intros [v H]. apply snoc_inv in H. destruct H as [[-> _]|[_ H]]; [left; auto|].
      right. apply P. eauto.
Qed.

Lemma ptr_ok_free h l j : ptr_ok h (j :: l) -> ptr_ok (lupd j None h) l.
Proof.
  intros [N L]. inversion N as [|? ? Nj Nl]; subst. split; auto. intros i. split.
  - intros H. assert (i <> j) by congruence. rewrite lupd_other by auto. apply L. right; auto.
  - intros [v H]. apply lupd_inv in H. destruct H as [[_ H]|[n H]]; [discriminate|].
    assert (In i (j :: l)) as [|] by (apply L; eauto); auto; congruence.
Qed.

Lemma other_in i d ops j c : nth_error (lupd i d ops) j = Some c -> j <> i ->
  In c (firstn i ops ++ skipn (S i) ops : list (ao_pc A)).
Proof.
  intros H n. rewrite lupd_other in H by auto.
  destruct (Nat.lt_ge_cases i (length ops)) as [L|L].
  - destruct (nth_error ops i) as [b|] eqn:E; [|apply nth_error_None in E; lia].
    destruct (lupd_split i b b ops E) as (l1 & l2 & -> & <- & _).
    rewrite firstn_app, Nat.sub_diag, firstn_all. simpl firstn. rewrite app_nil_r.
    assert (Es : skipn (S (length l1)) (l1 ++ b :: l2) = l2) by (clear; induction l1; simpl; auto).
    rewrite Es. apply nth_error_In in H as Hin. apply in_app_or in Hin. apply in_or_app.
    destruct Hin as [|[->|]]; auto.
    (* the element itself may also occur elsewhere *)
    clear E. destruct (Nat.lt_ge_cases j (length l1)) as [L1|L1].
    + rewrite nth_error_app1 in H by auto. left. eapply nth_error_In; eauto.
    + rewrite nth_error_app2 in H by auto. destruct (j - length l1) as [|m] eqn:Em; [lia|].
      simpl in H. right. eapply nth_error_In; eauto.
  - apply in_or_app. left. rewrite firstn_all2 by auto. eapply nth_error_In; eauto.
Qed.

Lemma not_quiet s i c : ao_inv s -> nth_error (ao_ops s) i = Some c -> ao_is_done c = false -> ao_phase_of s = AAlive.
Proof.
  intros I H D. destruct (ao_phase_of s) eqn:E; auto;
    rewrite (iv_quiet s I ltac:(congruence) i c H) in D; discriminate.
Qed.

(** One step of a call: the frame of the invariant. *)
Lemma step_call h p ops ar re de sw i c h' p' d re' de' sw' :
  ao_inv (mkAo h p AAlive ops ar re de false sw) ->
  nth_error ops i = Some c ->
  let R := flat_map pc_ptrs (firstn i ops ++ skipn (S i) ops) in
  (* pointers *)
  (ptr_ok h (olist p ++ pc_ptrs c ++ R) -> ptr_ok h' (olist p' ++ pc_ptrs d ++ R)) ->
  (* values *)
  (forall o, Permutation o (re ++ de ++ flat_map olist h ++ pc_vals c) ->
             Permutation o (re' ++ de' ++ flat_map olist h' ++ pc_vals d)) ->
  (* other calls' pointers keep their contents *)
  (forall q, (forall j, q = Some j -> In j R) -> ao_deref h' q = ao_deref h q) ->
  (* the log *)
  handed_over v0 sw' -> ao_deref h' p' = last_in v0 sw' ->
  (forall n e, nth_error sw n = Some e -> nth_error sw' n = Some e) ->
  pc_ok (mkAo h' p' AAlive (lupd i d ops) ar re' de' false sw') i d ->
  (forall n j a o, nth_error sw' n = Some (j, a, o) -> nth_error sw n = Some (j, a, o) \/
      (j = i /\ nth_error ar i = Some a)) ->
  (swapped c = true -> swapped d = true) ->
  (forall n a o, nth_error sw' n = Some (i, a, o) -> swapped d = true) ->
  NoDup (map (fun e => fst (fst e)) sw') ->
  ao_inv (mkAo h' p' AAlive (lupd i d ops) ar re' de' false sw').
Proof.
  intros I Hc R Hp Hv Hd Hh Hl Hsw Hpc Hlog Hs1 Hs2 Hnd.
  pose proof (flat_upd pc_ptrs ops i c Hc) as [P1 P2].
  pose proof (flat_upd pc_vals ops i c Hc) as [V1 V2].
  fold R in P1, P2. set (RV := flat_map pc_vals (firstn i ops ++ skipn (S i) ops)) in *.
  assert (Hptr : ptr_ok h' (ptrs (mkAo h' p' AAlive (lupd i d ops) ar re' de' false sw'))).
  { unfold ptrs. simpl. eapply ptr_ok_perm; [apply Permutation_app_head; symmetry; apply P2|]. apply Hp.
    eapply ptr_ok_perm; [apply Permutation_app_head; apply P1|].
    split; [exact (iv_nodup _ I)|exact (iv_live _ I)]. }
  constructor; simpl; auto.
  - unfold ao_put, owned in *. simpl.
    pose proof (iv_perm _ I) as P. unfold ao_put, owned in P. simpl in P.
    transitivity (((re ++ de ++ flat_map olist h ++ pc_vals c) ++ RV)).
    + etransitivity; [exact P|]. rewrite <- !app_assoc. do 3 apply Permutation_app_head. exact V1.
    + transitivity ((re' ++ de' ++ flat_map olist h' ++ pc_vals d) ++ RV).
      * apply Permutation_app_tail. apply Hv. reflexivity.
      * rewrite <- !app_assoc. do 3 apply Permutation_app_head. symmetry. apply V2.
  - apply Hptr.
  - apply Hptr.
  - congruence.
  - congruence.
  - rewrite lupd_length. exact (iv_args _ I).
  - intros j e Hj. destruct (Nat.eq_dec j i) as [->|n].
    + apply lupd_inv in Hj. destruct Hj as [[_ ->]|[]]; [exact Hpc|congruence].
    + pose proof (other_in _ _ _ _ _ Hj n) as Hin. rewrite lupd_other in Hj by auto.
      pose proof (iv_pc _ I j e Hj) as Hok.
      assert (HR : forall q, pc_ptrs e = olist q -> forall x, q = Some x -> In x R).
      { intros q Hq x ->. apply in_flat_map. exists e. split; auto. rewrite Hq. left; auto. }
      destruct e; simpl in *; auto.
      * rewrite Hd by (apply HR; reflexivity); auto.
      * destruct Hok as [a Hok]. exists a. rewrite Hd by (apply HR; reflexivity); auto.
      * destruct Hok as [a Hok]. exists a. auto.
      * destruct Hok as [a Hok]. exists a. auto.
  - intros n j a o H. destruct (Nat.eq_dec j i) as [->|nj].
    + split.
      * destruct (Hlog _ _ _ _ H) as [H'|[_ H']]; auto. apply (iv_log _ I _ _ _ _ H').
      * exists d. split; [eapply lupd_same; eauto|]. eapply Hs2; eauto.
    + destruct (Hlog _ _ _ _ H) as [H'|[E _]]; [|congruence].
      destruct (iv_log _ I _ _ _ _ H') as (E1 & e & E2 & E3). split; [exact E1|].
      exists e. rewrite lupd_other by auto. auto.
Qed.

Lemma perm_tail3 (l1 l2 l3 l4 l3' l4' o : list A) :
  Permutation (l3 ++ l4) (l3' ++ l4') -> Permutation o (l1 ++ l2 ++ l3 ++ l4) -> Permutation o (l1 ++ l2 ++ l3' ++ l4').
Proof. intros P ->. do 2 apply Permutation_app_head. exact P. Qed.

Lemma step_inv s m s' : ao_inv s -> ao_step s m = Some s' -> ao_inv s'.
Proof.
  intros I E. destruct m as [v|v| | |i|].
  - eapply begin_inv; [exact I|]. destruct s; exact E.
  - eapply begin_inv; [exact I|]. destruct s; exact E.
  - eapply begin_inv; [exact I|]. destruct s; exact E.
  - destruct s as [h p ph ops ar re de fa sw]. simpl in E. destruct ph; try discriminate.
    destruct (forallb ao_is_done ops) eqn:F; [|discriminate]. injection E as <-.
    destruct I. constructor; simpl in *; auto; try congruence.
    + intros _ j c H. rewrite forallb_forall in F. apply F. eapply nth_error_In; eauto.
    + intros _. apply iv_last0. congruence.
  - destruct s as [h p ph ops ar re de fa sw]. simpl in E.
    destruct (nth_error ops i) as [c|] eqn:Hc; [|discriminate].
    assert (Hfa : fa = false) by exact (iv_fault _ I). subst fa.
    destruct (ao_is_done c) eqn:Dn; [destruct c; discriminate|].
    assert (Hph : ph = AAlive) by exact (not_quiet _ _ _ I Hc Dn). subst ph.
    pose proof (iv_pc _ I i c Hc) as Hok.
    pose proof (flat_upd pc_ptrs ops i c Hc) as [P1 _].
    set (R := flat_map pc_ptrs (firstn i ops ++ skipn (S i) ops)) in *.
    assert (Hptr : ptr_ok h (olist p ++ pc_ptrs c ++ R)).
    { eapply ptr_ok_perm; [apply Permutation_app_head; apply P1|].
      split; [exact (iv_nodup _ I)|exact (iv_live _ I)]. }
    pose proof (iv_chain _ I) as Hch. pose proof (iv_last _ I) as Hla. simpl in Hch, Hla.
    specialize (Hla ltac:(congruence)).
    pose proof (iv_once _ I) as Hon. simpl in Hon.
    assert (Hlog0 : swapped c = false -> forall n a o, nth_error sw n <> Some (i, a, o)).
    { intros Sc n a o H. apply (iv_log _ I) in H. destruct H as (_ & e & H1 & H2). simpl in H1.
      rewrite Hc in H1. injection H1 as <-. congruence. }
    destruct c as [k v|k q|k q n|v n|]; try discriminate; simpl in Hok.
    + (* allocate *)
      destruct v as [x|]; simpl in E; injection E as <-.
      * eapply step_call; simpl; eauto; fold R.
        -- intros Ok. eapply ptr_ok_perm; [|apply (ptr_ok_alloc _ _ x Ok)].
           simpl. apply Permutation_cons_app. reflexivity.
        -- intros o. apply perm_tail3. rewrite flat_map_app. simpl. rewrite app_nil_r.
           reflexivity.
        -- intros q Hq. apply deref_alloc. intros j ->. apply (ptr_ok_lt _ _ _ Hptr).
           apply in_or_app; right. apply in_or_app; right. auto.
        -- rewrite deref_alloc; auto. intros j ->. apply (ptr_ok_lt _ _ _ Hptr). simpl. auto.
        -- rewrite snoc_new. exact Hok.
        -- intros n a o H. exfalso. eapply Hlog0; eauto.
      * eapply step_call; simpl; eauto; fold R.
        intros n a o H. exfalso. eapply Hlog0; eauto.
    + (* swap *)
      injection E as <-. eapply step_call; simpl; eauto; fold R.
      * intros Ok. eapply ptr_ok_perm; [|exact Ok]. rewrite !app_assoc. apply Permutation_app_tail.
        apply Permutation_app_comm.
      * apply handed_snoc. auto.
      * rewrite last_in_snoc. reflexivity.
      * intros n e H. apply snoc_old; auto.
      * eexists. apply snoc_new.
      * intros n j a o H. apply snoc_inv in H. destruct H as [[_ H]|[_ H]]; auto.
        injection H as -> -> ->. auto.
      * rewrite map_app. simpl. apply (Permutation_NoDup (l := i :: map (fun e => fst (fst e)) sw)).
        { apply Permutation_cons_append. }
        constructor; auto. intros Hin. apply in_map_iff in Hin. destruct Hin as ([[j a] o] & Ej & Hin).
        simpl in Ej. subst j. apply In_nth_error in Hin. destruct Hin as [n Hn].
        eapply Hlog0; eauto.
    + (* take the value out of the old box *)
      destruct Hok as [a Hok].
      destruct q as [j|].
      * assert (Lj : exists x, nth_error h j = Some (Some x)).
        { apply Hptr. apply in_or_app; right. simpl. auto. }
        destruct Lj as [x Lj]. simpl in E, Hok. rewrite Lj in E, Hok. simpl in E.
        assert (Hfree : ptr_ok (lupd j None h) (olist p ++ R)).
        { apply ptr_ok_free. eapply ptr_ok_perm; [|exact Hptr]. simpl. symmetry. apply Permutation_middle. }
        assert (Hne : forall y, In y (olist p ++ R) -> y <> j).
        { intros y Hy ->. destruct Hptr as [N _]. apply Permutation_NoDup with (l' := j :: olist p ++ R) in N.
          - inversion N; subst. auto.
          - symmetry. apply Permutation_middle. }
        assert (Hdp : ao_deref (lupd j None h) p = last_in v0 sw).
        { rewrite deref_free; auto. intros y ->. apply Hne. left; auto. }
        assert (Hdr : forall q, (forall y, q = Some y -> In y R) -> ao_deref (lupd j None h) q = ao_deref h q).
        { intros q Hq. apply deref_free. intros y ->. apply Hne. apply in_or_app. auto. }
        pose proof (heap_upd h j x Lj) as Hh.
        destruct k; injection E as <-; eapply step_call; simpl; eauto; fold R; intros o ->; rewrite Hh; simpl;
          rewrite ?app_nil_r, <- ?app_assoc; try (do 2 apply Permutation_app_head; apply Permutation_cons_append);
          apply Permutation_app_head; simpl; symmetry; apply Permutation_middle.
      * simpl in E. destruct k; injection E as <-; eapply step_call; simpl; eauto; fold R;
          intros o ->; rewrite ?app_nil_r; reflexivity.
    + (* store drops the value *)
      injection E as <-. destruct Hok as [a Hok]. eapply step_call; simpl; eauto; fold R.
      intros o ->. rewrite app_nil_r. rewrite <- !app_assoc. do 2 apply Permutation_app_head.
      apply Permutation_app_comm.
  - destruct s as [h p ph ops ar re de fa sw]. simpl in E.
    pose proof I as I0. destruct I; simpl in *. destruct ph as [| |q|]; try discriminate.
    + injection E as <-. constructor; simpl in *; auto; try congruence.
      * intros _. apply iv_quiet0. congruence.
      * intros _. apply iv_last0. congruence.
    + assert (Hq : q = p) by (apply iv_free0; reflexivity). subst q.
      assert (Hquiet : forall i c, nth_error ops i = Some c -> pc_ptrs c = [] /\ ao_is_done c = true).
      { intros i c H. specialize (iv_quiet0 ltac:(congruence) i c H). split; auto. destruct c; auto; discriminate. }
      assert (Hfl : flat_map pc_ptrs ops = []).
      { clear - Hquiet. induction ops as [|c ops IH]; simpl; auto.
        rewrite (proj1 (Hquiet 0 c eq_refl)). apply IH. intros i d H. apply (Hquiet (S i) d H). }
      unfold ptrs in *. simpl in *. rewrite Hfl, app_nil_r in *.
      assert (Hpcs : forall h' re' de' fa', forall i c, nth_error ops i = Some c ->
                pc_ok (mkAo h' p ADropped ops ar re' de' fa' sw) i c).
      { intros h' re' de' fa' i c H. specialize (iv_pc0 i c H). destruct (Hquiet i c H) as [_ D].
        destruct c; try discriminate. exact iv_pc0. }
      destruct p as [j|]; simpl in *.
      * assert (Lj : exists x, nth_error h j = Some (Some x)) by (apply iv_live0; auto).
        destruct Lj as [x Lj]. rewrite Lj in *. injection E as <-. rewrite iv_fault0.
        assert (Hptr : ptr_ok (lupd j None h) []) by (apply ptr_ok_free; split; auto).
        constructor; unfold ptrs; simpl; rewrite ?Hfl; simpl; auto; try congruence.
        -- unfold ao_put, owned in *. simpl in *. rewrite iv_perm0.
           rewrite (heap_upd h j x Lj). rewrite <- !app_assoc. do 2 apply Permutation_app_head. reflexivity.
        -- apply Hptr.
        -- apply Hptr.
        -- intros _. apply iv_quiet0. congruence.
      * injection E as <-. rewrite iv_fault0.
        constructor; unfold ptrs; simpl; rewrite ?Hfl, ?app_nil_r; simpl; auto; try congruence.
        intros _. apply iv_quiet0. congruence.
    Qed.

Lemma reach_inv l s : exec ao_step (ao_init v0) l = Some s -> ao_inv s.
Proof. apply exec_inv; [apply step_inv|apply init_inv]. Qed.

(** ** The claims *)
Lemma ao_no_fault l s : exec ao_step (ao_init v0) l = Some s ->
  ao_fault s = false
  /\ (forall i k p n, nth_error (ao_ops s) i = Some (AFrom k (Some p) n) -> exists v, nth_error (ao_heap s) p = Some (Some v))
  /\ (forall p, ao_phase_of s = ADropFree (Some p) -> exists v, nth_error (ao_heap s) p = Some (Some v)).
Proof.
  intros H. pose proof (reach_inv _ _ H) as I. split; [apply (iv_fault _ I)|]. split.
  - intros i k p n E. apply (iv_live _ I). unfold ptrs. apply in_app_iff. right. apply in_flat_map.
    exists (AFrom k (Some p) n). split; [eapply nth_error_In; exact E|]. left. reflexivity.
  - intros p E. apply (iv_live _ I). unfold ptrs. rewrite E. left. reflexivity.
Qed.

Lemma quiet_owned s : ao_inv s -> ao_quiet s ->
  flat_map pc_vals (ao_ops s) = [] /\ flat_map pc_ptrs (ao_ops s) = [].
Proof.
  intros _ Q. unfold ao_quiet in Q. revert Q. induction (ao_ops s) as [|c ops IH]; simpl; auto.
  intros Q. destruct IH as [-> ->]; [intros i d H; apply (Q (S i) d H)|].
  specialize (Q 0 c eq_refl). destruct c; try discriminate. auto.
Qed.

Lemma heap_empty (h : list (option A)) : (forall i v, nth_error h i <> Some (Some v)) -> flat_map olist h = [].
Proof.
  induction h as [|o h IH]; simpl; auto. intros H. rewrite IH; [|intros i; apply (H (S i))].
  destruct o as [v|]; auto. exfalso. apply (H 0 v). reflexivity.
Qed.

Lemma heap_one (h : list (option A)) j v : nth_error h j = Some (Some v) ->
  (forall i w, nth_error h i = Some (Some w) -> i = j) -> flat_map olist h = [v].
Proof.
  intros H U. destruct (lupd_split j None (Some v) h H) as (l1 & l2 & -> & E & _).
  rewrite flat_map_app. simpl. rewrite !heap_empty; simpl; auto.
  - intros i w Hi. specialize (U (length l1 + S i) w). rewrite nth_error_app2 in U by lia.
    replace (length l1 + S i - length l1) with (S i) in U by lia. specialize (U Hi). lia.
  - intros i w Hi. assert (L : i < length l1) by (apply nth_error_Some; congruence).
    specialize (U i w). rewrite nth_error_app1 in U by auto. specialize (U Hi). lia.
Qed.

Lemma ao_accounted l s : exec ao_step (ao_init v0) l = Some s -> ao_quiet s ->
  match ao_phase_of s with
  | AAlive | ADropLoad =>
      Permutation (ao_put v0 s) (ao_returned s ++ ao_destroyed s ++ olist (ao_deref (ao_heap s) (ao_ptr s)))
  | ADropFree _ => True
  | ADropped =>
      Permutation (ao_put v0 s) (ao_returned s ++ ao_destroyed s)
      /\ forall i o, nth_error (ao_heap s) i = Some o -> o = None
  end.
Proof.
  intros H Q. apply reach_inv in H. destruct (quiet_owned _ H Q) as [Ov Op]. destruct H.
  unfold owned, ptrs in *. rewrite Ov, Op, app_nil_r in *.
  assert (Hcell : forall p, olist p = cell_ptrs (ao_phase_of s) (ao_ptr s) ->
            flat_map olist (ao_heap s) = olist (ao_deref (ao_heap s) p)).
  { intros p Hp. rewrite <- Hp in iv_live0. destruct p as [j|]; simpl in *.
    - destruct (proj1 (iv_live0 j) (or_introl eq_refl)) as [v Hv]. rewrite Hv. simpl. apply heap_one with j; auto.
      intros i w Hi. assert (In i [j]) as [|[]] by (apply iv_live0; eauto). auto.
    - apply heap_empty. intros i v Hv. apply (iv_live0 i). eauto. }
  destruct (ao_phase_of s) eqn:Ph; simpl in *.
  - rewrite (Hcell (ao_ptr s) eq_refl) in iv_perm0. exact iv_perm0.
  - rewrite (Hcell (ao_ptr s) eq_refl) in iv_perm0. exact iv_perm0.
  - exact Logic.I.
  - assert (He : forall i v, nth_error (ao_heap s) i <> Some (Some v)).
    { intros i v Hv. apply (iv_live0 i). eauto. }
    split.
    + rewrite (heap_empty _ He), ?app_nil_r in iv_perm0. exact iv_perm0.
    + intros i [v|] Hi; auto. exfalso. eapply He; eauto.
Qed.

Lemma ao_atomic l s : exec ao_step (ao_init v0) l = Some s ->
  handed_over v0 (ao_swaps s)
  /\ NoDup (map (fun e => fst (fst e)) (ao_swaps s))
  /\ (forall n i a o, nth_error (ao_swaps s) n = Some (i, a, o) -> nth_error (ao_args s) i = Some a)
  /\ (forall i k r n, nth_error (ao_ops s) i = Some (ADone k r n) ->
        exists a, nth_error (ao_swaps s) n = Some (i, a, r)).
Proof.
  intros H. apply reach_inv in H. destruct H. split; [auto|]. split; [auto|]. split.
  - intros n i a o Hn. apply (iv_log0 _ _ _ _ Hn).
  - intros i k r n Hi. exact (iv_pc0 _ _ Hi).
Qed.
End AO.
