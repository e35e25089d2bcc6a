(** Concrete schedules of Mutable.v: what does not hold, and examples. *)
From Verif Require Import Base Spec BaseFacts Conc Mutable MutableFacts MutableFacts2 MutableFacts3 MutableFacts4 MutableFacts5 MutableFacts6 MutableFacts7 MutableFacts11 MutableFacts12.

Ltac run_mu := apply ran; split_ex.
Ltac run_mu2 := apply ran2; split_ex.
Ltac run_mu3 := apply ran3; split_ex.

(** [mu_quiet] and [sigs_idle], to be computed. *)
Definition quietb {A} (s : mu_st A) : bool := forallb o_done (m_ops s).
Definition idleb {A} (s : mu_st A) : bool :=
  forallb (fun k => match g_pc (m_sig s k) with GIdle | GGone => true | _ => false end) (seq 0 (m_nsig s)).
Lemma quietb_spec {A} (s : mu_st A) : quietb s = true -> mu_quiet s.
Proof. intros H o Ho. unfold quietb in H. rewrite forallb_forall in H. auto. Qed.
Lemma idleb_spec {A} (s : mu_st A) : idleb s = true -> sigs_idle s.
Proof.
  intros H k Hk. unfold idleb in H. rewrite forallb_forall in H. specialize (H k). rewrite in_seq in H.
  specialize (H ltac:(lia)). destruct (g_pc (m_sig s k)); auto; discriminate.
Qed.
Lemma gone_spec {A} (s : mu_st A) m : m_live s = [] -> all_gone s m.
Proof. intros E h. rewrite E. auto. Qed.

(** A Mutable with value 1 and a signal that has shown it. *)
Definition ex_mu_start : list (mu_move nat) :=
  [XNew 1; XSignal 0] ++ repeat (XSig 0) 3 ++ XPoll 0 :: repeat (XSig 0) 4.
(** ... and that waits. *)
Definition ex_mu_wait : list (mu_move nat) := ex_mu_start ++ XPoll 0 :: repeat (XSig 0) 3.

(** A change between is_changed and set_waker. *)
Definition ex_mu_lost : list (mu_move nat) :=
  ex_mu_start ++ [XPoll 0; XSig 0; XSet 0 2] ++ repeat (XOp 0) 9 ++ [XSig 0; XSig 0].
(** The last drop between senders.load and set_waker. *)
Definition ex_mu_lost_drop : list (mu_move nat) :=
  ex_mu_start ++ [XPoll 0; XSig 0; XSig 0; XDrop 0] ++ repeat (XOp 0) 10 ++ [XSig 0].
(** A change and the last drop between is_changed and senders.load. *)
Definition ex_mu_last : list (mu_move nat) :=
  ex_mu_start ++ [XPoll 0; XSig 0; XSet 0 2] ++ repeat (XOp 0) 9 ++ [XDrop 0] ++ repeat (XOp 1) 10.

Lemma mu_lost : ~ (forall (d : nat) l s k, exec mu_step (mu_init d) l = Some s -> mu_quiet s -> sigs_idle s -> k < m_nsig s ->
  g_pc (m_sig s k) = GIdle -> g_waiting (m_sig s k) = true -> latest_of (g_ans (m_sig s k)) <> Some (val_of s k) ->
  In (k, g_polls (m_sig s k)) (m_woken s)).
Proof.
  intros H. assert (X : exists s, exec mu_step (mu_init 0) ex_mu_lost = Some s /\ quietb s = true /\ idleb s = true /\ m_nsig s = 1
    /\ g_pc (m_sig s 0) = GIdle /\ g_waiting (m_sig s 0) = true /\ latest_of (g_ans (m_sig s 0)) = Some 1 /\ val_of s 0 = 2 /\ m_woken s = [])
    by run_mu.
  destruct X as (s & E & Q & I & N & P & W & La & V & Wk).
  specialize (H 0 _ s 0 E (quietb_spec s Q) (idleb_spec s I)). rewrite N, P, W, La, V, Wk in H. apply H; auto; discriminate.
Qed.

Lemma mu_lost_drop : ~ (forall (d : nat) l s k, exec mu_step (mu_init d) l = Some s -> mu_quiet s -> sigs_idle s -> k < m_nsig s ->
  g_pc (m_sig s k) = GIdle -> g_waiting (m_sig s k) = true -> all_gone s (mut_of s k) ->
  In (k, g_polls (m_sig s k)) (m_woken s)).
Proof.
  intros H. assert (X : exists s, exec mu_step (mu_init 0) ex_mu_lost_drop = Some s /\ quietb s = true /\ idleb s = true /\ m_nsig s = 1
    /\ g_pc (m_sig s 0) = GIdle /\ g_waiting (m_sig s 0) = true /\ m_live s = [] /\ m_woken s = []) by run_mu.
  destruct X as (s & E & Q & I & N & P & W & La & Wk).
  specialize (H 0 _ s 0 E (quietb_spec s Q) (idleb_spec s I)). rewrite N, P, W, Wk in H. apply H; auto. apply gone_spec; auto.
Qed.

Lemma mu_lost_value : ~ (forall (d : nat) l s k s', exec mu_step (mu_init d) l = Some s -> k < m_nsig s ->
  mu_step s (XSig k) = Some s' -> g_ans (m_sig s' k) = g_ans (m_sig s k) ++ [Ready None] ->
  latest_of (g_ans (m_sig s k)) = Some (val_of s k)).
Proof.
  intros H. assert (X : exists s t, exec mu_step (mu_init 0) ex_mu_last = Some s /\ mu_step s (XSig 0) = Some t /\
      (m_nsig s = 1 /\ g_ans (m_sig t 0) = [Ready (Some 1); Ready None] /\ g_ans (m_sig s 0) = [Ready (Some 1)] /\ val_of s 0 = 2)).
  { apply (ran2 (exec mu_step (mu_init 0) ex_mu_last) (fun s => mu_step s (XSig 0)) (fun s t => m_nsig s = 1 /\ g_ans (m_sig t 0) = [Ready (Some 1); Ready None] /\ g_ans (m_sig s 0) = [Ready (Some 1)] /\ val_of s 0 = 2)). split_ex. }
  destruct X as (s & s' & E & E' & N & A' & A & V).
  specialize (H 0 _ s 0 s' E). rewrite N, A', A, V in H. specialize (H (le_n 1) E' eq_refl). discriminate H.
Qed.

(** set_neq to another value and back between two polls. *)
Definition ex_mu_neq : list (mu_move nat) :=
  ex_mu_start ++ [XSetNeq 0 2 Nat.eqb] ++ repeat (XOp 0) 9 ++ [XSetNeq 0 1 Nat.eqb] ++ repeat (XOp 1) 9 ++ XPoll 0 :: repeat (XSig 0) 4.
(** set_neq between is_changed and the read: the poll shows the new value, and so does the next one. *)
Definition ex_mu_neq2 : list (mu_move nat) :=
  [XNew 1; XSignal 0] ++ repeat (XSig 0) 3 ++ [XPoll 0; XSig 0; XSetNeq 0 2 Nat.eqb] ++ repeat (XOp 0) 9 ++ repeat (XSig 0) 3.

Lemma Forall_b {B} (P : B -> Prop) (f : B -> bool) l : (forall x, f x = true -> P x) -> forallb f l = true -> Forall P l.
Proof. intros H F. rewrite forallb_forall in F. apply Forall_forall. auto. Qed.

(** Every write in [l] is a set_neq. *)
Definition only_set_neq (l : list (mu_move nat)) : Prop := Forall (fun mv => match mv with
  | XWrite h f => exists v, mv = XSetNeq h v Nat.eqb | XLockMut _ | XSwap _ _ => False | _ => True end) l.

Lemma mu_neq_repeats : ~ (forall (d : nat) l s k v p q, exec mu_step (mu_init d) l = Some s -> only_set_neq l -> k < m_nsig s ->
  yielded (g_ans (m_sig s k)) = p ++ v :: v :: q -> False).
Proof.
  intros H. assert (X : exists s, exec mu_step (mu_init 0) ex_mu_neq = Some s /\ m_nsig s = 1 /\ yielded (g_ans (m_sig s 0)) = [1; 1]) by run_mu.
  destruct X as (s & E & N & Y). apply (H 0 _ s 0 1 [] [] E); auto; [|lia].
  unfold only_set_neq, ex_mu_neq, ex_mu_start. repeat (constructor; simpl; eauto).
Qed.

(** ** Deadlocks *)
Definition ex_mu_dead : list (mu_move nat) := [XNew 1; XNew 2; XSwap 0 1; XSwap 1 0; XOp 0; XOp 1].
Definition ex_mu_self : list (mu_move nat) := [XNew 1; XClone 0; XOp 0; XSwap 0 1; XOp 1].

(** The calls [is] never return, whatever happens. *)
Definition stuck {A} (s : mu_st A) (is : list nat) : Prop := forall l s', exec mu_step s l = Some s' ->
  forall i, In i is -> exists o, nth_error (m_ops s') i = Some o /\ o_done o = false.

Lemma mu_dead : exists s, exec mu_step (mu_init 0) ex_mu_dead = Some s /\ stuck s [0; 1].
Proof.
  assert (X : exists s, exec mu_step (mu_init 0) ex_mu_dead = Some s /\ map o_pc (m_ops s) = [QSAcq2 0 1; QSAcq2 1 0]) by run_mu.
  destruct X as (s & E & P). exists s. split; [exact E|].
  destruct (m_ops s) as [|o0 [|o1 [|]]] eqn:Ho; try discriminate P. injection P as P0 P1.
  intros l s' El. destruct (mu_deadlock 0 _ s 0 1 o0 o1 0 1 l s' E) as [H0 H1]; auto; [rewrite Ho; reflexivity|rewrite Ho; reflexivity|].
  intros i [<-|[<-|[]]]; eexists; (split; [eassumption|]); unfold o_done; rewrite ?P0, ?P1; reflexivity.
Qed.

(** A Mutable and its clone. *)
Lemma mu_dead_self : exists s, exec mu_step (mu_init 0) ex_mu_self = Some s /\ stuck s [1].
Proof.
  assert (X : exists s, exec mu_step (mu_init 0) ex_mu_self = Some s /\ map o_pc (m_ops s) = [QRet; QSAcq2 0 0]) by run_mu.
  destruct X as (s & E & P). exists s. split; [exact E|].
  destruct (m_ops s) as [|o0 [|o1 [|]]] eqn:Ho; try discriminate P. injection P as P0 P1.
  intros l s' El. destruct (mu_deadlock 0 _ s 1 1 o1 o1 0 0 l s' E) as [H0 H1]; auto; try (rewrite Ho; reflexivity).
  intros i [<-|[]]; eexists; (split; [eassumption|]); unfold o_done; rewrite ?P1; reflexivity.
Qed.
