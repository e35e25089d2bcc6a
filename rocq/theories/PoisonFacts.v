(** Proofs for Poison.v. *)
From Verif Require Import Base Spec BaseFacts Conc Poison.

Section PoisonFacts.
Context {A : Type}.
Implicit Types (s : po_st A) (g : po_sig A).

Ltac po_step H := unfold po_step in H; destruct (o_aborted _) eqn:?; [discriminate|].
Ltac po_split H := repeat match type of H with
  | context [match ?x with _ => _ end] => lazymatch x with context [match _ with _ => _ end] => fail | _ => destruct x eqn:? end
  | context [let '(_, _) := ?x in _] => destruct x eqn:?
  end; try discriminate H; try (injection H as <-).

(** *** The log *)
Definition log_ok (d : A) s : Prop :=
  (forall l1 e l2, o_log s = l1 ++ e :: l2 -> In EPoison l1 -> e = EPanic)
  /\ (forall l1 v l2, o_log s = l1 ++ ESee v :: l2 -> written d l1 = v)
  /\ (o_poisoned s = true <-> In EPoison (o_log s))
  /\ (o_value s = written d (o_log s)).

Lemma written_snoc (d : A) l e : written d (l ++ [e]) = match e with EWrite x => x | _ => written d l end.
Proof. unfold written. rewrite fold_left_app. reflexivity. Qed.

Lemma snoc_split {X} (l l1 l2 : list X) x e : l ++ [x] = l1 ++ e :: l2 -> (exists l3, l = l1 ++ e :: l3) \/ (l = l1 /\ e = x).
Proof.
  revert l1. induction l as [|a l IH]; intros [|b l1] H; cbn in H.
  - right. injection H as <- _. auto.
  - injection H as _ H. destruct l1; discriminate.
  - injection H as <- <-. left. exists l. reflexivity.
  - injection H as <- H. destruct (IH _ H) as [(l3 & ->)|[-> <-]]; [left; exists l3; reflexivity|right; auto].
Qed.

(** One more event, on a lock which is not poisoned unless the event is [EPanic]. *)
Lemma log_note d s s' e : log_ok d s -> o_log s' = o_log s ++ [e] ->
  (o_poisoned s = true -> e = EPanic) ->
  (forall v, e = ESee v -> v = o_value s) ->
  o_value s' = (match e with EWrite x => x | _ => o_value s end) ->
  o_poisoned s' = (match e with EPoison => true | _ => o_poisoned s end) -> log_ok d s'.
Proof.
  intros (H1 & H2 & H3 & H4) El Hp Hs Hv Hpo. unfold log_ok. rewrite El. split; [|split; [|split]].
  - intros l1 x l2 E Hi. destruct (snoc_split _ _ _ _ _ E) as [(l3 & E3)|[E3 ->]]; [exact (H1 _ _ _ E3 Hi)|].
    apply Hp, H3. rewrite E3. exact Hi.
  - intros l1 x l2 E. destruct (snoc_split _ _ _ _ _ E) as [(l3 & E3)|[E3 E4]]; [exact (H2 _ _ _ E3)|].
    rewrite <- E3, <- H4. symmetry. apply Hs. auto.
  - rewrite Hpo, in_app_iff. cbn. destruct e; intuition congruence.
  - rewrite Hv, written_snoc. destruct e; auto.
Qed.
Lemma log_keep d s s' : log_ok d s -> o_log s' = o_log s -> o_value s' = o_value s -> o_poisoned s' = o_poisoned s -> log_ok d s'.
Proof. intros H E1 E2 E3. unfold log_ok in *. rewrite E1, E2, E3. exact H. Qed.
Lemma log_poison d s : log_ok d s -> o_poisoned s = false -> log_ok d (po_poison s).
Proof.
  intros H Hp. apply (log_note d (mkPo (o_value s) true (o_aborted s) (o_senders s) (o_signals s) (o_nsig s) (o_sig s) None (o_drops s) (o_woken s) (o_log s ++ [EPoison])) _ EPanic).
  - apply (log_note d s _ EPoison); try reflexivity; [exact H|congruence|discriminate].
  - cbn. rewrite <- app_assoc. reflexivity.
  - reflexivity.
  - discriminate.
  - reflexivity.
  - reflexivity.
Qed.

(** The lock is not poisoned while somebody has it for writing. *)
Definition job_ok s : Prop := o_job s <> None -> o_poisoned s = false.

Lemma job_ok_step s m s' : job_ok s -> po_step s m = Some s' -> job_ok s'.
Proof.
  intros H E. unfold job_ok in *. po_step E.
  destruct m; cbn in E; po_split E; cbn in *; try congruence; try (intros; apply H; congruence).
Qed.

Lemma log_step d s m s' : job_ok s -> log_ok d s -> po_step s m = Some s' -> log_ok d s'.
Proof.
  intros HJ H E. po_step E.
  assert (Hj : forall j, o_job s = Some j -> o_poisoned s = false) by (intros j Hj; apply HJ; congruence).
  destruct m; cbn [fst snd] in E.
  - (* NWrite *)
    destruct (o_job s); [discriminate|]. destruct (o_senders s =? 0); [discriminate|]. destruct (o_poisoned s) eqn:Hp.
    + injection E as <-. apply (log_note d s _ EPanic); cbn; auto. discriminate.
    + destruct (po_do w (o_value s)) as [[x n] p] eqn:Ed.
      assert (HN : log_ok d (po_note (po_set s x) [EWrite x])) by (apply (log_note d s _ (EWrite x)); cbn; auto; congruence).
      destruct n; [injection E as <-; eapply log_keep; [exact HN|reflexivity..]|].
      destruct p; injection E as <-; [apply log_poison; [exact HN|exact Hp]|exact HN].
  - (* NNotify *)
    destruct (o_job s) as [[[|k todo] kept changed unwinds last]|] eqn:Ej; try discriminate. pose proof (Hj _ eq_refl) as Hp.
    destruct (q_alive (o_sig s k)); [|injection E as <-; eapply log_keep; [exact H|reflexivity..]].
    destruct (q_waker (o_sig s k)); [|injection E as <-; eapply log_keep; [exact H|reflexivity..]].
    destruct ok; [injection E as <-; eapply log_keep; [exact H|reflexivity..]|].
    destruct unwinds; injection E as <-.
    + apply (log_note d s _ EPanic); cbn; auto. discriminate.
    + apply log_poison; [|exact Hp]. eapply log_keep; [exact H|reflexivity..].
  - (* NRelease *)
    destruct (o_job s) as [[[|k todo] kept changed unwinds last]|] eqn:Ej; try discriminate. pose proof (Hj _ eq_refl) as Hp.
    destruct last; [injection E as <-; eapply log_keep; [exact H|reflexivity..]|].
    destruct unwinds; injection E as <-; [|eapply log_keep; [exact H|reflexivity..]].
    apply log_poison; [|exact Hp]. eapply log_keep; [exact H|reflexivity..].
  - (* NGet *)
    destruct (o_job s); [discriminate|]. injection E as <-. eapply (log_note d s _ _ H); [reflexivity|..]; cbn.
    + intros ->. reflexivity.
    + intros v. destruct (o_poisoned s), ok; try discriminate. congruence.
    + destruct (o_poisoned s), ok; reflexivity.
    + destruct (o_poisoned s), ok; reflexivity.
  - (* NSignal *)
    destruct (o_senders s =? 0); [injection E as <-; eapply log_keep; [exact H|reflexivity..]|].
    destruct (o_job s); [discriminate|]. destruct (o_poisoned s) eqn:Hp; injection E as <-.
    + apply (log_note d s _ EPanic); cbn; auto. discriminate.
    + eapply log_keep; [exact H|reflexivity..].
  - destruct (q_alive (o_sig s k)), (q_pc (o_sig s k)); try discriminate. injection E as <-. eapply log_keep; [exact H|reflexivity..].
  - (* NRead *)
    destruct (q_pc (o_sig s k)); try discriminate. destruct (o_job s); [discriminate|].
    destruct (negb (o_poisoned s) && ok) eqn:Eo; injection E as <-.
    + apply andb_true_iff in Eo as [Ep ->]. apply negb_true_iff in Ep. apply (log_note d s _ (ESee (o_value s))); cbn; auto; congruence.
    + apply (log_note d s _ EPanic); cbn; auto. discriminate.
  - destruct (q_pc (o_sig s k)); try discriminate. injection E as <-. eapply log_keep; [exact H|reflexivity..].
  - destruct (q_pc (o_sig s k)); try discriminate. injection E as <-. eapply log_keep; [exact H|reflexivity..].
  - destruct (q_alive (o_sig s k)), (q_pc (o_sig s k)); try discriminate. injection E as <-. eapply log_keep; [exact H|reflexivity..].
  - destruct (o_senders s =? 0); [discriminate|]. injection E as <-. eapply log_keep; [exact H|reflexivity..].
  - destruct (o_senders s <=? _); [discriminate|]. injection E as <-. eapply log_keep; [exact H|reflexivity..].
  - (* NDropLock *)
    destruct (o_drops s) as [u|]; [|discriminate]. destruct (o_job s); [discriminate|]. cbn in E. destruct (o_poisoned s) eqn:Hp.
    + destruct u; injection E as <-; (apply (log_note d s _ EPanic); cbn; auto; discriminate).
    + destruct (o_signals s); injection E as <-; eapply log_keep; try exact H; reflexivity.
Qed.

Lemma po_logged d l s : exec po_step (po_init d) l = Some s -> job_ok s /\ log_ok d s.
Proof.
  apply (exec_inv po_step (fun s => job_ok s /\ log_ok d s)).
  - intros s0 m s' [H1 H2] E. split; [exact (job_ok_step _ _ _ H1 E)|exact (log_step _ _ _ _ H1 H2 E)].
  - split; [intros H; cbn in H; congruence|]. split; [|split; [|split]]; cbn.
    + intros [|? ?] e0 l2 E; discriminate.
    + intros [|? ?] v0 l2 E; discriminate.
    + split; [discriminate|contradiction].
    + reflexivity.
Qed.

Lemma po_dead d l s l1 e l2 : exec po_step (po_init d) l = Some s -> o_log s = l1 ++ e :: l2 -> In EPoison l1 -> e = EPanic.
Proof. intros E. exact (proj1 (proj2 (po_logged d l s E)) l1 e l2). Qed.
Lemma po_sees d l s l1 v l2 : exec po_step (po_init d) l = Some s -> o_log s = l1 ++ ESee v :: l2 -> written d l1 = v /\ ~ In EPoison l1.
Proof.
  intros E El. destruct (po_logged d l s E) as [_ (H1 & H2 & _)]. split; [exact (H2 _ _ _ El)|]. intros Hi. discriminate (H1 _ _ _ El Hi).
Qed.

(** *** What a signal has yielded was seen *)
Definition seen s : Prop := forall k v, In (Some (Ready (Some v))) (q_ans (o_sig s k)) -> In (ESee v) (o_log s).
Lemma seen_keep s s' : seen s -> (forall k v, In (Some (Ready (Some v))) (q_ans (o_sig s' k)) -> In (Some (Ready (Some v))) (q_ans (o_sig s k))) ->
  (forall e, In e (o_log s) -> In e (o_log s')) -> seen s'.
Proof. intros H H1 H2 k v Hi. apply H2, (H k), H1, Hi. Qed.

Lemma seen_step s m s' : seen s -> po_step s m = Some s' -> seen s'.
Proof.
  intros H E. po_step E.
  destruct m; cbn in E; po_split E; unfold seen in *; cbn in *; intros k0 x Hi; rewrite ?in_app_iff;
    unfold fupd in Hi; try (destruct (k0 =? _) eqn:?); cbn in Hi; rewrite ?in_app_iff in Hi; cbn in *;
    repeat match goal with H : _ \/ _ |- _ => destruct H end; try contradiction; try discriminate; try (left; eauto; fail); eauto.
  all: try (match goal with H : Some _ = Some _ |- _ => injection H as <- end; right; left; reflexivity).
Qed.
Lemma po_seen d l s k v : exec po_step (po_init d) l = Some s -> In (Some (Ready (Some v))) (q_ans (o_sig s k)) -> In (ESee v) (o_log s).
Proof.
  intros E. revert k v. change (seen s). refine (exec_inv po_step seen seen_step l _ _ _ E). intros k v []. 
Qed.

(** *** A signal that did not panic itself is up to date *)
Definition hurt g : Prop := In None (q_ans g).
Definition listed s k : Prop := match o_job s with Some j => In k (j_kept j ++ j_todo j) | None => In k (o_signals s) end.
Definition fresh_sig s k : Prop := let g := o_sig s k in
  q_changed g = true \/ q_pc g = QRead \/ hurt g \/ latest_of (said (q_ans g)) = Some (o_value s)
  \/ match o_job s with Some j => j_changed j = true /\ In k (j_todo j) | None => False end.
Definition cur_ok s : Prop := o_poisoned s = false ->
  (forall j, o_job s = Some j -> if j_last j then o_senders s = 0 /\ j_changed j = false else 1 <= o_senders s)
  /\ (o_drops s <> None -> o_senders s = 0)
  /\ forall k, q_alive (o_sig s k) = true -> k < o_nsig s /\ (1 <= o_senders s -> listed s k) /\ fresh_sig s k.

#[local] Arguments said : simpl never.
Lemma said_snoc (l : list (option (poll (option A)))) a : said (l ++ [a]) = said l ++ match a with Some p => [p] | None => [] end.
Proof. unfold said. rewrite flat_map_app. cbn. rewrite app_nil_r. reflexivity. Qed.

Lemma cur_step s m s' : job_ok s -> cur_ok s -> po_step s m = Some s' -> cur_ok s'.
Proof.
  intros HJ H E. po_step E.
  destruct (o_poisoned s) eqn:Hp.
  { intros Hp'. exfalso. revert Hp'. destruct m; cbn in E; po_split E; cbn; congruence. }
  destruct (H Hp) as (Hs & Hd & Hk). clear H.
  destruct m; cbn [fst snd] in E; rewrite ?Hp in E.
  - (* NWrite *)
    destruct (o_job s) eqn:Ej; [discriminate|]. destruct (o_senders s =? 0) eqn:Es; [discriminate|]. apply Nat.eqb_neq in Es.
    destruct (po_do w (o_value s)) as [[x n] p] eqn:Ed. destruct n; [|destruct p]; injection E as <-; intros Hq; cbn in Hq; try discriminate; (split; [|split]); cbn.
    + intros j [= <-]. cbn. lia.
    + intros X. apply Hd in X. lia.
    + intros k Ha. destruct (Hk k Ha) as (K1 & K2 & K3). unfold listed in *. rewrite Ej in *. cbn in *. split; [exact K1|]. split; [auto|].
      unfold fresh_sig. cbn. right. right. right. right. split; [reflexivity|]. apply K2. lia.
    + rewrite Ej. discriminate.
    + exact Hd.
    + assert (x = o_value s).
      { destruct w; cbn in Ed; [discriminate|..].
        - destruct (f (o_value s)) as [? [|]]; discriminate.
        - destruct (f (o_value s) v) as [[|]|]; congruence.
        - destruct (f (o_value s)); congruence. }
      subst x. intros k Ha. destruct (Hk k Ha) as (K1 & K2 & K3). unfold listed, fresh_sig in *. cbn. auto.
  - (* NNotify *)
    destruct (o_job s) as [[[|k todo] kept changed unwinds last]|] eqn:Ej; try discriminate. pose proof (Hs _ eq_refl) as Hl. cbn in Hl.
    destruct (q_alive (o_sig s k)) eqn:Ea.
    + assert (HN : forall s1, (s1 = po_sigs s k (mkPs true (q_changed (o_sig s k) || changed) None (q_pc (o_sig s k)) (q_polls (o_sig s k)) (q_ans (o_sig s k)))
                        \/ exists w, s1 = po_wake (po_sigs s k (mkPs true (q_changed (o_sig s k) || changed) None (q_pc (o_sig s k)) (q_polls (o_sig s k)) (q_ans (o_sig s k)))) k w) ->
                 cur_ok (po_jobs s1 (Some (mkPj todo (kept ++ [k]) changed unwinds last)) (o_signals s1))).
      { intros s1 Hs1 _. assert (X : o_senders s1 = o_senders s /\ o_drops s1 = o_drops s /\ o_value s1 = o_value s /\ o_nsig s1 = o_nsig s
            /\ o_sig s1 = fupd k (mkPs true (q_changed (o_sig s k) || changed) None (q_pc (o_sig s k)) (q_polls (o_sig s k)) (q_ans (o_sig s k))) (o_sig s)).
        { destruct Hs1 as [->|(w & ->)]; repeat split. }
        destruct X as (X1 & X2 & X3 & X4 & X5). split; [|split]; cbn.
        - intros j [= <-]. cbn. rewrite X1. exact Hl.
        - rewrite X1, X2. exact Hd.
        - intros i. unfold listed, fresh_sig. cbn. rewrite X1, X3, X4, X5. unfold fupd. destruct (Nat.eqb_spec i k) as [->|Hn]; cbn.
          + intros _. destruct (Hk k Ea) as (K1 & K2 & K3). split; [exact K1|]. split; [intros Y; rewrite !in_app_iff; cbn; auto|].
            unfold fresh_sig in K3. rewrite Ej in K3. cbn in K3. destruct changed; [left; apply orb_true_r|]. rewrite orb_false_r.
            destruct K3 as [K|[K|[K|[K|[K _]]]]]; auto. discriminate.
          + intros Ha. destruct (Hk i Ha) as (K1 & K2 & K3). unfold listed, fresh_sig in K2, K3. rewrite Ej in K2, K3. cbn in K2, K3. split; [exact K1|]. split.
            * intros Y. specialize (K2 Y). rewrite !in_app_iff in *. cbn in *. tauto.
            * destruct K3 as [K|[K|[K|[K|[K [K4|K4]]]]]]; auto; try congruence. right. right. right. right. auto. }
      destruct (q_waker (o_sig s k)).
      * destruct ok; [injection E as <-; match goal with |- cur_ok (po_jobs ?x _ _) => apply (HN x) end; right; eauto|]. destruct unwinds; injection E as <-.
        -- intros Hq. clear HN. split; [|split]; cbn.
           ++ rewrite Ej. intros j [= <-]. exact Hl.
           ++ exact Hd.
           ++ intros i. unfold listed, fresh_sig. cbn. rewrite Ej. cbn. unfold fupd. destruct (Nat.eqb_spec i k) as [->|Hn]; cbn.
              ** intros _. destruct (Hk k Ea) as (K1 & K2 & K3). unfold listed, fresh_sig in *. rewrite Ej in *. cbn in *. split; [exact K1|]. split; [exact K2|].
                 destruct (q_changed (o_sig s k)); [auto|]. cbn. intuition.
              ** intros Ha. destruct (Hk i Ha) as (K1 & K2 & K3). unfold listed, fresh_sig in *. rewrite Ej in *. cbn in *. auto.
        -- intros Hq. discriminate.
      * injection E as <-. match goal with |- cur_ok (po_jobs ?x _ _) => apply (HN x) end. left. reflexivity.
    + injection E as <-. intros _. split; [|split]; cbn.
      * intros j [= <-]. exact Hl.
      * exact Hd.
      * intros i Ha. destruct (Hk i Ha) as (K1 & K2 & K3). unfold listed, fresh_sig in *. rewrite Ej in *. cbn in *. split; [exact K1|]. split.
        -- intros Y. specialize (K2 Y). rewrite in_app_iff in *. cbn in K2. destruct K2 as [?|[<-|?]]; auto. congruence.
        -- destruct K3 as [K|[K|[K|[K|[K [<-|K4]]]]]]; auto; try congruence. right. right. right. right. auto.
  - (* NRelease *)
    destruct (o_job s) as [[[|k todo] kept changed unwinds last]|] eqn:Ej; try discriminate. pose proof (Hs _ eq_refl) as Hl. cbn in Hl.
    assert (HN : forall sg, (1 <= o_senders s -> sg = kept) -> cur_ok (po_jobs s None sg)).
    { intros sg Hsg _. split; [|split]; cbn; [discriminate|exact Hd|]. intros i Ha. destruct (Hk i Ha) as (K1 & K2 & K3).
      unfold listed, fresh_sig in *. rewrite Ej in *. cbn in *. split; [exact K1|]. split; [intros Y; rewrite (Hsg Y); specialize (K2 Y); rewrite app_nil_r in K2; exact K2|].
      destruct K3 as [K|[K|[K|[K|[_ []]]]]]; auto. }
    destruct last; [injection E as <-; apply HN; lia|]. destruct unwinds; injection E as <-; [discriminate|apply HN; reflexivity].
  - (* NGet *)
    destruct (o_job s) eqn:Ej; [discriminate|]. injection E as <-. intros _. unfold listed, fresh_sig in *. cbn. rewrite Ej in *. auto.
  - (* NSignal *)
    assert (HN : forall sg, (o_job s = None \/ o_senders s = 0) -> (1 <= o_senders s -> incl (o_signals s) sg /\ In (o_nsig s) sg) -> cur_ok (po_new s sg)).
    { intros sg Hj Hsg _. split; [|split]; cbn; [exact Hs|exact Hd|]. intros i. unfold fupd. unfold listed, fresh_sig. cbn. unfold fupd. destruct (Nat.eqb_spec i (o_nsig s)) as [->|Hn].
      - intros _. split; [lia|]. split; [|left; reflexivity]. intros Y. destruct Hj as [->|Hj]; [|lia]. apply Hsg. exact Y.
      - intros Ha. destruct (Hk i Ha) as (K1 & K2 & K3). split; [lia|]. split; [|exact K3]. intros Y. specialize (K2 Y). unfold listed in K2.
        destruct Hj as [Hj|Hj]; [|lia]. rewrite Hj in *. apply Hsg; assumption. }
    destruct (o_senders s =? 0) eqn:Es; [apply Nat.eqb_eq in Es; injection E as <-; apply HN; [auto|lia]|].
    destruct (o_job s) eqn:Ej; [discriminate|]. injection E as <-. apply HN; [auto|]. intros _. split; [intros y Hy; apply in_or_app; auto|apply in_or_app; cbn; auto].
  - (* NPoll *)
    destruct (q_alive (o_sig s k)) eqn:Ea; [|discriminate]. destruct (q_pc (o_sig s k)) eqn:Epc; try discriminate. injection E as <-. intros _. split; [|split]; cbn; [exact Hs|exact Hd|].
    intros i. unfold listed, fresh_sig. cbn. unfold fupd. destruct (Nat.eqb_spec i k) as [->|Hn]; [|apply Hk]. intros _. destruct (Hk k Ea) as (K1 & K2 & K3).
    split; [exact K1|]. split; [exact K2|]. unfold fresh_sig in K3. cbn. rewrite Epc in K3. destruct (q_changed (o_sig s k)); [auto|]. intuition congruence.
  - (* NRead *)
    destruct (q_pc (o_sig s k)) eqn:Epc; try discriminate. destruct (o_job s) eqn:Ej; [discriminate|]. cbn [negb andb] in E.
    destruct ok; injection E as <-; intros _; (split; [|split]); cbn; try exact Hd; try (rewrite Ej; discriminate);
      intros i; unfold listed, fresh_sig; cbn; rewrite Ej; unfold fupd; (destruct (Nat.eqb_spec i k) as [->|Hn]; [cbn; intros Ha; destruct (Hk k Ha) as (K1 & K2 & K3); unfold listed in K2; rewrite Ej in K2|
        intros Ha; destruct (Hk i Ha) as (K1 & K2 & K3); unfold listed, fresh_sig in K2, K3; rewrite Ej in K2, K3; auto]).
    + split; [exact K1|]. split; [exact K2|]. right. right. right. left. rewrite said_snoc. cbn. unfold latest_of. rewrite ?yielded_app, rev_app_distr. reflexivity.
    + split; [exact K1|]. split; [exact K2|]. right. right. left. unfold hurt. cbn. apply in_or_app. cbn. auto.
  - (* NSend *)
    destruct (q_pc (o_sig s k)) eqn:Epc; try discriminate. injection E as <-. intros _. split; [|split]; cbn; [exact Hs|exact Hd|].
    intros i. unfold listed, fresh_sig. cbn. unfold fupd. destruct (Nat.eqb_spec i k) as [->|Hn]; [|apply Hk]. intros Ha. assert (Ha1 : q_alive (o_sig s k) = true) by (destruct (o_senders s =? 0); exact Ha).
    destruct (Hk k Ha1) as (K1 & K2 & K3). split; [exact K1|]. split; [exact K2|]. unfold fresh_sig in K3. rewrite Epc in K3.
    destruct (o_senders s =? 0); cbn; [|intuition congruence]. rewrite said_snoc. unfold latest_of, hurt in *. cbn. rewrite yielded_app, app_nil_r, in_app_iff. intuition congruence.
  - (* NWait *)
    destruct (q_pc (o_sig s k)) eqn:Epc; try discriminate. injection E as <-. intros _. split; [|split]; cbn; [exact Hs|exact Hd|].
    intros i. unfold listed, fresh_sig. cbn. unfold fupd. destruct (Nat.eqb_spec i k) as [->|Hn]; [|apply Hk]. cbn. intros Ha.
    destruct (Hk k Ha) as (K1 & K2 & K3). split; [exact K1|]. split; [exact K2|]. unfold fresh_sig in K3. rewrite Epc in K3.
    rewrite said_snoc. unfold latest_of, hurt in *. cbn. rewrite yielded_app, app_nil_r, in_app_iff. intuition congruence.
  - (* NDropSig *)
    destruct (q_alive (o_sig s k)) eqn:Ea; [|discriminate]. destruct (q_pc (o_sig s k)) eqn:Epc; try discriminate. injection E as <-. intros _. split; [|split]; cbn; [exact Hs|exact Hd|].
    intros i. unfold listed, fresh_sig. cbn. unfold fupd. destruct (Nat.eqb_spec i k) as [->|Hn]; [discriminate|apply Hk].
  - (* NClone *)
    destruct (o_senders s =? 0) eqn:Es; [discriminate|]. apply Nat.eqb_neq in Es. injection E as <-. intros _. split; [|split]; cbn.
    + intros j Hj. specialize (Hs j Hj). destruct (j_last j); [|lia]. destruct Hs. lia.
    + intros X. apply Hd in X. lia.
    + intros i Ha. destruct (Hk i Ha) as (K1 & K2 & K3). split; [exact K1|]. split; [intros _; apply K2; lia|exact K3].
  - (* NDrop *)
    destruct (o_senders s <=? _) eqn:Es; [discriminate|]. apply Nat.leb_gt in Es. injection E as <-. intros _. split; [|split]; cbn.
    + intros j Hj. specialize (Hs j Hj). rewrite Hj in Es. destruct (j_last j); [|lia]. destruct Hs. lia.
    + intros X. destruct (Nat.eqb_spec (o_senders s) 1); [lia|]. apply Hd in X. lia.
    + intros i Ha. destruct (Hk i Ha) as (K1 & K2 & K3). split; [exact K1|]. split; [intros _; apply K2; lia|exact K3].
  - (* NDropLock *)
    destruct (o_drops s) as [u|] eqn:Ed; [|discriminate]. destruct (o_job s) eqn:Ej; [discriminate|]. cbn in E. rewrite Hp in E. assert (Hz : o_senders s = 0) by (apply Hd; discriminate).
    destruct (o_signals s) eqn:Esg; injection E as <-; intros _; (split; [|split]); cbn; try congruence.
    + intros i Ha. destruct (Hk i Ha) as (K1 & K2 & K3). split; [exact K1|]. split; [lia|]. unfold fresh_sig in *. rewrite Ej in *. cbn. rewrite ?Ej. exact K3.
    + intros j [= <-]. cbn. auto.
    + intros i Ha. destruct (Hk i Ha) as (K1 & K2 & K3). split; [exact K1|]. split; [lia|]. unfold fresh_sig in *. rewrite Ej in *. cbn. destruct K3 as [K|[K|[K|[K|[]]]]]; auto.
Qed.

Lemma po_current d l s k : exec po_step (po_init d) l = Some s -> ~ In EPoison (o_log s) -> o_job s = None -> q_alive (o_sig s k) = true ->
  q_pc (o_sig s k) = QIdle -> q_changed (o_sig s k) = false -> ~ In None (q_ans (o_sig s k)) -> latest_of (said (q_ans (o_sig s k))) = Some (o_value s).
Proof.
  intros E Hl Hj Ha Hpc Hc Hn.
  assert (H : job_ok s /\ cur_ok s).
  { refine (exec_inv po_step (fun s => job_ok s /\ cur_ok s) _ l _ _ _ E).
    - intros s0 m s' [H1 H2] E0. split; [exact (job_ok_step _ _ _ H1 E0)|exact (cur_step _ _ _ H1 H2 E0)].
    - split; [intros H; cbn in H; congruence|]. intros _. split; [discriminate|]. split; [cbn; congruence|]. intros i Hi. discriminate. }
  destruct H as [_ H]. destruct (po_logged d l s E) as [_ (_ & _ & Hp & _)].
  destruct (o_poisoned s) eqn:Ep; [exfalso; apply Hl, Hp; reflexivity|]. destruct (H Ep) as (_ & _ & Hk). destruct (Hk k Ha) as (_ & _ & K).
  unfold fresh_sig, hurt in K. rewrite Hj in K. destruct K as [K|[K|[K|[K|[]]]]]; congruence || contradiction || exact K.
Qed.

(** *** Readers that panic, abort *)
Lemma po_reader s m s' : o_poisoned s = false -> (m = NGet false \/ exists k, m = NRead k false) -> po_step s m = Some s' ->
  o_value s' = o_value s /\ o_poisoned s' = false /\ o_aborted s' = false /\ o_senders s' = o_senders s /\ o_signals s' = o_signals s /\ o_nsig s' = o_nsig s
  /\ o_job s' = o_job s /\ o_drops s' = o_drops s /\ o_woken s' = o_woken s /\ o_log s' = o_log s ++ [EPanic]
  /\ forall i, m = NRead i false \/ o_sig s' i = o_sig s i.
Proof.
  intros Hp Hm E. po_step E. destruct Hm as [->|(k & ->)]; rewrite Hp in E.
  - destruct (o_job s) eqn:Ej; [discriminate|]. injection E as <-. cbn. repeat split; auto.
  - destruct (q_pc (o_sig s k)); try discriminate. destruct (o_job s) eqn:Ej; [discriminate|]. injection E as <-. cbn. repeat split; auto.
    intros i. unfold fupd. destruct (Nat.eqb_spec i k) as [->|]; auto.
Qed.

(** Moves of a thread that is panicking already. *)
Definition unwinds (m : po_move A) : Prop := m = NDrop true \/ exists f, m = NWrite (WGuard f true).
Lemma po_no_abort d l s : exec po_step (po_init d) l = Some s -> (forall m, In m l -> ~ unwinds m) -> o_aborted s = false.
Proof.
  intros E Hl.
  assert (H : forall l s s', o_aborted s = false /\ o_drops s <> Some true /\ (forall j, o_job s = Some j -> j_unwinds j = false) ->
    (forall m, In m l -> ~ unwinds m) -> exec po_step s l = Some s' -> o_aborted s' = false /\ o_drops s' <> Some true /\ (forall j, o_job s' = Some j -> j_unwinds j = false)).
  { clear. induction l as [|m l IH]; intros s s' H Hl E; cbn in E; [injection E as <-; exact H|].
    destruct (po_step s m) as [s1|] eqn:E1; [|discriminate]. refine (IH s1 s' _ (fun m Hm => Hl m (or_intror Hm)) E). clear IH E.
    specialize (Hl m (or_introl eq_refl)). destruct H as (H1 & H2 & H3). unfold unwinds in Hl. po_step E1.
    destruct m; cbn in E1.
    - destruct (o_job s) eqn:Ej; [discriminate|]. destruct (o_senders s =? 0); [discriminate|]. destruct (o_poisoned s); [injection E1 as <-; cbn; rewrite Ej; auto|].
      assert (Hw : forall x p, po_do w (o_value s) = (x, true, p) -> p = false).
      { intros x p Hd. destruct w; cbn in Hd; [congruence|..].
        - destruct (f (o_value s)) as [? [|]]; congruence.
        - destruct (f (o_value s) v) as [[|]|]; congruence.
        - destruct (f (o_value s)); [|discriminate]. destruct panics; [exfalso; apply Hl; eauto|congruence]. }
      destruct (po_do w (o_value s)) as [[x [|]] p].
      + rewrite (Hw x p eq_refl) in E1. injection E1 as <-. cbn. split; [exact Heqb|]. split; [exact H2|]. intros j [= <-]. reflexivity.
      + destruct p; injection E1 as <-; cbn; rewrite ?Ej; repeat split; auto; discriminate.
    - destruct (o_job s) as [[[|k todo] kept changed u last]|] eqn:Ej; try discriminate. pose proof (H3 _ eq_refl) as Hu. cbn in Hu. subst u.
      po_split E1; cbn; repeat split; auto; try discriminate; intros j [= <-]; reflexivity.
    - destruct (o_job s) as [[[|k todo] kept changed u last]|] eqn:Ej; try discriminate. po_split E1; cbn; repeat split; auto; discriminate.
    - po_split E1; cbn; repeat split; auto; try congruence; intros; apply H3; congruence.
    - po_split E1; cbn; repeat split; auto; try congruence; intros; apply H3; congruence.
    - po_split E1; cbn; repeat split; auto; try congruence; intros; apply H3; congruence.
    - po_split E1; cbn; repeat split; auto; try congruence; intros; apply H3; congruence.
    - po_split E1; cbn; repeat split; auto; try congruence; intros; apply H3; congruence.
    - po_split E1; cbn; repeat split; auto; try congruence; intros; apply H3; congruence.
    - po_split E1; cbn; repeat split; auto; try congruence; intros; apply H3; congruence.
    - po_split E1; cbn; repeat split; auto; try congruence; intros; apply H3; congruence.
    - destruct (o_senders s <=? _); [discriminate|]. injection E1 as <-. cbn. repeat split; auto. destruct (o_senders s =? 1); [|exact H2].
      intros [= ->]. apply Hl. auto.
    - destruct (o_drops s) as [[|]|]; try congruence; try discriminate. destruct (o_job s) eqn:Ej; [discriminate|]. cbn in E1.
      destruct (o_poisoned s); [injection E1 as <-; cbn; rewrite ?Ej; repeat split; auto; congruence|].
      destruct (o_signals s); injection E1 as <-; cbn; rewrite ?Ej; repeat split; auto; try congruence. intros j [= <-]. reflexivity. }
  apply (H l (po_init d) s); [|exact Hl|exact E]. split; [reflexivity|]. split; [discriminate|]. cbn. discriminate.
Qed.
End PoisonFacts.

(** For the examples. *)
Lemma ex_run {X} (o : option X) (P : X -> Prop) : match o with Some s => P s | None => False end -> exists s, o = Some s /\ P s.
Proof. destruct o; [eauto|contradiction]. Qed.
