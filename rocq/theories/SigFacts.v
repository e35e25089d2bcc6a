(** Proofs about the combinators of Sig.v. *)
From Verif Require Import Base Spec BaseFacts LoopFacts VecDiff VecSpec Sig.

(** ** Steps that always emit *)
Lemma answers_mapped_app {A B} (f : A -> B) a b :
  answers_mapped f (a ++ b) = answers_mapped f a ++ answers_mapped f b.
Proof. apply map_app. Qed.

Lemma yielded_answers_mapped {A B} (f : A -> B) rs : yielded (answers_mapped f rs) = map f (yielded rs).
Proof.
  induction rs as [|r rs IH]; [reflexivity|].
  change (answers_mapped f (r :: rs)) with (answers_mapped f [r] ++ answers_mapped f rs).
  rewrite yielded_app, IH. destruct r as [|[a|]]; reflexivity.
Qed.

Lemma latest_of_map {A B} (f : A -> B) rs : latest_of (answers_mapped f rs) = option_map f (latest_of rs).
Proof.
  unfold latest_of. rewrite yielded_answers_mapped, <- map_rev.
  destruct (rev (yielded rs)); reflexivity.
Qed.

Section Forward.
  Context {St A B : Type} (step : St -> A -> option (St * option B)) (f : A -> B) (K : St -> list A -> Prop).
  Hypothesis Hstep : forall s ds a, K s ds -> exists s', step s a = Some (s', Some (f a)) /\ K s' (ds ++ [a]).

  Lemma forward_run s0 script : K s0 [] -> forall n, exists s sr outs,
    run (emit_poll step) n (s0, fresh script) = Some ((s, sr), outs)
    /\ outs = answers_mapped f (past sr) /\ K s (yielded (past sr)).
  Proof.
    intros H0 n.
    destruct (run_inv0 (emit_poll step)
      (fun st outs => outs = answers_mapped f (past (snd st)) /\ K (fst st) (yielded (past (snd st))))
      (s0, fresh script)) with (n := n) as ([s sr] & outs & Hr & HI & HK).
    - split; [reflexivity|exact H0].
    - intros [s sr] outs [HI HK] _. simpl in *. destruct (todo sr) as [|[|[a|]] t]; simpl.
      + do 2 eexists. split; [reflexivity|]. simpl. rewrite answers_mapped_app, <- HI, yielded_app, app_nil_r.
        split; [reflexivity|exact HK].
      + do 2 eexists. split; [reflexivity|]. simpl. rewrite answers_mapped_app, <- HI, yielded_app, app_nil_r.
        split; [reflexivity|exact HK].
      + destruct (Hstep s _ a HK) as (s' & E & HK'). rewrite E.
        do 2 eexists. split; [reflexivity|]. simpl. rewrite answers_mapped_app, <- HI, yielded_app.
        split; [reflexivity|exact HK'].
      + do 2 eexists. split; [reflexivity|]. simpl. rewrite answers_mapped_app, <- HI, yielded_app, app_nil_r.
        split; [reflexivity|exact HK].
    - exists s, sr, outs. auto.
  Qed.
End Forward.

Lemma map_mirror {A B} (f : A -> B) script n : exists s sr outs,
  run (map_poll f) n (tt, fresh script) = Some ((s, sr), outs)
  /\ outs = answers_mapped f (past sr).
Proof.
  destruct (forward_run (map_step f) f (fun _ _ => True)) with (s0 := tt) (script := script) (n := n)
    as (s & sr & outs & Hr & HI & _).
  - intros s ds a _. exists tt. split; [reflexivity|exact I].
  - exact I.
  - exists s, sr, outs. auto.
Qed.

Lemma inspect_mirror {A} (script : list (poll (option A))) n : exists calls sr,
  run inspect_poll n ([], fresh script) = Some ((calls, sr), past sr)
  /\ calls = yielded (past sr).
Proof.
  destruct (forward_run (@inspect_step A) (fun a => a) (fun calls ds => calls = ds)) with (s0 := @nil A) (script := script) (n := n)
    as (s & sr & outs & Hr & HI & HK).
  - intros s ds a ->. exists (ds ++ [a]). split; reflexivity.
  - reflexivity.
  - exists s, sr. split; [|exact HK]. unfold inspect_poll. rewrite Hr, HI. do 2 f_equal.
    unfold answers_mapped. rewrite <- (map_id (past sr)) at 2. apply map_ext.
    intros [|[a|]]; reflexivity.
Qed.

Lemma forward_id {A} (step : unit -> A -> option (unit * option A)) :
  (forall s a, step s a = Some (tt, Some a)) -> forall script n, exists sr,
  run (emit_poll step) n (tt, fresh script) = Some ((tt, sr), past sr).
Proof.
  intros Hs script n.
  destruct (forward_run step (fun a => a) (fun _ _ => True)) with (s0 := tt) (script := script) (n := n)
    as ([] & sr & outs & Hr & HI & HK).
  - intros s ds a _. exists tt. split; [apply Hs|exact I].
  - exact I.
  - exists sr. rewrite Hr, HI. do 2 f_equal.
    unfold answers_mapped. rewrite <- (map_id (past sr)) at 2. apply map_ext.
    intros [|[a|]]; reflexivity.
Qed.

Lemma to_signal_vec_mirror {A} (script : list (poll (option (list A)))) n : exists s sr outs,
  run to_signal_vec_poll n (tt, fresh script) = Some ((s, sr), outs)
  /\ outs = answers_mapped Replace (past sr)
  /\ replay (yielded outs) = Some (match latest sr with Some l => l | None => [] end).
Proof.
  destruct (forward_run (@to_signal_vec_step A) Replace (fun _ _ => True)) with (s0 := tt) (script := script) (n := n)
    as (s & sr & outs & Hr & HI & _).
  - intros s ds a _. exists tt. split; [reflexivity|exact I].
  - exact I.
  - exists s, sr, outs. split; [exact Hr|]. split; [exact HI|].
    rewrite HI, yielded_answers_mapped. unfold latest, latest_of.
    induction (yielded (past sr)) as [|l ls IH] using rev_ind; [reflexivity|].
    rewrite rev_app_distr. simpl. unfold replay in *. rewrite map_app, apply_all_app, IH. reflexivity.
Qed.

(** ** First values *)
Lemma emit_initial {St D O} (step : St -> D -> option (St * option O)) s0 :
  (forall d s' o, step s0 d = Some (s', o) -> o <> None) -> initial_ok (emit_poll step) s0.
Proof.
  intros Hf script n s outs (a & t & ->) Hr Hne. destruct n as [|n].
  { injection Hr as <- <-. congruence. }
  simpl in Hr. destruct (step s0 a) as [[s1 [o|]]|] eqn:E.
  - destruct (run (emit_poll step) n (s1, {| past := [Ready (Some a)]; todo := t |})) as [[s2 os]|]; [|discriminate].
    injection Hr as <- <-. do 2 eexists; reflexivity.
  - exfalso. exact (Hf _ _ _ E eq_refl).
  - discriminate.
Qed.

(** ** eq, neq *)
Lemma opt_bool_eqb_spec a b : opt_bool_eqb a b = true <-> a = b.
Proof. destruct a as [[|]|], b as [[|]|]; simpl; split; congruence. Qed.

Lemma last_snoc_inv {A} (l : list A) p b : l = p ++ [b] -> rev l = b :: rev p.
Proof. intros ->. rewrite rev_app_distr. reflexivity. Qed.

Lemma no_repeats_nil {A} (eqb : A -> A -> bool) : no_repeats eqb [].
Proof. intros p a b q E. destruct p; discriminate. Qed.

Lemma no_repeats_snoc {A} (eqb : A -> A -> bool) (l : list A) a :
  no_repeats eqb l -> (forall p b, l = p ++ [b] -> eqb b a = false) -> no_repeats eqb (l ++ [a]).
Proof.
  intros Hn Hl p x y q E.
  destruct q as [|z q] using rev_ind.
  - assert (E' : l ++ [a] = (p ++ [x]) ++ [y]) by (rewrite E, <- app_assoc; reflexivity).
    apply snoc_inj in E'. destruct E' as [-> ->]. apply (Hl p x eq_refl).
  - assert (E' : l ++ [a] = (p ++ x :: y :: q) ++ [z])
      by (rewrite E, <- app_assoc; reflexivity).
    apply snoc_inj in E'. destruct E' as [-> _]. apply (Hn p x y q eq_refl).
Qed.

(** The last element of a list. *)
Definition last_of {A} (l : list A) : option A := match rev l with [] => None | a :: _ => Some a end.

Lemma last_of_snoc {A} (l : list A) a : last_of (l ++ [a]) = Some a.
Proof. unfold last_of. rewrite rev_app_distr. reflexivity. Qed.

Lemma last_of_nil {A} (l : list A) : last_of l = None -> l = [].
Proof.
  destruct l as [|a l] using rev_ind; [reflexivity|]. rewrite last_of_snoc. discriminate.
Qed.

Lemma latest_last {A} (rs : list (poll (option A))) : latest_of rs = last_of (yielded rs).
Proof. reflexivity. Qed.

(** [squash] read from the right. *)
Lemma squash_after_snoc {A} (eqb : A -> A -> bool) (l : list A) a : forall k,
  squash_after eqb k (l ++ [a]) =
  squash_after eqb k l ++ (if eqb (last (squash_after eqb k l) k) a then [] else [a]).
Proof.
  induction l as [|b l IH]; intros k; simpl.
  - destruct (eqb k a); reflexivity.
  - destruct (eqb k b); [apply IH|]. rewrite IH.
    replace (last (b :: squash_after eqb b l) k) with (last (squash_after eqb b l) b); [reflexivity|].
    destruct (squash_after eqb b l) as [|c t] eqn:E; [reflexivity|].
    simpl. clear. revert c. induction t as [|d t IH]; intros c; [reflexivity|].
    specialize (IH d). simpl in *. exact IH.
Qed.

Lemma last_of_last {A} (l : list A) k : last_of (k :: l) = Some (last l k).
Proof.
  destruct l as [|a l] using rev_ind; [reflexivity|].
  rewrite app_comm_cons, last_of_snoc, last_last. reflexivity.
Qed.

Lemma squash_snoc {A} (eqb : A -> A -> bool) (l : list A) a :
  squash eqb (l ++ [a]) =
  match last_of (squash eqb l) with
  | None => squash eqb l ++ [a]
  | Some k => if eqb k a then squash eqb l else squash eqb l ++ [a]
  end.
Proof.
  destruct l as [|b l]; [reflexivity|]. simpl. rewrite last_of_last, squash_after_snoc.
  destruct (eqb (last (squash_after eqb b l) b) a); [rewrite app_nil_r|]; reflexivity.
Qed.

Lemma squash_no_repeats {A} (eqb : A -> A -> bool) (l : list A) : no_repeats eqb (squash eqb l).
Proof.
  induction l as [|a l IH] using rev_ind; [apply no_repeats_nil|].
  rewrite squash_snoc. destruct (last_of (squash eqb l)) as [k|] eqn:E.
  - destruct (eqb k a) eqn:Ek; [exact IH|]. apply no_repeats_snoc; [exact IH|].
    intros p b Hp. rewrite Hp, last_of_snoc in E. injection E as ->. exact Ek.
  - apply last_of_nil in E. rewrite E. apply no_repeats_snoc; [apply no_repeats_nil|].
    intros p b Hp. destruct p; discriminate.
Qed.

(** The last kept element is the last one, or equal to it in the sense of [eqb]. *)
Lemma squash_last {A} (eqb : A -> A -> bool) (l : list A) a : last_of l = Some a ->
  exists k, last_of (squash eqb l) = Some k /\ (k = a \/ eqb k a = true).
Proof.
  destruct l as [|b l] using rev_ind; [discriminate|].
  rewrite last_of_snoc. intros [= ->]. rewrite squash_snoc.
  destruct (last_of (squash eqb l)) as [k|] eqn:E.
  - destruct (eqb k a) eqn:Ek.
    + exists k. auto.
    + exists a. rewrite last_of_snoc. auto.
  - exists a. rewrite last_of_snoc. auto.
Qed.

Lemma squash_nil {A} (eqb : A -> A -> bool) (l : list A) : squash eqb l = [] -> l = [].
Proof. destruct l; [reflexivity|discriminate]. Qed.

Lemma squash_last_bool (l : list bool) : last_of (squash Bool.eqb l) = last_of l.
Proof.
  destruct (last_of l) as [a|] eqn:E.
  - destruct (squash_last Bool.eqb l a E) as (k & Hk & [-> | He]); [exact Hk|].
    apply Bool.eqb_prop in He. subst k. exact Hk.
  - apply last_of_nil in E. subst l. reflexivity.
Qed.

Lemma last_of_map {A B} (f : A -> B) l : last_of (map f l) = option_map f (last_of l).
Proof. unfold last_of. rewrite <- map_rev. destruct (rev l); reflexivity. Qed.

Section BoolDedupe.
  Context {A : Type} (g : A -> bool) (step : option bool -> A -> option (option bool * option bool)).
  Hypothesis Hstep : forall m a, step m a =
    if negb (opt_bool_eqb m (Some (g a))) then Some (Some (g a), Some (g a)) else Some (m, None).

  Lemma bool_dedupe_run script n : exists s sr outs,
    run (emit_poll step) n (None, fresh script) = Some ((s, sr), outs)
    /\ yielded outs = squash Bool.eqb (map g (yielded (past sr)))
    /\ latest_of outs = option_map g (latest sr)
    /\ no_repeats Bool.eqb (yielded outs).
  Proof.
    destruct (emit_run_inv step (fun _ => True) (fun _ _ _ => I)
      (fun m ds os => os = squash Bool.eqb (map g ds) /\ m = last_of os)) with (s0 := @None bool) (script := script) (n := n)
      as (s & sr & outs & Hr & HI & Hm).
    - intros m ds os a [-> ->] _. rewrite Hstep. rewrite map_app. cbn [map]. rewrite squash_snoc.
      destruct (last_of (squash Bool.eqb (map g ds))) as [k|] eqn:E; simpl.
      + destruct (Bool.eqb k (g a)); simpl.
        * do 2 eexists. split; [reflexivity|]. simpl. rewrite app_nil_r. auto.
        * do 2 eexists. split; [reflexivity|]. simpl. rewrite last_of_snoc. auto.
      + do 2 eexists. split; [reflexivity|]. simpl. rewrite last_of_snoc. auto.
    - split; reflexivity.
    - exact I.
    - exists s, sr, outs. split; [exact Hr|]. split; [exact HI|]. split.
      + unfold latest. rewrite !latest_last, HI, squash_last_bool. apply last_of_map.
      + rewrite HI. apply squash_no_repeats.
  Qed.
End BoolDedupe.

Lemma eq_run {A} (eqb : A -> A -> bool) v script n : exists s sr outs,
  run (eq_poll eqb v) n (None, fresh script) = Some ((s, sr), outs)
  /\ yielded outs = squash Bool.eqb (map (fun a => eqb a v) (yielded (past sr)))
  /\ latest_of outs = option_map (fun a => eqb a v) (latest sr)
  /\ no_repeats Bool.eqb (yielded outs).
Proof. apply bool_dedupe_run. intros m a. reflexivity. Qed.

Lemma neq_run {A} (eqb : A -> A -> bool) v script n : exists s sr outs,
  run (neq_poll eqb v) n (None, fresh script) = Some ((s, sr), outs)
  /\ yielded outs = squash Bool.eqb (map (fun a => negb (eqb a v)) (yielded (past sr)))
  /\ latest_of outs = option_map (fun a => negb (eqb a v)) (latest sr)
  /\ no_repeats Bool.eqb (yielded outs).
Proof. apply (bool_dedupe_run (fun a => negb (eqb a v))). intros m a. reflexivity. Qed.

(** ** dedupe *)
Lemma dedupe_map_run {A B} (eqb : A -> A -> bool) (f : A -> A * B) :
  (forall a b, eqb (fst (f a)) b = eqb a b) -> forall script n, exists s sr outs,
  run (dedupe_map_poll eqb f) n ((None, []), fresh script) = Some ((s, sr), outs)
  /\ snd s = squash eqb (yielded (past sr))
  /\ yielded outs = map (fun a => snd (f a)) (squash eqb (yielded (past sr))).
Proof.
  intros Hf script n.
  destruct (emit_run_inv (dedupe_step eqb f) (fun _ => True) (fun _ _ _ => I)
    (fun s ds os => snd s = squash eqb ds /\ os = map (fun a => snd (f a)) (squash eqb ds)
       /\ fst s = option_map (fun a => fst (f a)) (last_of (squash eqb ds))))
    with (s0 := (@None A, @nil A)) (script := script) (n := n)
    as (s & sr & outs & Hr & HI & Ho & Hm).
  - intros [old calls] ds os a (Hc & Ho & Hold) _. simpl in Hc, Hold. subst calls os old.
    rewrite squash_snoc. unfold dedupe_step.
    destruct (last_of (squash eqb ds)) as [k|] eqn:E; simpl.
    + rewrite Hf. destruct (eqb k a); simpl.
      * do 2 eexists. split; [reflexivity|]. simpl. rewrite app_nil_r, E. auto.
      * destruct (f a) as [a' b] eqn:Ea. do 2 eexists. split; [reflexivity|].
        simpl. rewrite last_of_snoc, map_app. simpl. rewrite Ea. auto.
    + destruct (f a) as [a' b] eqn:Ea. do 2 eexists. split; [reflexivity|].
      simpl. rewrite last_of_snoc, map_app. simpl. rewrite Ea. auto.
  - split; [reflexivity|]. split; reflexivity.
  - exact I.
  - exists s, sr, outs. auto.
Qed.

Lemma dedupe_map_latest {A B} (eqb : A -> A -> bool) (f : A -> A * B) :
  (forall a b, eqb (fst (f a)) b = eqb a b) -> forall script n, exists s sr outs,
  run (dedupe_map_poll eqb f) n ((None, []), fresh script) = Some ((s, sr), outs)
  /\ snd s = squash eqb (yielded (past sr))
  /\ yielded outs = map (fun a => snd (f a)) (squash eqb (yielded (past sr)))
  /\ (forall a, latest sr = Some a ->
        exists k, latest_of outs = Some (snd (f k)) /\ (k = a \/ eqb k a = true)).
Proof.
  intros Hf script n. destruct (dedupe_map_run eqb f Hf script n) as (s & sr & outs & Hr & Hc & Ho).
  exists s, sr, outs. split; [exact Hr|]. split; [exact Hc|]. split; [exact Ho|].
  intros a Ha. destruct (squash_last eqb _ _ Ha) as (k & Hk & Hka).
  exists k. split; [|exact Hka]. rewrite latest_last, Ho, last_of_map, Hk. reflexivity.
Qed.

Lemma dedupe_run {A} (eqb : A -> A -> bool) script n : exists s sr outs,
  run (dedupe_poll eqb) n ((None, []), fresh script) = Some ((s, sr), outs)
  /\ yielded outs = squash eqb (yielded (past sr))
  /\ no_repeats eqb (yielded outs)
  /\ (forall a, latest sr = Some a ->
        exists k, latest_of outs = Some k /\ (k = a \/ eqb k a = true)).
Proof.
  destruct (dedupe_map_latest eqb (fun a : A => (a, a)) (fun _ _ => eq_refl) script n)
    as (s & sr & outs & Hr & _ & Ho & Hl).
  exists s, sr, outs. split; [exact Hr|]. rewrite map_id in Ho. split; [exact Ho|].
  split; [rewrite Ho; apply squash_no_repeats|exact Hl].
Qed.

Lemma dedupe_run_lawful {A} (eqb : A -> A -> bool) script n : lawful eqb -> exists s sr outs,
  run (dedupe_poll eqb) n ((None, []), fresh script) = Some ((s, sr), outs)
  /\ latest_of outs = latest sr
  /\ (forall p a b q, yielded outs = p ++ a :: b :: q -> a <> b).
Proof.
  intros Hlaw. destruct (dedupe_run eqb script n) as (s & sr & outs & Hr & Ho & Hn & Hl).
  exists s, sr, outs. split; [exact Hr|]. split.
  - destruct (latest sr) as [a|] eqn:E.
    + destruct (Hl a eq_refl) as (k & Hk & [-> | He]); [exact Hk|].
      apply Hlaw in He. subst k. exact Hk.
    + unfold latest in E. rewrite latest_last in *. apply last_of_nil in E. rewrite Ho, E. reflexivity.
  - intros p a b q E Hab. specialize (Hn p a b q E). apply Hlaw in Hab. congruence.
Qed.

Lemma dedupe_map_lawful {A B} (eqb : A -> A -> bool) (f : A -> A * B) script n :
  lawful eqb -> (forall a, fst (f a) = a) -> exists s sr outs,
  run (dedupe_map_poll eqb f) n ((None, []), fresh script) = Some ((s, sr), outs)
  /\ snd s = squash eqb (yielded (past sr))
  /\ yielded outs = map (fun a => snd (f a)) (squash eqb (yielded (past sr)))
  /\ latest_of outs = option_map (fun a => snd (f a)) (latest sr).
Proof.
  intros Hlaw Hf.
  destruct (dedupe_map_latest eqb f) with (script := script) (n := n) as (s & sr & outs & Hr & Hc & Ho & Hl).
  { intros a b. rewrite Hf. reflexivity. }
  exists s, sr, outs. split; [exact Hr|]. split; [exact Hc|]. split; [exact Ho|].
  destruct (latest sr) as [a|] eqn:E.
  - destruct (Hl a eq_refl) as (k & Hk & [-> | He]); [exact Hk|].
    apply Hlaw in He. subst k. exact Hk.
  - unfold latest in E. rewrite latest_last in *. apply last_of_nil in E. rewrite Ho, E. reflexivity.
Qed.

(** ** filter_map *)
Lemma accepted_values_snoc {A B} (f : A -> option B) l a :
  accepted_values f (l ++ [a]) = accepted_values f l ++ match f a with Some b => [b] | None => [] end.
Proof. unfold accepted_values. rewrite flat_map_app. simpl. rewrite app_nil_r. reflexivity. Qed.

Lemma sig_filter_map_run {A B} (f : A -> option B) script n : exists s sr outs,
  run (sig_filter_map_poll f) n ((true, []), fresh script) = Some ((s, sr), outs)
  /\ snd s = yielded (past sr)
  /\ yielded outs = match yielded (past sr) with
                    | [] => []
                    | a :: t => f a :: map Some (accepted_values f t)
                    end
  /\ latest_of outs = match yielded (past sr) with
                      | [] => None
                      | l => Some (last (map Some (accepted_values f l)) None)
                      end.
Proof.
  destruct (emit_run_inv (sig_fm_step f) (fun _ => True) (fun _ _ _ => I)
    (fun s ds os => snd s = ds /\ (fst s = true <-> ds = [])
       /\ os = match ds with [] => [] | a :: t => f a :: map Some (accepted_values f t) end))
    with (s0 := (true, @nil A)) (script := script) (n := n)
    as (s & sr & outs & Hr & HI & Hf & Ho).
  - intros [first calls] ds os a (Hc & Hfi & Ho) _. simpl in Hc, Hfi. subst calls os.
    destruct ds as [|d ds].
    + destruct first; [|destruct Hfi as [_ Hfi]; specialize (Hfi eq_refl); discriminate].
      simpl. destruct (f a) as [b|]; do 2 eexists; (split; [reflexivity|]); simpl;
        (split; [reflexivity|split; [split; discriminate|reflexivity]]).
    + destruct first; [destruct Hfi as [Hfi _]; specialize (Hfi eq_refl); discriminate|].
      simpl. destruct (f a) as [b|] eqn:E; do 2 eexists; (split; [reflexivity|]); simpl;
        (split; [reflexivity|split; [split; discriminate|]]); rewrite accepted_values_snoc, E, map_app.
      * reflexivity.
      * simpl. rewrite app_nil_r. reflexivity.
  - split; [reflexivity|]. split; [split; reflexivity|reflexivity].
  - exact I.
  - exists s, sr, outs. split; [exact Hr|]. split; [exact HI|]. split; [exact Ho|].
    rewrite latest_last, Ho. destruct (yielded (past sr)) as [|a t]; [reflexivity|].
    rewrite last_of_last. f_equal.
    change (accepted_values f (a :: t)) with ((match f a with Some b => [b] | None => [] end) ++ accepted_values f t).
    destruct (f a) as [b|]; [|reflexivity].
    change ([b] ++ accepted_values f t) with (b :: accepted_values f t). cbn [map].
    generalize (map Some (accepted_values f t)). intros l.
    assert (H : last_of (Some b :: l) = Some (last l (Some b))) by apply last_of_last.
    destruct l as [|c l] using rev_ind; [reflexivity|].
    rewrite app_comm_cons, !last_last. reflexivity.
Qed.

(** ** stop_if *)
Definition stop_inv {A} (test : A -> bool) (st : (bool * list A) * src (option A))
  (outs : list (poll (option A))) : Prop :=
  let '((stopped, calls), sr) := st in
  yielded outs = yielded (past sr)
  /\ calls = yielded (past sr)
  /\ (stopped = false -> ~ In (Ready None) (past sr) /\ Forall (fun a => test a = false) (yielded (past sr)))
  /\ (stopped = true ->
        (ended sr /\ obeys_end (past sr) /\ Forall (fun a => test a = false) (yielded (past sr)) /\ In (Ready None) outs)
        \/ exists q a, past sr = q ++ [Ready (Some a)] /\ test a = true /\ ~ In (Ready None) q
             /\ Forall (fun a => test a = false) (yielded q))
  /\ (last_out outs Pending -> awaits sr)
  /\ (last_out outs (Ready None) -> stopped = true).

Lemma stop_inv_step {A} (test : A -> bool) st outs :
  stop_inv test st outs -> ~ In (Ready None) outs ->
  exists st' o, stop_if_poll test st = Some (st', o) /\ stop_inv test st' (outs ++ [o]).
Proof.
  destruct st as [[stopped calls] sr]. intros (Hy & Hc & Hf & Ht & _ & _) Hno. unfold stop_if_poll.
  destruct stopped.
  - do 2 eexists. split; [reflexivity|]. unfold stop_inv. rewrite !last_out_snoc, yielded_app, app_nil_r.
    split; [exact Hy|]. split; [exact Hc|]. split; [discriminate|].
    split; [|split; [discriminate|reflexivity]].
    intros _. destruct (Ht eq_refl) as [(_ & _ & _ & Hx)|Hr]; [exfalso; exact (Hno Hx)|right; exact Hr].
  - destruct (Hf eq_refl) as [Hne Hall]. unfold poll_src.
    assert (HP : forall t, stop_inv test ((false, calls), {| past := past sr ++ [Pending]; todo := t |}) (outs ++ [Pending])).
    { intros t. unfold stop_inv. simpl. rewrite !last_out_snoc, !yielded_app, !app_nil_r.
      split; [exact Hy|]. split; [exact Hc|]. split; [|split; [discriminate|split; [|discriminate]]].
      - intros _. split; [apply no_end_app; [exact Hne|apply no_end_pending]|exact Hall].
      - intros _. eexists. reflexivity. }
    destruct (todo sr) as [|[|[a|]] t].
    + do 2 eexists. split; [reflexivity|]. apply HP.
    + do 2 eexists. split; [reflexivity|]. apply HP.
    + do 2 eexists. split; [reflexivity|]. unfold stop_inv. simpl.
      rewrite !last_out_snoc, !yielded_app, Hy, Hc. simpl.
      split; [reflexivity|]. split; [reflexivity|].
      destruct (test a) eqn:Ea; (split; [|split; [|split; discriminate]]).
      * discriminate.
      * intros _. right. exists (past sr), a. auto.
      * intros _. split; [apply no_end_app; [exact Hne|apply no_end_some]|].
        apply Forall_app. split; [exact Hall|]. constructor; [exact Ea|constructor].
      * discriminate.
    + do 2 eexists. split; [reflexivity|]. unfold stop_inv. simpl.
      rewrite !last_out_snoc, !yielded_app, !app_nil_r.
      split; [exact Hy|]. split; [exact Hc|]. split; [discriminate|]. split; [|split; [discriminate|reflexivity]].
      intros _. left. split; [|split; [|split]].
      * unfold ended. simpl. apply in_or_app. right. left. reflexivity.
      * apply obeys_end_snoc. exact Hne.
      * exact Hall.
      * apply in_or_app. right. left. reflexivity.
Qed.

Lemma stop_if_run {A} (test : A -> bool) script n : exists s sr outs,
  run (stop_if_poll test) n ((false, []), fresh script) = Some ((s, sr), outs)
  /\ yielded outs = yielded (past sr)
  /\ snd s = yielded (past sr)
  /\ (forall p a q, past sr = p ++ Ready (Some a) :: q -> test a = true -> q = [])
  /\ (last_out outs Pending -> awaits sr)
  /\ (last_out outs (Ready None) ->
        ended sr \/ exists p a, past sr = p ++ [Ready (Some a)] /\ test a = true)
  /\ obeys_end (past sr)
  /\ (forall p a, past sr = p ++ [Ready (Some a)] -> test a = true ->
        exists s', stop_if_poll test (s, sr) = Some ((s', sr), Ready None)).
Proof.
  destruct (run_inv0 (stop_if_poll test) (stop_inv test) ((false, []), fresh script)) with (n := n)
    as ([[stopped calls] sr] & outs & Hr & Hy & Hc & Hf & Ht & Hp & He).
  - unfold stop_inv. simpl. split; [reflexivity|]. split; [reflexivity|].
    split; [intros _; split; [intros []|constructor]|]. split; [discriminate|].
    split; intros H; exfalso; exact (last_out_nil _ H).
  - intros st outs. apply stop_inv_step.
  - assert (Hin : forall q, Forall (fun a => test a = false) (yielded q) ->
        forall p a r, q = p ++ Ready (Some a) :: r -> test a = false).
    { intros q Hall p a r ->. rewrite yielded_app in Hall. apply Forall_app in Hall.
      destruct Hall as [_ Hall]. simpl in Hall. inversion Hall; assumption. }
    exists (stopped, calls), sr, outs. split; [exact Hr|]. split; [exact Hy|]. split; [exact Hc|].
    split; [|split; [exact Hp|split; [|split]]].
    + intros p a q E Ha. destruct stopped.
      * destruct (Ht eq_refl) as [(_ & _ & Hall & _)|(q' & b & E' & Hb & _ & Hall)].
        -- specialize (Hin _ Hall p a q E). congruence.
        -- destruct q as [|z q] using rev_ind; [reflexivity|]. exfalso.
           rewrite E' in E. assert (E2 : q' ++ [Ready (Some b)] = (p ++ Ready (Some a) :: q) ++ [z])
             by (rewrite E, <- app_assoc; reflexivity).
           apply snoc_inj in E2. destruct E2 as [-> _].
           specialize (Hin _ Hall p a q eq_refl). congruence.
      * destruct (Hf eq_refl) as [_ Hall]. specialize (Hin _ Hall p a q E). congruence.
    + intros Hl. specialize (He Hl). destruct (Ht He) as [(H1 & _)|(q & a & E & Ha & _)].
      * left. exact H1.
      * right. exists q, a. auto.
    + destruct stopped.
      * destruct (Ht eq_refl) as [(_ & H1 & _)|(q & a & E & Ha & Hq & _)]; [exact H1|].
        rewrite E. apply obeys_end_snoc. exact Hq.
      * apply obeys_end_no_end. apply Hf. reflexivity.
    + intros p a E Ha. destruct stopped.
      * unfold stop_if_poll. eexists. reflexivity.
      * destruct (Hf eq_refl) as [_ Hall]. specialize (Hin _ Hall p a [] E). congruence.
Qed.

Lemma stop_if_initial {A} (test : A -> bool) : initial_ok (stop_if_poll test) (false, []).
Proof.
  intros script n s outs (a & t & ->) Hr Hne. destruct n as [|n].
  { injection Hr as <- <-. congruence. }
  simpl in Hr.
  destruct (run (stop_if_poll test) n _) as [[s2 os]|]; [|discriminate].
  injection Hr as <- <-. do 2 eexists; reflexivity.
Qed.

(** ** Futures *)
Lemma run_future_inv {St X} (m : St -> option (St * poll X)) (Inv : St -> Prop) (Post : St -> X -> Prop) :
  (forall s, Inv s -> exists s' r, m s = Some (s', r)
     /\ match r with Pending => Inv s' | Ready x => Post s' x end) ->
  forall n s, Inv s -> exists s' r, run_future m n s = Some (s', r)
     /\ match r with None => Inv s' | Some x => Post s' x end.
Proof.
  intros Hm. induction n as [|n IH]; intros s HI.
  - exists s, None. auto.
  - simpl. destruct (Hm s HI) as (s' & r & E & Hr). rewrite E. destruct r as [|x].
    + apply IH. exact Hr.
    + exists s', (Some x). auto.
Qed.

Lemma run_future_some {St X} (m : St -> option (St * poll X)) (Q : St -> Prop) :
  (forall s s' , m s = Some (s', Pending) -> Q s') ->
  forall n s s', run_future m (S n) s = Some (s', None) -> Q s'.
Proof.
  intros H. induction n as [|n IH]; intros s s' Hr.
  - simpl in Hr. destruct (m s) as [[s1 [|x]]|] eqn:E; try discriminate.
    injection Hr as <-. exact (H _ _ E).
  - change (run_future m (S (S n)) s) with
      (match m s with None => None | Some (s', Ready x) => Some (s', Some x)
       | Some (s', Pending) => run_future m (S n) s' end) in Hr.
    destruct (m s) as [[s1 [|x]]|] eqn:E; try discriminate. exact (IH _ _ Hr).
Qed.

Lemma wait_for_run {A} (eqb : A -> A -> bool) v script n : exists s sr r,
  run_future (wait_for_poll eqb v) n (tt, fresh script) = Some ((s, sr), r)
  /\ obeys_end (past sr)
  /\ match r with
     | None => (n <> 0 -> awaits sr) /\ ~ ended sr /\ Forall (fun a => eqb a v = false) (yielded (past sr))
     | Some (Some a) => exists p, yielded (past sr) = p ++ [a] /\ eqb a v = true
                          /\ Forall (fun b => eqb b v = false) p /\ ~ ended sr
     | Some None => ended sr /\ Forall (fun a => eqb a v = false) (yielded (past sr))
     end.
Proof.
  pose (Inv := fun st : unit * src (option A) =>
    ~ ended (snd st) /\ Forall (fun a => eqb a v = false) (yielded (past (snd st)))).
  pose (Post := fun (st : unit * src (option A)) (x : option A) =>
    obeys_end (past (snd st)) /\
    match x with
    | Some a => exists p, yielded (past (snd st)) = p ++ [a] /\ eqb a v = true
                  /\ Forall (fun b => eqb b v = false) p /\ ~ ended (snd st)
    | None => ended (snd st) /\ Forall (fun a => eqb a v = false) (yielded (past (snd st)))
    end).
  assert (Hloop : forall td pst, ~ In (Ready None) pst -> Forall (fun a => eqb a v = false) (yielded pst) ->
    exists s sr r, loop_emit (wait_for_step eqb v) tt pst td = Some (s, sr, r)
      /\ match r with Pending => Inv (s, sr) | Ready x => Post (s, sr) x end).
  { induction td as [|x td IH]; intros pst Hne Hall.
    - do 3 eexists. split; [reflexivity|]. simpl. unfold Inv, ended. simpl. rewrite yielded_app, app_nil_r.
      split; [apply no_end_app; [exact Hne|apply no_end_pending]|exact Hall].
    - destruct x as [|[a|]]; simpl.
      + do 3 eexists. split; [reflexivity|]. simpl. unfold Inv, ended. simpl. rewrite yielded_app, app_nil_r.
        split; [apply no_end_app; [exact Hne|apply no_end_pending]|exact Hall].
      + unfold wait_for_step at 1. destruct (eqb a v) eqn:E; simpl.
        * do 3 eexists. split; [reflexivity|]. simpl. unfold Post. simpl.
          assert (Hn' : ~ In (Ready None) (pst ++ [Ready (Some a)]))
            by (apply no_end_app; [exact Hne|apply no_end_some]).
          split; [apply obeys_end_no_end; exact Hn'|].
          exists (yielded pst). rewrite yielded_app. auto.
        * apply IH; [apply no_end_app; [exact Hne|apply no_end_some]|].
          rewrite yielded_app. apply Forall_app. split; [exact Hall|].
          simpl. constructor; [exact E|constructor].
      + do 3 eexists. split; [reflexivity|]. simpl. unfold Post. simpl.
        split; [apply obeys_end_snoc; exact Hne|]. rewrite yielded_app, app_nil_r. split; [|exact Hall].
        unfold ended. simpl. apply in_or_app. right. left. reflexivity. }
  destruct (run_future_inv (wait_for_poll eqb v) Inv Post) with (n := n) (s := (tt, fresh script))
    as ([s sr] & r & Hr & Hq).
  - intros [[] sr] [Hne Hall]. unfold wait_for_poll, emit_poll.
    destruct (Hloop (todo sr) (past sr) Hne Hall) as (s' & sr' & r & E & Hq).
    rewrite E. do 2 eexists. split; [reflexivity|exact Hq].
  - split; [intros []|constructor].
  - exists s, sr, r. split; [exact Hr|]. destruct r as [[a|]|].
    + exact Hq.
    + exact Hq.
    + destruct Hq as [Hne Hall]. split; [apply obeys_end_no_end; exact Hne|].
      split; [|split; [exact Hne|exact Hall]]. intros Hn.
      destruct n as [|n]; [congruence|].
      refine (run_future_some (wait_for_poll eqb v) (fun st => awaits (snd st)) _ n _ (s, sr) Hr).
      clear. intros [s sr] [s' sr'] E. simpl in E.
      destruct (loop_emit (wait_for_step eqb v) s (past sr) (todo sr)) as [[[s1 sr1] r1]|] eqn:El; [|discriminate].
      injection E as <- <- ->. apply loop_emit_struct in El. destruct El as (ds & tl & Hp & _ & ->).
      exists (past sr ++ somes ds). simpl. rewrite Hp, app_assoc. reflexivity.
Qed.

Lemma to_future_loop {A} (td : list (poll (option A))) : forall a pst,
  ~ In (Ready None) pst -> latest_of pst = Some a ->
  exists b sr done, loop_drain (fun (_ : option A) (new_value : A) => Some (Some new_value)) (Some a) pst td
      = Some (Some b, sr, done)
    /\ latest sr = Some b /\ obeys_end (past sr)
    /\ if done then ended sr else ~ ended sr /\ awaits sr.
Proof.
  assert (HP : forall a pst t, ~ In (Ready None) pst -> latest_of pst = Some a ->
    exists b sr done, Some (Some a, {| past := pst ++ [Pending]; todo := t |}, false)
      = Some (Some b, sr, done)
    /\ latest sr = Some b /\ @obeys_end A (past sr)
    /\ if done then ended sr else ~ ended sr /\ awaits sr).
  { intros a pst t Hne Hl. do 3 eexists. split; [reflexivity|]. unfold latest, ended, awaits. simpl.
    rewrite latest_of_pending. split; [exact Hl|]. split; [apply obeys_end_snoc; exact Hne|].
    split; [apply no_end_app; [exact Hne|apply no_end_pending]|eexists; reflexivity]. }
  induction td as [|x td IH]; intros a pst Hne Hl; simpl; [apply HP; assumption|].
  destruct x as [|[d|]].
  - apply HP; assumption.
  - apply IH; [apply no_end_app; [exact Hne|apply no_end_some]|apply latest_of_app].
  - do 3 eexists. split; [reflexivity|]. unfold latest, ended. simpl. rewrite latest_of_end.
    split; [exact Hl|]. split; [apply obeys_end_snoc; exact Hne|].
    apply in_or_app. right. left. reflexivity.
Qed.

Lemma to_future_run {A} (script : list (poll (option A))) n :
  has_initial script -> exists s sr r,
  run_future to_future_poll n (None, fresh script) = Some ((s, sr), r)
  /\ obeys_end (past sr)
  /\ match r with
     | None => (n <> 0 -> awaits sr) /\ ~ ended sr
     | Some v => ended sr /\ latest sr = Some v
     end.
Proof.
  intros (a0 & t0 & ->).
  pose (Inv := fun st : option A * src (option A) =>
    ~ ended (snd st) /\
    ((fst st = None /\ past (snd st) = [] /\ todo (snd st) = Ready (Some a0) :: t0)
     \/ exists a, fst st = Some a /\ latest (snd st) = Some a)).
  pose (Post := fun (st : option A * src (option A)) (x : A) =>
    obeys_end (past (snd st)) /\ ended (snd st) /\ latest (snd st) = Some x).
  assert (Hstep : forall st, Inv st -> exists st' r, to_future_poll st = Some (st', r)
     /\ match r with Pending => Inv st' /\ awaits (snd st') | Ready x => Post st' x end).
  { intros [v sr] (Hne & Hcase). simpl in Hne, Hcase. unfold to_future_poll.
    assert (Hloop : exists b sr' done,
      loop_drain (fun (_ : option A) (new_value : A) => Some (Some new_value)) v (past sr) (todo sr)
      = Some (Some b, sr', done)
      /\ latest sr' = Some b /\ obeys_end (past sr')
      /\ if done then ended sr' else ~ ended sr' /\ awaits sr').
    { destruct Hcase as [(-> & Hp & Ht)|(a & -> & Hl)].
      - rewrite Hp, Ht. simpl. apply to_future_loop; [apply no_end_some|reflexivity].
      - apply to_future_loop; assumption. }
    destruct Hloop as (b & sr' & done & E & Hl & Ho & Hd). rewrite E. destruct done.
    - do 2 eexists. split; [reflexivity|]. simpl. split; [exact Ho|]. split; [exact Hd|exact Hl].
    - do 2 eexists. split; [reflexivity|]. simpl. destruct Hd as [Hd Ha]. split; [|exact Ha].
      split; [exact Hd|]. right. exists b. auto. }
  destruct (run_future_inv to_future_poll Inv Post) with (n := n) (s := (@None A, fresh (Ready (Some a0) :: t0)))
    as ([s sr] & r & Hr & Hq).
  - intros st HI. destruct (Hstep st HI) as (st' & r & E & Hr). do 2 eexists. split; [exact E|].
    destruct r; [apply Hr|exact Hr].
  - split; [intros []|]. left. auto.
  - exists s, sr, r. split; [exact Hr|]. destruct r as [v|].
    + exact Hq.
    + destruct Hq as [Hne _]. split; [apply obeys_end_no_end; exact Hne|]. split; [|exact Hne].
      intros Hn. destruct n as [|n]; [congruence|].
      refine (run_future_some to_future_poll (fun st => awaits (snd st)) _ n _ (s, sr) Hr).
      clear. intros [v sr] [s' sr'] E. simpl in E.
      destruct (loop_drain _ v (past sr) (todo sr)) as [[[v1 sr1] [|]]|] eqn:El; [|injection E as <- <-|discriminate].
      * destruct v1; discriminate.
      * apply loop_drain_struct in El. destruct El as (ds & Hp & _).
        exists (past sr ++ somes ds). simpl. rewrite Hp. reflexivity.
Qed.
