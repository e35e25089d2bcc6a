(** Proofs about map_future, throttle, switch / flatten and for_each. *)
From Verif Require Import Base Spec BaseFacts LoopFacts Slot SlotFacts SigFacts SigSlots SigSlotsFacts Sig.

(** ** The log of futures *)
Definition done_fut {K X} (kf : K * src X) : Prop := results (past (snd kf)) <> [].
Definition open_fut {K X} (kf : K * src X) : Prop := results (past (snd kf)) = [].

Lemma poll_fut_held {K X} (fs : futs K X) older k sr :
  held fs = true -> made fs = older ++ [(k, sr)] ->
  poll_fut fs = (Some (fst (poll_src sr)), mkFuts (older ++ [(k, snd (poll_src sr))]) true).
Proof.
  intros Hh Hm. unfold poll_fut. rewrite Hh, Hm, rev_app_distr. simpl.
  destruct (poll_src sr) as [r sr']. rewrite rev_involutive. reflexivity.
Qed.

Lemma poll_fut_unheld {K X} (fs : futs K X) : held fs = false -> poll_fut fs = (None, fs).
Proof. intros Hh. unfold poll_fut. rewrite Hh. reflexivity. Qed.

Lemma snoc_cases {A} (l : list A) : l = [] \/ exists p a, l = p ++ [a].
Proof.
  destruct l as [|a l]; [left; reflexivity|right].
  destruct (@exists_last _ (a :: l)) as (p & b & ->); [discriminate|]. exists p, b. reflexivity.
Qed.

Lemma app_one_nil {A} (l : list A) a : l ++ [a] <> [].
Proof. intros H. apply app_eq_nil in H. destruct H; discriminate. Qed.

(** All futures but the newest are out of the field; the newest one is in the field exactly when
    it has not completed. *)
Definition futs_ok {K X} (fs : futs K X) : Prop :=
  Forall (fun kf => obeys_completion (past (snd kf))) (made fs)
  /\ (held fs = true -> exists older kf, made fs = older ++ [kf] /\ open_fut kf)
  /\ (held fs = false -> forall older kf, made fs = older ++ [kf] -> done_fut kf).

Definition fut_results {K X} (fs : futs K X) : list X := flat_map (fun kf => results (past (snd kf))) (made fs).

Lemma futs_ok_none {K X} : @futs_ok K X no_futs.
Proof.
  split; [constructor|]. split; [discriminate|]. intros _ older kf H. destruct older; discriminate.
Qed.

Lemma futs_ok_set {K X} (fs : futs K X) k script : futs_ok fs -> futs_ok (set_fut fs k script).
Proof.
  intros (H1 & _ & _). unfold set_fut. split; [|split].
  - simpl. apply Forall_app. split; [exact H1|]. constructor; [apply obeys_completion_nil|constructor].
  - intros _. exists (made fs), (k, fresh script). split; reflexivity.
  - discriminate.
Qed.

Lemma fut_results_set {K X} (fs : futs K X) k script : fut_results (set_fut fs k script) = fut_results fs.
Proof. unfold fut_results, set_fut. simpl. rewrite flat_map_app. simpl. rewrite app_nil_r. reflexivity. Qed.

(** The result of polling the field. *)
Lemma poll_fut_ok {K X} (fs : futs K X) : futs_ok fs ->
  match poll_fut fs with
  | (None, fs') => fs' = fs /\ held fs = false
  | (Some Pending, fs') => exists older k sr sr', made fs = older ++ [(k, sr)] /\ made fs' = older ++ [(k, sr')]
      /\ past sr' = past sr ++ [Pending] /\ results (past sr') = []
      /\ futs_ok fs' /\ held fs' = true /\ awaits sr'
      /\ fut_results fs' = fut_results fs /\ map fst (made fs') = map fst (made fs)
  | (Some (Ready x), fs') => exists older k sr sr', made fs = older ++ [(k, sr)] /\ made fs' = older ++ [(k, sr')]
      /\ past sr' = past sr ++ [Ready x] /\ results (past sr') = [x]
      /\ futs_ok (unset_fut fs')
      /\ fut_results fs' = fut_results fs ++ [x] /\ map fst (made fs') = map fst (made fs)
  end.
Proof.
  intros (Hall & Hheld & Hun). destruct (held fs) eqn:Hh.
  - destruct (Hheld eq_refl) as (older & [k sr] & Hm & Hopen). unfold open_fut in Hopen. simpl in Hopen.
    rewrite (poll_fut_held fs older k sr Hh Hm).
    destruct (poll_src_cases sr) as (r & sr' & Ep & Hp & _ & _). rewrite Ep. simpl.
    rewrite Hm in Hall. apply Forall_app in Hall. destruct Hall as [Hall _].
    assert (Hoc : obeys_completion (past sr')) by (rewrite Hp; apply obeys_completion_snoc; exact Hopen).
    destruct r as [|x]; exists older, k, sr, sr'.
    + split; [exact Hm|]. split; [reflexivity|]. split; [exact Hp|].
      assert (Hr : results (past sr') = []) by (rewrite Hp, results_pending; exact Hopen).
      split; [exact Hr|]. split; [|split; [reflexivity|split; [eexists; exact Hp|split]]].
      * split; [|split; [|discriminate]].
        -- apply Forall_app. split; [exact Hall|]. constructor; [exact Hoc|constructor].
        -- intros _. exists older, (k, sr'). split; [reflexivity|exact Hr].
      * unfold fut_results. simpl. rewrite Hm, !flat_map_app. simpl. rewrite Hr, Hopen. reflexivity.
      * simpl. rewrite Hm, !map_app. reflexivity.
    + split; [exact Hm|]. split; [reflexivity|]. split; [exact Hp|].
      assert (Hr : results (past sr') = [x]) by (rewrite Hp, results_app, Hopen; reflexivity).
      split; [exact Hr|]. split; [|split].
      * split; [|split; [discriminate|]].
        -- simpl. apply Forall_app. split; [exact Hall|]. constructor; [exact Hoc|constructor].
        -- intros _ o kf E. simpl in E. apply snoc_inj in E. destruct E as [_ <-].
           unfold done_fut. simpl. rewrite Hr. discriminate.
      * unfold fut_results. simpl. rewrite Hm, !flat_map_app. simpl. rewrite Hr, Hopen. simpl.
        rewrite app_nil_r. reflexivity.
      * simpl. rewrite Hm, !map_app. reflexivity.
  - rewrite (poll_fut_unheld fs Hh). auto.
Qed.

(** ** map_future *)
Definition mf_inv {A B} (st : mf_state A B) (outs : list (poll (option (option B)))) : Prop :=
  let fs := mf_future st in
  slot_ok (mf_signal st)
  /\ futs_ok fs
  /\ map fst (made fs) = delivered (mf_signal st)
  /\ (mf_first st = true <-> outs = [])
  /\ (outs <> [] -> has_initial outs)
  /\ (exists x, (x = [] \/ x = [None]) /\ yielded outs = x ++ map Some (fut_results fs))
  /\ (forall b, last_out outs (Ready (Some (Some b))) ->
        exists older k f, made fs = older ++ [(k, f)] /\ results (past f) = [b])
  /\ (last_out outs Pending ->
        (awaits (snd (mf_signal st)) \/ ended (snd (mf_signal st)))
        /\ (held fs = true -> exists older k f, made fs = older ++ [(k, f)] /\ awaits f)
        /\ (held fs = false -> ~ ended (snd (mf_signal st))))
  /\ (last_out outs (Ready None) -> ended (snd (mf_signal st)) /\ held fs = false).

Lemma mf_inv_step {A B} (callback : nat -> A -> list (poll B)) (st : mf_state A B) outs :
  mf_inv st outs ->
  exists st' o, map_future_poll callback st = Some (st', o) /\ mf_inv st' (outs ++ [o]).
Proof.
  destruct st as [sl fs first]. intros (Hok & Hfs & Hk & Hf & Hi & (x & Hx & Hy) & _ & _ & _).
  cbn [mf_signal mf_future mf_first] in *. unfold map_future_poll. cbn [mf_signal mf_future mf_first].
  pose (step := fun (fs : futs A B) value => Some (set_fut fs value (callback (length (made fs)) value))).
  destruct (drain_slot_inv step (fun _ => True) (fun _ _ _ => I)
    (fun fs' ds => futs_ok fs' /\ map fst (made fs') = ds /\ fut_results fs' = fut_results fs))
    with (x := fs) (sl := sl) as (fs1 & sl' & done & E & (Hfs1 & Hk1 & Hr1) & _).
  { intros f ds d (H1 & H2 & H3) _. eexists. split; [reflexivity|]. split; [apply futs_ok_set; exact H1|].
    split; [|rewrite fut_results_set; exact H3]. simpl. rewrite map_app, H2. reflexivity. }
  { auto. }
  { exact I. }
  fold step. rewrite E. destruct (drain_slot_ok _ _ _ _ _ _ Hok E) as (Hok' & Hlive & Haw).
  assert (Hdead : done = true -> ended (snd sl')).
  { intros ->. apply Hok'. exact Hlive. }
  assert (Hnend : done = false -> ~ ended (snd sl')).
  { intros -> He. apply Hok' in He. rewrite Hlive in He. discriminate. }
  assert (Hnil : forall (o : poll (option (option B))), outs ++ [o] <> []) by (intros o; apply app_one_nil).
  assert (Hinit : forall o, outs <> [] -> has_initial (outs ++ [o])).
  { intros o Hne. destruct (Hi Hne) as (b & t & ->). do 2 eexists. reflexivity. }
  assert (Hff : forall (o : poll (option (option B))) b, false = true <-> outs ++ [o] = [] /\ b = true).
  { intros o b. split; [discriminate|]. intros [Hz _]. exfalso. exact (Hnil _ Hz). }
  (* the settling part, common to "no future" and "future pending" *)
  assert (Hsettle : forall fs2 done2, futs_ok fs2 -> map fst (made fs2) = delivered sl' ->
    fut_results fs2 = fut_results fs ->
    (held fs2 = true -> exists older k f, made fs2 = older ++ [(k, f)] /\ awaits f) ->
    (held fs2 = true -> done2 = false) -> (held fs2 = false -> done2 = done) ->
    exists st' o,
      (if first then Some ({| mf_signal := sl'; mf_future := fs2; mf_first := false |}, Ready (Some None))
       else if done2 then Some ({| mf_signal := sl'; mf_future := fs2; mf_first := first |}, Ready None)
       else Some ({| mf_signal := sl'; mf_future := fs2; mf_first := first |}, Pending)) = Some (st', o)
      /\ mf_inv st' (outs ++ [o])).
  { intros fs2 done2 Hfs2 Hk2 Hr2 Hhaw Hd1 Hd2.
    destruct first.
    - assert (Ho : outs = []) by (apply Hf; reflexivity). subst outs.
      do 2 eexists. split; [reflexivity|]. unfold mf_inv. cbn [mf_signal mf_future mf_first].
      rewrite !last_out_snoc. split; [exact Hok'|]. split; [exact Hfs2|]. split; [exact Hk2|].
      split; [split; discriminate|]. split; [intros _; do 2 eexists; reflexivity|].
      split; [|split; [|split; discriminate]].
      + exists [None]. split; [auto|]. simpl. simpl in Hy. symmetry in Hy. apply app_eq_nil in Hy.
        destruct Hy as [_ Hy]. rewrite Hr2. destruct (fut_results fs); [reflexivity|discriminate].
      + intros b. rewrite last_out_snoc. discriminate.
    - assert (Ho : outs <> []) by (intros Ho; apply Hf in Ho; discriminate).
      destruct done2.
      + assert (Hh : held fs2 = false) by (destruct (held fs2); [specialize (Hd1 eq_refl); discriminate|reflexivity]).
        do 2 eexists. split; [reflexivity|]. unfold mf_inv. cbn [mf_signal mf_future mf_first].
        rewrite !last_out_snoc, yielded_app, app_nil_r. split; [exact Hok'|]. split; [exact Hfs2|]. split; [exact Hk2|].
        split; [split; [discriminate|intros Hz; exfalso; exact (Hnil _ Hz)]|].
        split; [intros _; apply Hinit; exact Ho|].
        split; [exists x; rewrite Hr2; auto|]. split; [intros b; rewrite last_out_snoc; discriminate|].
        split; [discriminate|]. intros _. split; [|exact Hh]. apply Hdead. symmetry. apply Hd2. exact Hh.
      + do 2 eexists. split; [reflexivity|]. unfold mf_inv. cbn [mf_signal mf_future mf_first].
        rewrite !last_out_snoc, yielded_app, app_nil_r. split; [exact Hok'|]. split; [exact Hfs2|]. split; [exact Hk2|].
        split; [split; [discriminate|intros Hz; exfalso; exact (Hnil _ Hz)]|].
        split; [intros _; apply Hinit; exact Ho|].
        split; [exists x; rewrite Hr2; auto|]. split; [intros b; rewrite last_out_snoc; discriminate|].
        split; [|discriminate]. intros _. split; [|split].
        * destruct done; [right; apply Hdead; reflexivity|left; apply Haw; reflexivity].
        * exact Hhaw.
        * intros Hh. apply Hnend. symmetry. apply Hd2. exact Hh. }
  pose proof (poll_fut_ok fs1 Hfs1) as Hpf.
  destruct (poll_fut fs1) as [[[|b]|] fs2].
  - destruct Hpf as (older & k & sr & sr' & Hm & Hm' & Hp & Hres & Hfs2 & Hheld & Hawf & Hr2 & Hk2).
    destruct (Hsettle fs2 false) as (st' & o & E2 & HI2).
    + exact Hfs2.
    + rewrite Hk2. exact Hk1.
    + rewrite Hr2. exact Hr1.
    + intros _. exists older, k, sr'. auto.
    + reflexivity.
    + rewrite Hheld. discriminate.
    + exists st', o. split; [exact E2|exact HI2].
  - destruct Hpf as (older & k & sr & sr' & Hm & Hm' & Hp & Hres & Hfs2 & Hr2 & Hk2).
    do 2 eexists. split; [reflexivity|]. unfold mf_inv. cbn [mf_signal mf_future mf_first].
    rewrite !last_out_snoc. split; [exact Hok'|]. split; [exact Hfs2|].
    split; [simpl; rewrite Hk2; exact Hk1|].
    split; [split; [discriminate|intros Hz; exfalso; exact (Hnil _ Hz)]|].
    split; [|split; [|split; [|split; discriminate]]].
    + intros _. destruct outs as [|o outs]; [do 2 eexists; reflexivity|apply Hinit; discriminate].
    + exists x. split; [exact Hx|]. rewrite yielded_app, Hy. unfold fut_results in *. simpl in *.
      rewrite Hr2, Hr1, map_app, app_assoc. reflexivity.
    + intros b'. rewrite last_out_snoc. intros [= <-]. exists older, k, sr'. auto.
  - destruct Hpf as [-> Hh]. apply Hsettle.
    + exact Hfs1.
    + exact Hk1.
    + exact Hr1.
    + rewrite Hh. discriminate.
    + rewrite Hh. discriminate.
    + reflexivity.
Qed.

Lemma last_fut_result {K X} (fs : futs K X) older kf b :
  made fs = older ++ [kf] -> results (past (snd kf)) = [b] -> last_of (fut_results fs) = Some b.
Proof.
  intros Hm Hr. unfold fut_results. rewrite Hm, flat_map_app. simpl. rewrite Hr, app_nil_r.
  apply last_of_snoc.
Qed.

Lemma completed_once {X} (rs : list (poll X)) : obeys_completion rs -> results rs <> [] ->
  exists b, results rs = [b].
Proof.
  intros Hoc Hne. destruct (results rs) as [|a [|b t]] eqn:E; [congruence|exists a; reflexivity|].
  exfalso. clear Hne. revert E Hoc. induction rs as [|[|x] rs IH]; intros E Hoc.
  - discriminate.
  - apply IH; [exact E|]. intros p y q Hq. apply (Hoc (Pending :: p) y q). rewrite Hq. reflexivity.
  - specialize (Hoc [] x rs eq_refl). subst rs. discriminate.
Qed.

Lemma map_future_run {A B} (callback : nat -> A -> list (poll B)) script n : exists st outs,
  run (map_future_poll callback) n (map_future_init script) = Some (st, outs)
  /\ (let signal := snd (mf_signal st) in let futures := made (mf_future st) in
      map fst futures = yielded (past signal)
      /\ (exists first, (first = [] \/ first = [None])
            /\ yielded outs = first ++ map Some (flat_map (fun kf => results (past (snd kf))) futures))
      /\ (outs <> [] -> has_initial outs)
      /\ (forall b, last_out outs (Ready (Some (Some b))) ->
            exists older k f, futures = older ++ [(k, f)] /\ results (past f) = [b])
      /\ (last_out outs Pending ->
            (awaits signal \/ ended signal)
            /\ (forall older k f, futures = older ++ [(k, f)] ->
                  awaits f \/ exists b, results (past f) = [b] /\ latest_of outs = Some (Some b))
            /\ (ended signal -> exists older k f, futures = older ++ [(k, f)] /\ awaits f))
      /\ (last_out outs (Ready None) ->
            ended signal
            /\ (forall older k f, futures = older ++ [(k, f)] -> exists b, results (past f) = [b]))
      /\ obeys_end (past signal)
      /\ Forall (fun kf => obeys_completion (past (snd kf))) futures).
Proof.
  destruct (run_inv0 (map_future_poll callback) mf_inv (map_future_init script)) with (n := n)
    as (st & outs & Hr & Hok & Hfs & Hk & _ & Hi & (x & Hx & Hy) & Hb & Hp & He).
  - unfold mf_inv. cbn [map_future_init mf_signal mf_future mf_first].
    split; [apply slot_ok_fresh|]. split; [apply futs_ok_none|]. split; [reflexivity|].
    split; [split; reflexivity|]. split; [congruence|]. split; [exists []; auto|].
    split; [intros b H; exfalso; exact (last_out_nil _ H)|].
    split; intros H; exfalso; exact (last_out_nil _ H).
  - intros st outs HI _. apply mf_inv_step. exact HI.
  - exists st, outs. split; [exact Hr|]. cbv zeta.
    destruct Hfs as (Hoc & Hheld & Hun).
    assert (Hcomp : held (mf_future st) = false -> forall older k f, made (mf_future st) = older ++ [(k, f)] ->
      exists b, results (past f) = [b]).
    { intros Hh older k f Hm. apply completed_once.
      - rewrite Hm in Hoc. apply Forall_app in Hoc. destruct Hoc as [_ Hoc]. inversion Hoc; assumption.
      - exact (Hun Hh older (k, f) Hm). }
    split; [exact Hk|]. split; [exists x; auto|]. split; [exact Hi|]. split; [exact Hb|].
    split; [|split; [|split; [apply Hok|exact Hoc]]].
    + intros Hl. destruct (Hp Hl) as (H1 & H2 & H3). split; [exact H1|]. split.
      * intros older k f Hm. destruct (held (mf_future st)) eqn:Hh.
        -- destruct (H2 eq_refl) as (o' & k' & f' & Hm' & Ha). rewrite Hm in Hm'.
           apply snoc_inj in Hm'. destruct Hm' as [_ [= -> ->]]. left. exact Ha.
        -- destruct (Hcomp eq_refl older k f Hm) as (b & Hbr). right. exists b. split; [exact Hbr|].
           rewrite latest_last, Hy.
           pose proof (last_fut_result (mf_future st) older (k, f) b Hm Hbr) as Hlast.
           destruct (snoc_cases (fut_results (mf_future st))) as [Hz|(p & a & Hz)].
           ++ rewrite Hz in Hlast. discriminate.
           ++ rewrite Hz in Hlast |- *. rewrite last_of_snoc in Hlast. injection Hlast as ->.
              rewrite map_app, app_assoc. apply last_of_snoc.
      * intros Hen. destruct (held (mf_future st)) eqn:Hh; [exact (H2 eq_refl)|].
        exfalso. exact (H3 eq_refl Hen).
    + intros Hl. destruct (He Hl) as [H1 H2]. split; [exact H1|]. exact (Hcomp H2).
Qed.

(** ** throttle *)
Definition th_inv {A} (st : th_state A) (outs : list (poll (option A))) : Prop :=
  let fs := th_future st in
  slot_ok (th_signal st)
  /\ futs_ok fs
  /\ length (made fs) = length (yielded outs)
  /\ yielded outs = delivered (th_signal st)
  /\ (forall older f newer, made fs = older ++ f :: newer -> newer <> [] -> done_fut f)
  /\ (last_out outs Pending ->
        (held fs = true /\ exists older k f, made fs = older ++ [(k, f)] /\ awaits f)
        \/ (held fs = false /\ awaits (snd (th_signal st))))
  /\ (last_out outs (Ready None) -> ended (snd (th_signal st)) /\ held fs = false).

Lemma all_but_last_replace {A} (P : A -> Prop) older (a a' : A) :
  (forall o f n, older ++ [a] = o ++ f :: n -> n <> [] -> P f) ->
  (forall o f n, older ++ [a'] = o ++ f :: n -> n <> [] -> P f).
Proof.
  intros H o f n E Hn. destruct (snoc_cases n) as [->|(p & z & ->)]; [congruence|].
  assert (E' : older ++ [a'] = (o ++ f :: p) ++ [z]) by (rewrite E, <- app_assoc; reflexivity).
  apply snoc_inj in E'. destruct E' as [-> _]. apply (H o f (p ++ [a])).
  - rewrite <- app_assoc. reflexivity.
  - apply app_one_nil.
Qed.

Lemma all_but_last_snoc {A} (P : A -> Prop) l (a : A) :
  (forall o f n, l = o ++ f :: n -> n <> [] -> P f) ->
  (forall p z, l = p ++ [z] -> P z) ->
  (forall o f n, l ++ [a] = o ++ f :: n -> n <> [] -> P f).
Proof.
  intros H1 H2 o f n E Hn. destruct (snoc_cases n) as [->|(p & z & ->)]; [congruence|].
  assert (E' : l ++ [a] = (o ++ f :: p) ++ [z]) by (rewrite E, <- app_assoc; reflexivity).
  apply snoc_inj in E'. destruct E' as [-> _].
  destruct (snoc_cases p) as [->|(p' & z' & ->)].
  - apply (H2 o f). reflexivity.
  - apply (H1 o f (p' ++ [z'])); [reflexivity|apply app_one_nil].
Qed.

Lemma th_inv_step {A} (callback : nat -> list (poll unit)) (st : th_state A) outs :
  th_inv st outs ->
  exists st' o, throttle_poll callback st = Some (st', o) /\ th_inv st' (outs ++ [o]).
Proof.
  destruct st as [sl fs]. intros (Hok & Hfs & Hlen & Hy & Hdone & _ & _).
  cbn [th_signal th_future] in *. unfold throttle_poll. cbn [th_signal th_future].
  (* the part after the future *)
  assert (Hcont : forall fs1, futs_ok fs1 -> held fs1 = false -> length (made fs1) = length (yielded outs) ->
    (forall older f newer, made fs1 = older ++ f :: newer -> newer <> [] -> done_fut f) ->
    exists st' o,
      (let '(r, signal') := poll_slot sl in
       match r with
       | None => Some (mkTh signal' fs1, Ready None)
       | Some (Ready None) => Some (mkTh (drop_slot signal') fs1, Ready None)
       | Some (Ready (Some value)) =>
           let future1 := set_fut fs1 tt (callback (length (made fs1))) in
           match poll_fut future1 with
           | (Some (Ready _), future2) => Some (mkTh signal' (unset_fut future2), Ready (Some value))
           | (_, future2) => Some (mkTh signal' future2, Ready (Some value))
           end
       | Some Pending => Some (mkTh signal' fs1, Pending)
       end) = Some (st', o) /\ th_inv st' (outs ++ [o])).
  { intros fs1 Hfs1 Hh Hlen1 Hdone1. pose proof (poll_slot_ok sl Hok) as Hps.
    destruct (poll_slot sl) as [[[|[a|]]|] sl'].
    - destruct Hps as (Hl & Hok' & Haw & Hp).
      do 2 eexists. split; [reflexivity|]. unfold th_inv. cbn [th_signal th_future].
      rewrite !last_out_snoc, yielded_app, app_nil_r. unfold delivered in *. rewrite Hp, yielded_app, app_nil_r.
      split; [exact Hok'|]. split; [exact Hfs1|]. split; [exact Hlen1|]. split; [exact Hy|]. split; [exact Hdone1|].
      split; [auto|discriminate].
    - destruct Hps as (Hl & Hok' & Hp). cbv zeta.
      pose (fs2 := set_fut fs1 tt (callback (length (made fs1)))).
      assert (Hfs2 : futs_ok fs2) by (apply futs_ok_set; exact Hfs1).
      assert (Hdone2 : forall older f newer, made fs2 = older ++ f :: newer -> newer <> [] -> done_fut f).
      { unfold fs2, set_fut. simpl. apply all_but_last_snoc; [exact Hdone1|].
        intros p z Hz. destruct Hfs1 as (_ & _ & Hun). exact (Hun Hh p z Hz). }
      assert (Hlen2 : length (made fs2) = length (yielded outs) + 1).
      { unfold fs2, set_fut. simpl. rewrite app_length, Hlen1. reflexivity. }
      assert (Hy2 : yielded (outs ++ [Ready (Some a)]) = delivered sl').
      { unfold delivered. rewrite Hp, !yielded_app, Hy. reflexivity. }
      assert (Hl2 : length (yielded (outs ++ [Ready (Some a)])) = length (yielded outs) + 1).
      { rewrite yielded_app, app_length. reflexivity. }
      pose proof (poll_fut_ok fs2 Hfs2) as Hpf. fold fs2.
      destruct (poll_fut fs2) as [[[|[]]|] fs3].
      + destruct Hpf as (older & k & sr & sr' & Hm & Hm' & Hp' & Hres & Hfs3 & Hheld & Hawf & _ & _).
        do 2 eexists. split; [reflexivity|]. unfold th_inv. cbn [th_signal th_future].
        rewrite !last_out_snoc. split; [exact Hok'|]. split; [exact Hfs3|].
        split; [rewrite Hl2, <- Hlen2, Hm, Hm', !app_length; reflexivity|]. split; [exact Hy2|].
        split; [|split; discriminate].
        rewrite Hm in Hdone2. rewrite Hm'. exact (all_but_last_replace _ _ _ _ Hdone2).
      + destruct Hpf as (older & k & sr & sr' & Hm & Hm' & Hp' & Hres & Hfs3 & _ & _).
        do 2 eexists. split; [reflexivity|]. unfold th_inv. cbn [th_signal th_future].
        rewrite !last_out_snoc. split; [exact Hok'|]. split; [exact Hfs3|].
        split; [simpl; rewrite Hl2, <- Hlen2, Hm, Hm', !app_length; reflexivity|]. split; [exact Hy2|].
        split; [|split; discriminate].
        simpl. rewrite Hm in Hdone2. rewrite Hm'. exact (all_but_last_replace _ _ _ _ Hdone2).
      + destruct Hpf as [_ Hx]. discriminate.
    - destruct Hps as (Hl & Hok' & Hen & Hp).
      do 2 eexists. split; [reflexivity|]. unfold th_inv. cbn [th_signal th_future].
      rewrite !last_out_snoc, yielded_app, app_nil_r. unfold delivered in *. simpl. rewrite Hp, yielded_app, app_nil_r.
      split; [exact Hok'|]. split; [exact Hfs1|]. split; [exact Hlen1|]. split; [exact Hy|]. split; [exact Hdone1|].
      split; [discriminate|auto].
    - destruct Hps as [-> Hl].
      do 2 eexists. split; [reflexivity|]. unfold th_inv. cbn [th_signal th_future].
      rewrite !last_out_snoc, yielded_app, app_nil_r.
      split; [exact Hok|]. split; [exact Hfs1|]. split; [exact Hlen1|]. split; [exact Hy|]. split; [exact Hdone1|].
      split; [discriminate|]. intros _. split; [apply Hok; exact Hl|exact Hh]. }
  pose proof (poll_fut_ok fs Hfs) as Hpf. destruct (poll_fut fs) as [[[|[]]|] fs1].
  - destruct Hpf as (older & k & sr & sr' & Hm & Hm' & Hp' & Hres & Hfs3 & Hheld & Hawf & _ & _).
    do 2 eexists. split; [reflexivity|]. unfold th_inv. cbn [th_signal th_future].
    rewrite !last_out_snoc, yielded_app, app_nil_r. split; [exact Hok|]. split; [exact Hfs3|].
    split; [rewrite <- Hlen, Hm, Hm', !app_length; reflexivity|]. split; [exact Hy|].
    split; [|split; [|discriminate]].
    + rewrite Hm in Hdone. rewrite Hm'. exact (all_but_last_replace _ _ _ _ Hdone).
    + intros _. left. split; [exact Hheld|]. exists older, k, sr'. auto.
  - destruct Hpf as (older & k & sr & sr' & Hm & Hm' & Hp' & Hres & Hfs3 & _ & _).
    apply Hcont.
    + exact Hfs3.
    + reflexivity.
    + simpl. rewrite <- Hlen, Hm, Hm', !app_length. reflexivity.
    + simpl. rewrite Hm in Hdone. rewrite Hm'. exact (all_but_last_replace _ _ _ _ Hdone).
  - destruct Hpf as [-> Hh]. apply Hcont; assumption.
Qed.

Lemma throttle_run {A} (callback : nat -> list (poll unit)) (script : list (poll (option A))) n : exists st outs,
  run (throttle_poll callback) n (throttle_init script) = Some (st, outs)
  /\ (let signal := snd (th_signal st) in let futures := map snd (made (th_future st)) in
      yielded outs = yielded (past signal)
      /\ length futures = length (yielded outs)
      /\ (forall older f newer, futures = older ++ f :: newer -> newer <> [] -> results (past f) <> [])
      /\ (last_out outs Pending ->
            (exists older f, futures = older ++ [f] /\ awaits f /\ results (past f) = [])
            \/ ((forall f, In f futures -> results (past f) <> []) /\ awaits signal))
      /\ (last_out outs (Ready None) -> ended signal)
      /\ obeys_end (past signal)
      /\ Forall (fun f => obeys_completion (past f)) futures).
Proof.
  destruct (run_inv0 (throttle_poll callback) th_inv (throttle_init script)) with (n := n)
    as (st & outs & Hr & Hok & Hfs & Hlen & Hy & Hdone & Hp & He).
  - unfold th_inv. cbn [throttle_init th_signal th_future].
    split; [apply slot_ok_fresh|]. split; [apply futs_ok_none|]. split; [reflexivity|]. split; [reflexivity|].
    split; [intros o f nw H; destruct o; discriminate|].
    split; intros H; exfalso; exact (last_out_nil _ H).
  - intros st outs HI _. apply th_inv_step. exact HI.
  - exists st, outs. split; [exact Hr|]. cbv zeta. destruct Hfs as (Hoc & Hheld & Hun).
    assert (Hdone' : forall older f newer, map snd (made (th_future st)) = older ++ f :: newer -> newer <> [] ->
      results (past f) <> []).
    { intros older f newer E Hn. apply map_eq_app in E. destruct E as (l1 & l2 & E & E1 & E2).
      destruct l2 as [|kf l2]; [discriminate|]. injection E2 as E2 E3.
      assert (Hd : done_fut kf).
      { apply (Hdone l1 kf l2 E). intros ->. apply Hn. symmetry. exact E3. }
      rewrite <- E2. exact Hd. }
    split; [exact Hy|]. split; [rewrite map_length; exact Hlen|]. split; [exact Hdone'|].
    split; [|split; [intros Hl; apply He; exact Hl|split; [apply Hok|]]].
    + intros Hl. destruct (Hp Hl) as [(Hh & older & k & f & Hm & Ha)|(Hh & Ha)].
      * left. exists (map snd older), f. split; [rewrite Hm, map_app; reflexivity|]. split; [exact Ha|].
        destruct (Hheld Hh) as (o' & kf & Hm' & Hopen). rewrite Hm in Hm'. apply snoc_inj in Hm'.
        destruct Hm' as [_ <-]. exact Hopen.
      * right. split; [|exact Ha]. intros f Hin.
        apply in_split in Hin. destruct Hin as (l1 & l2 & E). destruct l2 as [|z l2].
        -- apply map_eq_app in E. destruct E as (k1 & k2 & E & E1 & E2).
           destruct k2 as [|kf [|]]; try discriminate. injection E2 as <-. exact (Hun Hh k1 kf E).
        -- apply (Hdone' l1 f (z :: l2) E). discriminate.
    + rewrite Forall_map. exact Hoc.
Qed.

Lemma throttle_initial {A} (callback : nat -> list (poll unit)) (script : list (poll (option A))) n st outs :
  has_initial script -> run (throttle_poll callback) n (throttle_init script) = Some (st, outs) ->
  outs <> [] -> has_initial outs.
Proof.
  intros (a & t & ->) Hr Hne. destruct n as [|n].
  { injection Hr as <- <-. congruence. }
  cbn [run] in Hr.
  assert (E : exists s1, throttle_poll callback (throttle_init (Ready (Some a) :: t)) = Some (s1, Ready (Some a))).
  { unfold throttle_poll, throttle_init. simpl. destruct (callback 0) as [|[|u] c]; eexists; reflexivity. }
  destruct E as (s1 & E). rewrite E in Hr. simpl in Hr.
  destruct (run (throttle_poll callback) n s1) as [[s2 os]|]; [|discriminate].
  injection Hr as <- <-. do 2 eexists. reflexivity.
Qed.
