(** Facts about BTreeMap and MapDiff. *)
From Coq Require Import Sorted.
From Verif Require Import Base Spec BaseFacts LoopFacts MapDiff MapSpec SortFacts.

Section Order.
  Context {K : Type} (cmp : K -> K -> comparison) (TO : total_order cmp).

  Lemma cmp_eq a b : cmp a b = Eq -> a = b.
  Proof. apply TO. Qed.
  Lemma cmp_refl a : cmp a a = Eq.
  Proof. apply TO. reflexivity. Qed.
  Lemma cmp_lt_gt a b : cmp a b = Lt <-> cmp b a = Gt.
  Proof. destruct TO as (_ & H & _). rewrite (H a b). destruct (cmp a b); simpl; split; congruence. Qed.
  Lemma cmp_trans a b c : cmp a b = Lt -> cmp b c = Lt -> cmp a c = Lt.
  Proof. apply TO. Qed.
  Lemma cmp_lt_ne a b : cmp a b = Lt -> a <> b.
  Proof. intros H E. subst. rewrite cmp_refl in H. discriminate. Qed.

  (** The three ways in which a key relates to a map. *)
  Lemma bt_cases {V} (k : K) (m : list (K * V)) : is_map cmp m ->
    (exists p v q, m = p ++ (k, v) :: q /\ Forall (fun e => cmp (fst e) k = Lt) p
                 /\ Forall (fun e => cmp k (fst e) = Lt) q)
    \/ (~ has_key k m /\ exists p q, m = p ++ q /\ Forall (fun e => cmp (fst e) k = Lt) p
                 /\ Forall (fun e => cmp k (fst e) = Lt) q).
  Proof.
    unfold is_map, ascending. induction m as [|[k0 v0] m IH]; intros Hs.
    - right. split; [intros []|]. exists [], []. repeat constructor.
    - simpl in Hs. inversion Hs as [|? ? H1 H2]; subst.
      assert (H2' : Forall (fun e => cmp k0 (fst e) = Lt) m).
      { rewrite Forall_forall in *. intros e He. apply H2. apply in_map. exact He. }
      destruct (cmp k0 k) eqn:E.
      + apply cmp_eq in E. subst k0. left. exists [], v0, m. repeat split; [constructor|exact H2'].
      + destruct (IH H1) as [(p & v & q & -> & Hp & Hq)|(Hn & p & q & -> & Hp & Hq)].
        * left. exists ((k0, v0) :: p), v, q. repeat split; [constructor; assumption|exact Hq].
        * right. split.
          -- intros [Hk|Hk]; [simpl in Hk; exact (cmp_lt_ne _ _ E Hk)|exact (Hn Hk)].
          -- exists ((k0, v0) :: p), q. repeat split; [constructor; assumption|exact Hq].
      + apply cmp_lt_gt in E. right. split.
        * intros [Hk|Hk]; simpl in Hk; [apply (cmp_lt_ne _ _ E); auto|].
          rewrite Forall_forall in H2. specialize (H2 k Hk). apply cmp_lt_gt in H2. congruence.
        * exists [], ((k0, v0) :: m). split; [reflexivity|]. split; [constructor|]. constructor; [exact E|].
          rewrite Forall_forall in *. intros e He. exact (cmp_trans _ _ _ E (H2' e He)).
  Qed.

  Section Ops.
    Context {V : Type}.
    Implicit Types m p q : list (K * V).

    Lemma bt_skip_get k p m : Forall (fun e => cmp (fst e) k = Lt) p -> bt_get cmp k (p ++ m) = bt_get cmp k m.
    Proof.
      induction 1 as [|[k0 v0] p H Hp IH]; [reflexivity|]. simpl in *. apply cmp_lt_gt in H. rewrite H. exact IH.
    Qed.
    Lemma bt_skip_insert k v p m : Forall (fun e => cmp (fst e) k = Lt) p ->
      bt_insert cmp k v (p ++ m) = p ++ bt_insert cmp k v m.
    Proof.
      induction 1 as [|[k0 v0] p H Hp IH]; [reflexivity|]. simpl in *. apply cmp_lt_gt in H. rewrite H, IH. reflexivity.
    Qed.
    Lemma bt_skip_remove k p m : Forall (fun e => cmp (fst e) k = Lt) p ->
      bt_remove cmp k (p ++ m) = p ++ bt_remove cmp k m.
    Proof.
      induction 1 as [|[k0 v0] p H Hp IH]; [reflexivity|]. simpl in *. apply cmp_lt_gt in H. rewrite H, IH. reflexivity.
    Qed.

    Lemma bt_present k v p q : Forall (fun e => cmp (fst e) k = Lt) p ->
      bt_get cmp k (p ++ (k, v) :: q) = Some v
      /\ (forall v', bt_insert cmp k v' (p ++ (k, v) :: q) = p ++ (k, v') :: q)
      /\ bt_remove cmp k (p ++ (k, v) :: q) = p ++ q.
    Proof.
      intros Hp. rewrite bt_skip_get, bt_skip_remove by exact Hp. simpl. rewrite cmp_refl.
      split; [reflexivity|]. split; [|reflexivity]. intros v'. rewrite bt_skip_insert by exact Hp. simpl. rewrite cmp_refl. reflexivity.
    Qed.

    Lemma bt_absent k p q : Forall (fun e => cmp (fst e) k = Lt) p -> Forall (fun e => cmp k (fst e) = Lt) q ->
      bt_get cmp k (p ++ q) = None
      /\ (forall v', bt_insert cmp k v' (p ++ q) = p ++ (k, v') :: q)
      /\ bt_remove cmp k (p ++ q) = p ++ q.
    Proof.
      intros Hp Hq. rewrite bt_skip_get, bt_skip_remove by exact Hp.
      destruct q as [|[k0 v0] q]; simpl.
      - split; [reflexivity|]. split; [|reflexivity]. intros v'. rewrite bt_skip_insert by exact Hp. reflexivity.
      - inversion Hq as [|? ? H1 H2]; subst. simpl in H1. rewrite H1. split; [reflexivity|]. split; [|reflexivity].
        intros v'. rewrite bt_skip_insert by exact Hp. simpl. rewrite H1. reflexivity.
    Qed.

    (** Splitting a map. *)
    Lemma is_map_app p q : is_map cmp (p ++ q) <->
      is_map cmp p /\ is_map cmp q /\ forall a b, In a p -> In b q -> cmp (fst a) (fst b) = Lt.
    Proof.
      unfold is_map, ascending. rewrite map_app, sorted_app. split; intros (H1 & H2 & H3); repeat split; auto.
      - intros a b Ha Hb. apply H3; apply in_map; assumption.
      - intros x y Hx Hy. apply in_map_iff in Hx, Hy. destruct Hx as (a & <- & Ha), Hy as (b & <- & Hb). auto.
    Qed.

    Lemma is_map_cons e q : is_map cmp (e :: q) <-> is_map cmp q /\ Forall (fun x => cmp (fst e) (fst x) = Lt) q.
    Proof.
      unfold is_map, ascending. simpl. split.
      - intros H. inversion H as [|? ? H1 H2]; subst. split; [exact H1|].
        rewrite Forall_forall in *. intros x Hx. apply H2. apply in_map. exact Hx.
      - intros [H1 H2]. constructor; [exact H1|]. rewrite Forall_forall in *. intros x Hx.
        apply in_map_iff in Hx. destruct Hx as (y & <- & Hy). auto.
    Qed.

    Lemma is_map_mid k v p q : Forall (fun e => cmp (fst e) k = Lt) p -> Forall (fun e => cmp k (fst e) = Lt) q ->
      is_map cmp p -> is_map cmp q -> is_map cmp (p ++ (k, v) :: q).
    Proof.
      intros Hp Hq Mp Mq. apply is_map_app. split; [exact Mp|]. split; [apply is_map_cons; auto|].
      rewrite Forall_forall in *. intros a b Ha [<-|Hb]; [exact (Hp a Ha)|].
      exact (cmp_trans _ _ _ (Hp a Ha) (Hq b Hb)).
    Qed.

    Lemma mid_map k v p q : is_map cmp (p ++ (k, v) :: q) ->
      Forall (fun e => cmp (fst e) k = Lt) p /\ Forall (fun e => cmp k (fst e) = Lt) q
      /\ is_map cmp p /\ is_map cmp q /\ is_map cmp (p ++ q).
    Proof.
      intros H. apply is_map_app in H. destruct H as (H1 & H2 & H3). apply is_map_cons in H2. destruct H2 as [H2 H4].
      split; [|split; [exact H4|split; [exact H1|split; [exact H2|]]]].
      - apply Forall_forall. intros e He. exact (H3 e (k, v) He (or_introl eq_refl)).
      - apply is_map_app. split; [exact H1|]. split; [exact H2|]. intros a b Ha Hb. apply H3; [exact Ha|right; exact Hb].
    Qed.

    Lemma insert_is_map k v m : is_map cmp m -> is_map cmp (bt_insert cmp k v m).
    Proof.
      intros H. destruct (bt_cases k m H) as [(p & v0 & q & -> & Hp & Hq)|(_ & p & q & -> & Hp & Hq)].
      - destruct (bt_present k v0 p q Hp) as (_ & E & _). rewrite E. apply mid_map in H.
        destruct H as (_ & _ & Mp & Mq & _). apply is_map_mid; assumption.
      - destruct (bt_absent k p q Hp Hq) as (_ & E & _). rewrite E. apply is_map_app in H.
        apply is_map_mid; tauto.
    Qed.

    Lemma remove_is_map k m : is_map cmp m -> is_map cmp (bt_remove cmp k m).
    Proof.
      intros H. destruct (bt_cases k m H) as [(p & v0 & q & -> & Hp & Hq)|(_ & p & q & -> & Hp & Hq)].
      - destruct (bt_present k v0 p q Hp) as (_ & _ & E). rewrite E. apply mid_map in H. tauto.
      - destruct (bt_absent k p q Hp Hq) as (_ & _ & E). rewrite E. exact H.
    Qed.

    Lemma from_iter_is_map_aux es : forall m, is_map cmp m ->
      is_map cmp (fold_left (fun m '(k, v) => bt_insert cmp k v m) es m).
    Proof.
      induction es as [|[k v] es IH]; intros m H; [exact H|]. simpl. apply IH. apply insert_is_map. exact H.
    Qed.
    Lemma from_iter_is_map es : is_map cmp (bt_from_iter (V := V) cmp es).
    Proof. apply from_iter_is_map_aux. constructor. Qed.

    (** Entries. *)
    Lemma get_in k v m : is_map cmp m -> (bt_get cmp k m = Some v <-> In (k, v) m).
    Proof.
      intros H. destruct (bt_cases k m H) as [(p & v0 & q & -> & Hp & Hq)|(Hn & p & q & -> & Hp & Hq)].
      - destruct (bt_present k v0 p q Hp) as (E & _). rewrite E. rewrite Forall_forall in Hp, Hq. split.
        + intros E1. injection E1 as <-. apply in_or_app. right. left. reflexivity.
        + intros Hi. apply in_app_or in Hi. destruct Hi as [Hi|[Hi|Hi]].
          * apply Hp in Hi. simpl in Hi. rewrite cmp_refl in Hi. discriminate.
          * congruence.
          * apply Hq in Hi. simpl in Hi. rewrite cmp_refl in Hi. discriminate.
      - destruct (bt_absent k p q Hp Hq) as (E & _). rewrite E. split; [discriminate|].
        intros Hi. exfalso. apply Hn. apply in_map_iff. exists (k, v). auto.
    Qed.

    Lemma get_none k m : is_map cmp m -> (bt_get cmp k m = None <-> ~ has_key k m).
    Proof.
      intros H. split.
      - intros E Hk. apply in_map_iff in Hk. destruct Hk as ([k' v] & <- & Hi). apply get_in in Hi; [|exact H].
        simpl in E. congruence.
      - intros Hn. destruct (bt_get cmp k m) as [v|] eqn:E; [|reflexivity]. exfalso. apply Hn.
        apply get_in in E; [|exact H]. apply in_map_iff. exists (k, v). auto.
    Qed.

    Lemma get_key k m : is_map cmp m -> (has_key k m <-> exists v, bt_get cmp k m = Some v).
    Proof.
      intros H. split.
      - intros Hk. apply in_map_iff in Hk. destruct Hk as ([k' v] & <- & Hi). exists v. apply get_in; assumption.
      - intros [v E]. apply get_in in E; [|exact H]. apply in_map_iff. exists (k, v). auto.
    Qed.

    Lemma in_insert k v m k' v' : is_map cmp m ->
      (In (k', v') (bt_insert cmp k v m) <-> k' = k /\ v' = v \/ k' <> k /\ In (k', v') m).
    Proof.
      intros H. assert (K1 : forall e : K * V, cmp (fst e) k = Lt -> fst e <> k).
      { intros e He E. exact (cmp_lt_ne _ _ He E). }
      assert (K2 : forall e : K * V, cmp k (fst e) = Lt -> fst e <> k).
      { intros e He E. apply (cmp_lt_ne _ _ He). auto. }
      destruct (bt_cases k m H) as [(p & v0 & q & -> & Hp & Hq)|(Hn & p & q & -> & Hp & Hq)].
      - destruct (bt_present k v0 p q Hp) as (_ & E & _). rewrite E. rewrite Forall_forall in Hp, Hq. rewrite !in_app_iff. simpl. split.
        + intros [Hi|[Hi|Hi]]; [right|left|right].
          * split; [exact (K1 _ (Hp _ Hi))|auto].
          * injection Hi as <- <-. auto.
          * split; [exact (K2 _ (Hq _ Hi))|auto].
        + intros [[-> ->]|[Hne [Hi|[Hi|Hi]]]]; auto. injection Hi as E1 _. congruence.
      - destruct (bt_absent k p q Hp Hq) as (_ & E & _). rewrite E. rewrite Forall_forall in Hp, Hq. rewrite !in_app_iff. simpl. split.
        + intros [Hi|[Hi|Hi]]; [right|left|right].
          * split; [exact (K1 _ (Hp _ Hi))|auto].
          * injection Hi as <- <-. auto.
          * split; [exact (K2 _ (Hq _ Hi))|auto].
        + intros [[-> ->]|[Hne [Hi|Hi]]]; auto.
    Qed.

    Lemma in_remove k m k' v' : is_map cmp m ->
      (In (k', v') (bt_remove cmp k m) <-> k' <> k /\ In (k', v') m).
    Proof.
      intros H. destruct (bt_cases k m H) as [(p & v0 & q & -> & Hp & Hq)|(Hn & p & q & -> & Hp & Hq)].
      - destruct (bt_present k v0 p q Hp) as (_ & _ & E). rewrite E. rewrite Forall_forall in Hp, Hq. rewrite !in_app_iff. simpl. split.
        + intros [Hi|Hi]; (split; [|auto]).
          * apply Hp in Hi. exact (cmp_lt_ne _ _ Hi).
          * apply Hq in Hi. intros ->. exact (cmp_lt_ne _ _ Hi eq_refl).
        + intros [Hne [Hi|[Hi|Hi]]]; auto. injection Hi as E1 _. congruence.
      - destruct (bt_absent k p q Hp Hq) as (_ & _ & E). rewrite E. split; [|tauto]. intros Hi. split; [|exact Hi].
        intros ->. apply Hn. apply in_map_iff. exists (k, v'). auto.
    Qed.

    Lemma in_from_iter es k v : In (k, v) (bt_from_iter (V := V) cmp es) <->
      exists p q, es = p ++ (k, v) :: q /\ ~ has_key k q.
    Proof.
      unfold bt_from_iter. induction es as [|[k1 v1] es IH] using rev_ind.
      - simpl. split; [intros []|]. intros (p & q & E & _). destruct p; discriminate.
      - rewrite fold_left_app. cbn [fold_left]. rewrite in_insert by apply from_iter_is_map. rewrite IH. split.
        + intros [[-> ->]|(Hne & p & q & -> & Hq)].
          * exists es, []. split; [reflexivity|intros []].
          * exists p, (q ++ [(k1, v1)]). split; [rewrite <- app_assoc; reflexivity|].
            unfold has_key. rewrite map_app, in_app_iff. simpl. intros [Hi|[Hi|[]]]; [exact (Hq Hi)|congruence].
        + intros (p & q & E & Hq). destruct q as [|x q'] using rev_ind.
          * apply app_inj_tail in E. destruct E as [_ E]. injection E as -> ->. auto.
          * clear IHq'. rewrite app_comm_cons, app_assoc in E. apply app_inj_tail in E. destruct E as [-> <-]. right.
            unfold has_key in Hq. rewrite map_app, in_app_iff in Hq. simpl in Hq. split; [intros ->; apply Hq; auto|].
            exists p, q'. split; [reflexivity|]. tauto.
    Qed.

    Lemma map_unique m m' : is_map cmp m -> is_map cmp m' -> (forall k v, In (k, v) m <-> In (k, v) m') -> m = m'.
    Proof.
      intros H H' Hin. apply (sorted_unique (fun a b => cmp (fst a) (fst b) = Lt)).
      - intros x. rewrite cmp_refl. discriminate.
      - intros x y Hx Hy. apply cmp_lt_gt in Hy. congruence.
      - clear - H. induction m as [|e m IH]; constructor; apply is_map_cons in H; tauto.
      - clear - H'. induction m' as [|e m IH]; constructor; apply is_map_cons in H'; tauto.
      - intros [k v]. apply Hin.
    Qed.

    Lemma from_iter_map m : is_map cmp m -> bt_from_iter cmp m = m.
    Proof.
      intros H. apply map_unique; [apply from_iter_is_map|exact H|]. intros k v. rewrite in_from_iter. split.
      - intros (p & q & -> & _). apply in_or_app. right. left. reflexivity.
      - intros Hi. apply in_split in Hi. destruct Hi as (p & q & ->). exists p, q. split; [reflexivity|].
        apply mid_map in H. destruct H as (_ & H & _). rewrite Forall_forall in H. intros Hk. apply in_map_iff in Hk.
        destruct Hk as ([k' v'] & E & Hi). simpl in E. subst k'. apply H in Hi. simpl in Hi. rewrite cmp_refl in Hi. discriminate.
    Qed.

    (** ** apply_to_map is the meaning *)
    Lemma apply_is_map (d : mapdiff K V) m m' : is_map cmp m -> apply_to_map cmp d m = Some m' -> is_map cmp m'.
    Proof.
      intros H E. destruct d as [es|k v|k v|k|]; simpl in E.
      - injection E as <-. apply from_iter_is_map.
      - destruct (bt_get cmp k m); [discriminate|]. injection E as <-. apply insert_is_map. exact H.
      - destruct (bt_get cmp k m); [|discriminate]. injection E as <-. apply insert_is_map. exact H.
      - destruct (bt_get cmp k m); [|discriminate]. injection E as <-. apply remove_is_map. exact H.
      - injection E as <-. constructor.
    Qed.

    Lemma apply_map_iff (d : mapdiff K V) m m' : is_map cmp m ->
      (apply_to_map cmp d m = Some m' <-> is_map cmp m' /\ mdiff_means d m m').
    Proof.
      intros H. assert (Hto : apply_to_map cmp d m = Some m' -> mdiff_means d m m').
      { intros E. destruct d as [es|k v|k v|k|]; simpl in E |- *.
        - injection E as <-. apply in_from_iter.
        - destruct (bt_get cmp k m) eqn:Eg; [discriminate|]. injection E as <-.
          split; [apply get_none; assumption|]. intros. apply in_insert. exact H.
        - destruct (bt_get cmp k m) eqn:Eg; [|discriminate]. injection E as <-.
          split; [apply get_key; eauto|]. intros. apply in_insert. exact H.
        - destruct (bt_get cmp k m) eqn:Eg; [|discriminate]. injection E as <-.
          split; [apply get_key; eauto|]. intros. apply in_remove. exact H.
        - congruence. }
      split; [intros E; split; [exact (apply_is_map d m m' H E)|exact (Hto E)]|].
      intros [H' Hm]. destruct d as [es|k v|k v|k|]; simpl in Hm |- *.
      - f_equal. apply map_unique; [apply from_iter_is_map|exact H'|]. intros k v. rewrite Hm. apply in_from_iter.
      - destruct Hm as [Hk Hm]. apply get_none in Hk; [|exact H]. rewrite Hk. f_equal.
        apply map_unique; [apply insert_is_map; exact H|exact H'|]. intros. rewrite Hm. apply in_insert. exact H.
      - destruct Hm as [Hk Hm]. apply get_key in Hk; [|exact H]. destruct Hk as [v0 Hk]. rewrite Hk. f_equal.
        apply map_unique; [apply insert_is_map; exact H|exact H'|]. intros. rewrite Hm. apply in_insert. exact H.
      - destruct Hm as [Hk Hm]. apply get_key in Hk; [|exact H]. destruct Hk as [v0 Hk]. rewrite Hk. f_equal.
        apply map_unique; [apply remove_is_map; exact H|exact H'|]. intros. rewrite Hm. apply in_remove. exact H.
      - congruence.
    Qed.

    Lemma mreplay_app (a b : list (mapdiff K V)) : mreplay cmp (a ++ b) =
      match mreplay cmp a with Some m => apply_all (apply_to_map cmp) m b | None => None end.
    Proof. apply apply_all_app. Qed.

    Lemma apply_all_is_map (ds : list (mapdiff K V)) : forall m m', is_map cmp m ->
      apply_all (apply_to_map cmp) m ds = Some m' -> is_map cmp m'.
    Proof.
      induction ds as [|d ds IH]; intros m m' H E; simpl in E; [injection E as <-; exact H|].
      destruct (apply_to_map cmp d m) as [m1|] eqn:E1; [|discriminate].
      exact (IH m1 m' (apply_is_map d m m1 H E1) E).
    Qed.

    Lemma mreplay_is_map (ds : list (mapdiff K V)) m : mreplay cmp ds = Some m -> is_map cmp m.
    Proof. apply apply_all_is_map. constructor. Qed.
  End Ops.
End Order.
