(** The views of a MutableBTreeMap, end to end. *)
From Verif Require Import Base Spec BaseFacts VecDiff LoopFacts MapDiff MapSpec MapFacts MapComb MapCombFacts
  Mpsc MutMap MutMapSpec MutMapFacts WakeFacts.

Section ViewsOfMap.
  Context {K V : Type} (cmp : K -> K -> comparison) (TO : total_order cmp).

  Lemma keys_of_map (init : list (K * V)) es st id s script n :
    mm_run cmp es (mm_new cmp init) = Some st -> nth_error (mm_chans st) id = Some s -> calive s = true ->
    yielded script = ctotal s ->
    exists ks sr outs, run (keys_poll cmp) n ([], fresh script) = Some ((ks, sr), outs)
      /\ (yielded (past sr) = ctotal s -> replay (yielded outs) = Some (map fst (mm_values st))).
  Proof.
    intros E Hs Ha Hsc. destruct (mm_feeds cmp TO init es st id s E Hs Ha) as [Hr Hasc].
    destruct (keys_mirror cmp TO script) with (n := n) as (ks & sr & outs & m & Hrun & Hc & Ho & _).
    - unfold good_map_script. rewrite Hsc, Hr. discriminate.
    - rewrite Hsc. exact Hasc.
    - exists ks, sr, outs. split; [exact Hrun|]. intros Hall. unfold mconveyed in Hc. rewrite Hall, Hr in Hc. injection Hc as ->. exact Ho.
  Qed.

  Lemma entries_of_map (init : list (K * V)) es st id s script n :
    mm_run cmp es (mm_new cmp init) = Some st -> nth_error (mm_chans st) id = Some s -> calive s = true ->
    yielded script = ctotal s ->
    exists ks sr outs, run (entries_poll cmp) n ([], fresh script) = Some ((ks, sr), outs)
      /\ (yielded (past sr) = ctotal s -> replay (yielded outs) = Some (mm_values st)).
  Proof.
    intros E Hs Ha Hsc. destruct (mm_feeds cmp TO init es st id s E Hs Ha) as [Hr Hasc].
    destruct (entries_mirror cmp TO script) with (n := n) as (ks & sr & outs & m & Hrun & Hc & Ho & _).
    - unfold good_map_script. rewrite Hsc, Hr. discriminate.
    - rewrite Hsc. exact Hasc.
    - exists ks, sr, outs. split; [exact Hrun|]. intros Hall. unfold mconveyed in Hc. rewrite Hall, Hr in Hc. injection Hc as ->. exact Ho.
  Qed.

  (** The key watched on a subscriber of a MutableBTreeMap: no duplicate keys can occur. *)
  Lemma is_map_nodup (m : list (K * V)) : is_map cmp m -> NoDup (map fst m).
  Proof.
    induction m as [|e m IH]; intros H; [constructor|]. apply is_map_cons in H. destruct H as [H1 H2]. cbn [map].
    constructor; [|exact (IH H1)]. rewrite Forall_forall in H2. intros Hi. apply in_map_iff in Hi. destruct Hi as (x & Ex & Hx).
    specialize (H2 x Hx). rewrite Ex, (cmp_refl cmp TO) in H2. discriminate.
  Qed.

  Lemma key_of_map (key_eq : K -> K -> bool) (k : K) (init : list (K * V)) es st id s script n :
    lawful key_eq ->
    mm_run cmp es (mm_new cmp init) = Some st -> nth_error (mm_chans st) id = Some s -> calive s = true ->
    yielded script = ctotal s ->
    exists first sr outs, run (key_poll key_eq k) n (true, fresh script) = Some ((first, sr), outs)
      /\ (outs <> [] -> yielded (past sr) = ctotal s ->
          exists o, latest_of outs = Some o /\ forall v, o = Some v <-> In (k, v) (mm_values st)).
  Proof.
    intros LK E Hs Ha Hsc. destruct (mm_feeds cmp TO init es st id s E Hs Ha) as [Hr Hasc].
    destruct (key_cloned_mirror cmp TO key_eq LK k script) with (n := n) as (first & sr & outs & m & Hrun & Hc & Ho).
    - unfold good_map_script. rewrite Hsc, Hr. discriminate.
    - rewrite Hsc. intros es' Hes. apply is_map_nodup. exact (Hasc es' Hes).
    - exists first, sr, outs. split; [exact Hrun|]. intros Hne Hall. unfold mconveyed in Hc. rewrite Hall, Hr in Hc. injection Hc as ->.
      exact (Ho Hne).
  Qed.
End ViewsOfMap.

Lemma map_rearms {K V A B} (cmp : K -> K -> comparison) (f : A -> B) :
  rearms (map_value_poll (K := K) f) snd /\ rearms (keys_poll (V := V) cmp) snd /\ rearms (entries_poll (V := V) cmp) snd.
Proof. split; [|split]; apply emit_rearms. Qed.
