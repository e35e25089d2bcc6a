(** What the combinators of a SignalMap pass on, counted (C69). *)
From Verif Require Import Base Spec BaseFacts VecDiff VecSpec MapDiff Sort MapComb Economy.

(** The entries in some MapDiffs, in order. *)
Definition entries_in {K V} (d : mapdiff K V) : list (K * V) :=
  match d with MReplace es => es | MInsert k v | MUpdate k v => [(k, v)] | MRemove _ | MClear => [] end.
Definition is_update {K V} (d : mapdiff K V) : bool := match d with MUpdate _ _ => true | _ => false end.
Definition not_update {K V} (d : mapdiff K V) : bool := negb (is_update d).

Section MapEconomy.
  Context {K V : Type} (cmp : K -> K -> comparison).

  Lemma keys_economy script n ks sr outs : run (keys_poll (V := V) cmp) n ([], fresh script) = Some ((ks, sr), outs) ->
    let received := filter not_update (yielded (past sr)) in
    carried (yielded outs) = map fst (flat_map entries_in received) /\ length (yielded outs) = length received.
  Proof.
    apply (emit_keeps (keys_step (V := V) cmp) (fun _ ds os => carried os = map fst (flat_map entries_in (filter not_update ds)) /\ length os = length (filter not_update ds))); [auto|].
    clear. intros s ds os d s' o [H1 H2] E. rewrite filter_app, flat_map_app, map_app, carried_app, !app_length, H1, H2.
    enough (carried (tolist o) = map fst (flat_map entries_in (filter not_update [d])) /\ length (tolist o) = length (filter not_update [d])) as [-> ->] by auto.
    destruct d as [es|k v|k v|k|]; cbn [keys_step] in E.
    - injection E as <- <-. cbn. rewrite !app_nil_r. auto.
    - destruct (search_err cmp s k); [|discriminate]. destruct (vinsert n k s); [|discriminate]. injection E as <- <-. auto.
    - injection E as <- <-. auto.
    - destruct (search_ok cmp s k); [|discriminate]. destruct (vremove n s) as [[]|]; [|discriminate]. injection E as <- <-. auto.
    - injection E as <- <-. auto.
  Qed.
  Lemma entries_economy script n ks sr outs : run (entries_poll (V := V) cmp) n ([], fresh script) = Some ((ks, sr), outs) ->
    carried (yielded outs) = flat_map entries_in (yielded (past sr)) /\ length (yielded outs) = length (yielded (past sr)).
  Proof.
    apply (emit_keeps (entries_step (V := V) cmp) (fun _ ds os => carried os = flat_map entries_in ds /\ length os = length ds)); [auto|].
    clear. intros s ds os d s' o [H1 H2] E. rewrite flat_map_app, carried_app, !app_length, H1, H2.
    enough (carried (tolist o) = flat_map entries_in [d] /\ length (tolist o) = length [d]) as [-> ->] by auto.
    destruct d as [es|k v|k v|k|]; cbn [entries_step] in E.
    - injection E as <- <-. auto.
    - destruct (search_err cmp s k); [|discriminate]. destruct (vinsert n k s); [|discriminate]. injection E as <- <-. auto.
    - destruct (search_ok cmp s k); [|discriminate]. injection E as <- <-. auto.
    - destruct (search_ok cmp s k); [|discriminate]. destruct (vremove n s) as [[]|]; [|discriminate]. injection E as <- <-. auto.
    - injection E as <- <-. auto.
  Qed.
End MapEconomy.
Lemma map_value_economy {K A B} (f : A -> B) (script : list (poll (option (mapdiff K A)))) n calls sr outs : run (map_value_poll f) n ([], fresh script) = Some ((calls, sr), outs) ->
  flat_map entries_in (yielded outs) = map (fun kv => (fst kv, f (snd kv))) (flat_map entries_in (yielded (past sr))) /\ length (yielded outs) = length (yielded (past sr)).
Proof.
  apply (emit_keeps (@map_value_step K A B f) (fun _ ds os => flat_map entries_in os = map (fun kv => (fst kv, f (snd kv))) (flat_map entries_in ds) /\ length os = length ds)); [auto|].
  clear. intros s ds os d s' o [H1 H2] E. rewrite !flat_map_app, map_app, !app_length, H1, H2. unfold map_value_step in E. destruct (md_map f d) as [out c] eqn:Ed. injection E as <- <-.
  split; [|reflexivity]. f_equal. cbn. rewrite !app_nil_r. destruct d; cbn in Ed; injection Ed as <- <-; cbn; try reflexivity. apply map_ext. intros []. reflexivity.
Qed.
