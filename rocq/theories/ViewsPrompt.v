(** The polls of the combinators come to an end (ViewsProg.v). *)
From Verif Require Import Base Conc Spec BaseFacts LoopFacts Slot SlotFacts VecDiff VecSimple Sort VecToSignal Sig MapDiff MapComb Mpsc Views ViewsFacts ViewsProg ViewsMach.

Section Loops.
  Context {St D O : Type}.

  Lemma loop_emit_stops (step : St -> D -> option (St * option O)) x : x = Pending \/ x = Ready None -> forall known s pst s' sr r,
    loop_emit step s pst (known ++ [x]) = Some (s', sr, r) -> length (past sr) <= length pst + length (known ++ [x]).
  Proof.
    intros Hx. induction known as [|a td IH]; intros s pst s' sr r H; simpl in *.
    - destruct Hx as [-> | ->]; injection H as <- <- <-; simpl; rewrite app_length; simpl; lia.
    - destruct a as [|[d|]].
      + injection H as <- <- <-. simpl. rewrite !app_length. simpl. lia.
      + destruct (step s d) as [[s1 [o|]]|]; [| |discriminate].
        * injection H as <- <- <-. simpl. rewrite !app_length. simpl. lia.
        * apply IH in H. rewrite !app_length in *. simpl in *. lia.
      + injection H as <- <- <-. simpl. rewrite !app_length. simpl. lia.
  Qed.

  Lemma loop_drain_stops (step : St -> D -> option St) x : x = Pending \/ x = Ready None -> forall known s pst s' sr r,
    loop_drain step s pst (known ++ [x]) = Some (s', sr, r) -> length (past sr) <= length pst + length (known ++ [x]).
  Proof.
    intros Hx. induction known as [|a td IH]; intros s pst s' sr r H; simpl in *.
    - destruct Hx as [-> | ->]; injection H as <- <- <-; simpl; rewrite app_length; simpl; lia.
    - destruct a as [|[d|]].
      + injection H as <- <- <-. simpl. rewrite !app_length. simpl. lia.
      + destruct (step s d) as [s1|]; [|discriminate]. apply IH in H. rewrite !app_length in *. simpl in *. lia.
      + injection H as <- <- <-. simpl. rewrite !app_length. simpl. lia.
  Qed.

  Lemma loop_emit_reads (step : St -> D -> option (St * option O)) td : forall s pst s' sr r, loop_emit step s pst td = Some (s', sr, r) ->
    length (yielded pst) < length (yielded (past sr)) \/ s' = s /\ (forall o, r <> Ready (Some o)).
  Proof.
    destruct td as [|a td]; intros s pst s' sr r H; simpl in H.
    - injection H as <- <- <-. right. split; [reflexivity|discriminate].
    - destruct a as [|[d|]].
      + injection H as <- <- <-. right. split; [reflexivity|discriminate].
      + left. destruct (step s d) as [[s1 [o|]]|]; [| |discriminate].
        * injection H as <- <- <-. simpl. rewrite yielded_app, app_length. simpl. lia.
        * apply loop_emit_struct in H. destruct H as (ds & tl & H & _). rewrite H, !yielded_app, !app_length. simpl. lia.
      + injection H as <- <- <-. right. split; [reflexivity|discriminate].
  Qed.

  Lemma loop_drain_reads (step : St -> D -> option St) td : forall s pst s' sr r, loop_drain step s pst td = Some (s', sr, r) ->
    length (yielded pst) < length (yielded (past sr)) \/ s' = s.
  Proof.
    destruct td as [|a td]; intros s pst s' sr r H; simpl in H.
    - injection H as <- <- <-. auto.
    - destruct a as [|[d|]].
      + injection H as <- <- <-. auto.
      + left. destruct (step s d) as [s1|]; [|discriminate].
        apply loop_drain_struct in H. destruct H as (ds & H & _). rewrite H, !yielded_app, !app_length. simpl. lia.
      + injection H as <- <- <-. auto.
  Qed.

  Lemma drain_stops (step : St -> D -> option St) x known s live pst s' sl' r : x = Pending \/ x = Ready None ->
    drain_slot step s (live, mkSrc pst (known ++ [x])) = Some (s', sl', r) -> length (past (snd sl')) <= length pst + length (known ++ [x]).
  Proof.
    intros Hx. unfold drain_slot. destruct live; cbn [past todo].
    - destruct (loop_drain step s pst (known ++ [x])) as [[[s1 sr1] d1]|] eqn:E; [|discriminate]. intros H. injection H as <- <- <-. exact (loop_drain_stops _ _ Hx _ _ _ _ _ _ E).
    - intros H. injection H as <- <- <-. cbn. lia.
  Qed.
  Lemma drain_reads (step : St -> D -> option St) s live pst td s' sl' r :
    drain_slot step s (live, mkSrc pst td) = Some (s', sl', r) -> length (yielded pst) < length (yielded (past (snd sl'))) \/ s' = s.
  Proof.
    unfold drain_slot. destruct live; cbn [past todo].
    - destruct (loop_drain step s pst td) as [[[s1 sr1] d1]|] eqn:E; [|discriminate]. intros H. injection H as <- <- <-. exact (loop_drain_reads _ _ _ _ _ _ _ E).
    - intros H. injection H as <- <- <-. auto.
  Qed.
End Loops.

Section Emit.
  Context {A B : Type} (m : mach A B) (step : mst m -> A -> option (mst m * option B)).
  Hypothesis Hm : forall x, mpoll m x = emit_poll step x.

  Lemma emit_frugal : frugal m.
  Proof.
    exists (fun _ => 0). intros st pst used st' r H. rewrite Hm in H. unfold emit_poll in H. cbn [past todo] in H.
    destruct (loop_emit step st pst used) as [[[s1 sr1] r1]|] eqn:E; [|discriminate]. injection H as <- -> <-.
    apply loop_emit_reads in E. cbn [past] in E. rewrite yielded_app, app_length in E. destruct E as [E|[_ E]]; [destruct r1 as [|[]]; lia|].
    destruct r1 as [|[b|]]; [lia|exfalso; exact (E b eq_refl)|lia].
  Qed.
  Lemma emit_stops : stops m.
  Proof.
    intros st log known x Hx (st' & after & r & H & Hl). rewrite Hm in H. unfold emit_poll in H. cbn [past todo] in H.
    destruct (loop_emit step st log (known ++ [x])) as [[[s1 sr1] r1]|] eqn:E; [|discriminate]. injection H as <- <- <-.
    apply (loop_emit_stops step x Hx) in E. lia.
  Qed.
  Lemma emit_prompt {D} (p : pipe D A) : prompt p -> prompt (POn m p).
  Proof. intros Hp. cbn [prompt]. split; [exact (emit_on_demand m step Hm)|]. split; [exact emit_frugal|]. split; [exact emit_stops|exact Hp]. Qed.
End Emit.

Section Others.
  Context {A B D : Type}.

  Lemma sort_prompt (compare : A -> A -> comparison) (p : pipe D (vecdiff A)) : prompt p -> prompt (POn (sort_mach compare) p).
  Proof.
    intros Hp. cbn [prompt]. split; [apply sort_on_demand|]. split; [|split; [|exact Hp]].
    - set (wf := fun s : mst (sort_mach compare) => match so_pending s with Some _ => 1 | None => 0 end). exists wf. intros [pe va ix] pst used st' r H. cbn [mpoll sort_mach] in H. unfold sort_poll in H. destruct pe as [d|].
      + injection H as <- _ _ <-. unfold wf. cbn. lia.
      + unfold emit_poll in H. cbn [past todo] in H. match type of H with context [loop_emit ?a ?b ?c ?d] => destruct (loop_emit a b c d) as [[[s1 sr1] r1]|] eqn:E end; [|discriminate].
        injection H as <- -> <-. apply loop_emit_reads in E. cbn [past] in E. rewrite yielded_app, app_length in E.
        assert (W : wf s1 <= 1) by (unfold wf; destruct (so_pending s1); lia).
        destruct E as [E|[-> E]]; [destruct r1 as [|[]]; lia|]. destruct r1 as [|[b|]]; [unfold wf; cbn; lia|exfalso; exact (E b eq_refl)|unfold wf; cbn; lia].
    - intros [pe va ix] log known x Hx (st' & after & r & H & Hl). cbn [mpoll sort_mach] in H. unfold sort_poll in H. destruct pe as [d|].
      + injection H as <- <- <-. cbn in Hl. lia.
      + unfold emit_poll in H. cbn [past todo] in H. match type of H with context [loop_emit ?a ?b ?c ?d] => destruct (loop_emit a b c d) as [[[s1 sr1] r1]|] eqn:E end; [|discriminate].
        injection H as <- <- <-. apply (loop_emit_stops _ x Hx) in E. lia.
  Qed.

  Lemma tsm_prompt (f : list A -> B) (p : pipe D (vecdiff A)) : prompt p -> prompt (POn (to_signal_mach f) p).
  Proof.
    intros Hp. cbn [prompt]. split; [apply tsm_on_demand|]. split; [|split; [|exact Hp]].
    - exists (fun s : bool * bool * list A => if snd (fst s) then 1 else 0). intros [[live fi] va] pst used st' r H. cbn [mpoll to_signal_mach] in H. unfold tsm_poll in H. cbn [tsm_signal tsm_first tsm_values] in H.
      match type of H with context [drain_slot ?a ?b ?c] => destruct (drain_slot a b c) as [[[[v1 ch] sl1] done]|] eqn:E end; [|discriminate].
      assert (Es : mkSrc (pst ++ used) [] = snd sl1) by (destruct (ch || fi); [|destruct done]; injection H; auto).
      apply drain_reads in E. rewrite <- Es in E. cbn [past] in E. rewrite yielded_app, app_length in E.
      destruct E as [E|E]; [|injection E as -> ->]; destruct fi, done; try destruct ch; cbn [orb] in H; injection H as <- _ <-; cbn; lia.
    - intros [[live fi] va] log known x Hx (st' & after & r & H & Hl). cbn [mpoll to_signal_mach] in H. unfold tsm_poll in H. cbn [tsm_signal tsm_first tsm_values] in H.
      match type of H with context [drain_slot ?a ?b ?c] => destruct (drain_slot a b c) as [[[[v1 ch] sl1] done]|] eqn:E end; [|discriminate].
      assert (Es : after = snd sl1) by (destruct (ch || fi); [|destruct done]; injection H; auto). subst after. apply (drain_stops _ x) in E; [lia|exact Hx].
  Qed.

  Lemma sum_prompt (sum : list A -> A) (p : pipe D (vecdiff A)) : prompt p -> prompt (POn (sum_mach sum) p).
  Proof.
    intros Hp. cbn [prompt]. split; [apply sum_on_demand|]. split; [|split; [|exact Hp]].
    - exists (fun s : bool * bool * list A => if snd (fst s) then 1 else 0). intros [[live fi] va] pst used st' r H. cbn [mpoll sum_mach] in H. unfold sum_poll in H. cbn [tsm_signal tsm_first tsm_values] in H.
      match type of H with context [drain_slot ?a ?b ?c] => destruct (drain_slot a b c) as [[[[v1 ch] sl1] done]|] eqn:E end; [|discriminate].
      assert (Es : mkSrc (pst ++ used) [] = snd sl1) by (destruct (ch || fi); [|destruct done]; injection H; auto).
      apply drain_reads in E. rewrite <- Es in E. cbn [past] in E. rewrite yielded_app, app_length in E.
      destruct E as [E|E]; [|injection E as -> ->]; destruct fi, done; try destruct ch; cbn [orb] in H; injection H as <- _ <-; cbn; lia.
    - intros [[live fi] va] log known x Hx (st' & after & r & H & Hl). cbn [mpoll sum_mach] in H. unfold sum_poll in H. cbn [tsm_signal tsm_first tsm_values] in H.
      match type of H with context [drain_slot ?a ?b ?c] => destruct (drain_slot a b c) as [[[[v1 ch] sl1] done]|] eqn:E end; [|discriminate].
      assert (Es : after = snd sl1) by (destruct (ch || fi); [|destruct done]; injection H; auto). subst after. apply (drain_stops _ x) in E; [lia|exact Hx].
  Qed.

  Lemma len_prompt (p : pipe D (vecdiff A)) : prompt p -> prompt (POn len_mach p).
  Proof.
    intros Hp. cbn [prompt]. split; [apply len_on_demand|]. split; [|split; [|exact Hp]].
    - exists (fun s : bool * bool * nat => if snd (fst s) then 1 else 0). intros [[live fi] va] pst used st' r H. cbn [mpoll len_mach] in H. unfold len_poll in H. cbn [len_signal len_first len_len] in H.
      match type of H with context [drain_slot ?a ?b ?c] => destruct (drain_slot a b c) as [[[[v1 ch] sl1] done]|] eqn:E end; [|discriminate].
      assert (Es : mkSrc (pst ++ used) [] = snd sl1) by (destruct (ch || fi); [|destruct done]; injection H; auto).
      apply drain_reads in E. rewrite <- Es in E. cbn [past] in E. rewrite yielded_app, app_length in E.
      destruct E as [E|E]; [|injection E as -> ->]; destruct fi, done; try destruct ch; cbn [orb] in H; injection H as <- _ <-; cbn; lia.
    - intros [[live fi] va] log known x Hx (st' & after & r & H & Hl). cbn [mpoll len_mach] in H. unfold len_poll in H. cbn [len_signal len_first len_len] in H.
      match type of H with context [drain_slot ?a ?b ?c] => destruct (drain_slot a b c) as [[[[v1 ch] sl1] done]|] eqn:E end; [|discriminate].
      assert (Es : after = snd sl1) by (destruct (ch || fi); [|destruct done]; injection H; auto). subst after. apply (drain_stops _ x) in E; [lia|exact Hx].
  Qed.

  Lemma ie_prompt (p : pipe D (vecdiff A)) : prompt p -> prompt (POn is_empty_mach p).
  Proof.
    intros Hp. cbn [prompt]. split; [apply ie_on_demand|]. split; [|split; [|exact Hp]].
    - exists (fun s : bool * bool * nat * option bool => if snd (fst (fst s)) then 1 else 0). intros [[[live fi] va] old] pst used st' r H. cbn [mpoll is_empty_mach] in H. unfold ie_poll, len_poll in H. cbn [len_signal len_first len_len ie_len ie_old] in H.
      match type of H with context [drain_slot ?a ?b ?c] => destruct (drain_slot a b c) as [[[[v1 ch] sl1] done]|] eqn:E end; [|discriminate].
      assert (Es : mkSrc (pst ++ used) [] = snd sl1) by (destruct (ch || fi); [destruct (negb _)|destruct done]; injection H; auto).
      apply drain_reads in E. rewrite <- Es in E. cbn [past] in E. rewrite yielded_app, app_length in E.
      destruct E as [E|E]; [|injection E as -> ->]; destruct fi, done; try destruct ch; cbn [orb] in H; try destruct (negb _) in H; injection H as <- _ <-; cbn; lia.
    - intros [[[live fi] va] old] log known x Hx (st' & after & r & H & Hl). cbn [mpoll is_empty_mach] in H. unfold ie_poll, len_poll in H. cbn [len_signal len_first len_len ie_len ie_old] in H.
      match type of H with context [drain_slot ?a ?b ?c] => destruct (drain_slot a b c) as [[[[v1 ch] sl1] done]|] eqn:E end; [|discriminate].
      assert (Es : after = snd sl1) by (destruct (ch || fi); [destruct (negb _)|destruct done]; injection H; auto). subst after. apply (drain_stops _ x) in E; [lia|exact Hx].
  Qed.

  Lemma key_prompt {K} (key_eq : K -> K -> bool) k (p : pipe D (mapdiff K A)) : prompt p -> prompt (POn (key_mach key_eq k) p).
  Proof.
    intros Hp. cbn [prompt]. split; [apply key_on_demand|]. split; [|split; [|exact Hp]].
    - exists (fun s : bool => if s then 1 else 0). intros fi pst used st' r H. cbn [mpoll key_mach] in H. unfold key_poll in H. cbn [past todo] in H.
      match type of H with context [loop_drain ?a ?b ?c ?d] => destruct (loop_drain a b c d) as [[[ch sr1] done]|] eqn:E end; [|discriminate].
      assert (Es : mkSrc (pst ++ used) [] = sr1) by (destruct ch; [|destruct fi; [|destruct done]]; injection H; auto).
      apply loop_drain_reads in E. rewrite <- Es in E. cbn [past] in E. rewrite yielded_app, app_length in E.
      destruct E as [E|E]; [|subst ch]; destruct fi, done; try destruct ch; injection H as <- _ <-; cbn; lia.
    - intros fi log known x Hx (st' & after & r & H & Hl). cbn [mpoll key_mach] in H. unfold key_poll in H. cbn [past todo] in H.
      match type of H with context [loop_drain ?a ?b ?c ?d] => destruct (loop_drain a b c d) as [[[ch sr1] done]|] eqn:E end; [|discriminate].
      assert (Es : after = sr1) by (destruct ch; [|destruct fi; [|destruct done]]; injection H; auto). subst after. apply (loop_drain_stops _ x Hx) in E. lia.
  Qed.
End Others.
