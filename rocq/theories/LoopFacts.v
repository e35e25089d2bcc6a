(** Generic facts about the two polling loops. *)
From Verif Require Import Base Spec BaseFacts.

(** ** Answers and ends *)
Lemma obeys_end_nil {A} : @obeys_end A [].
Proof. intros p q H. destruct p; discriminate. Qed.

Lemma obeys_end_snoc {A} (rs : list (poll (option A))) r :
  ~ In (Ready None) rs -> obeys_end (rs ++ [r]).
Proof.
  intros Hn p q H. destruct q as [|z q]; [reflexivity|].
  exfalso. destruct (@exists_last _ (z :: q)) as (q' & y & E); [discriminate|].
  rewrite E in H. rewrite app_comm_cons, app_assoc in H.
  apply app_inj_tail in H. destruct H as [H _].
  apply Hn. rewrite H. apply in_or_app. right. left. reflexivity.
Qed.

Lemma obeys_end_no_end {A} (rs : list (poll (option A))) :
  ~ In (Ready None) rs -> obeys_end rs.
Proof.
  intros Hn p q H. exfalso. apply Hn. rewrite H. apply in_or_app. right. left. reflexivity.
Qed.

Lemma no_end_app {A} (a b : list (poll (option A))) :
  ~ In (Ready None) a -> ~ In (Ready None) b -> ~ In (Ready None) (a ++ b).
Proof. rewrite in_app_iff. tauto. Qed.

Lemma no_end_pending {A} : ~ In (Ready None) [@Pending (option A)].
Proof. intros [H|[]]; discriminate. Qed.

Lemma no_end_some {A} (a : A) : ~ In (Ready None) [Ready (Some a)].
Proof. intros [H|[]]; discriminate. Qed.

Definition somes {D} (ds : list D) : list (poll (option D)) := map (fun d => Ready (Some d)) ds.

Lemma yielded_somes {D} (ds : list D) : yielded (somes ds) = ds.
Proof. induction ds as [|d ds IH]; [reflexivity|]. simpl. rewrite IH. reflexivity. Qed.

Lemma somes_no_end {D} (ds : list D) : ~ In (Ready None) (somes ds).
Proof. unfold somes. rewrite in_map_iff. intros (x & H & _). discriminate. Qed.

Lemma last_out_snoc {X} (outs : list (poll X)) r o : last_out (outs ++ [r]) o <-> r = o.
Proof.
  split.
  - intros (p & H). apply app_inj_tail in H. tauto.
  - intros ->. exists outs. reflexivity.
Qed.

Lemma last_out_nil {X} (o : poll X) : ~ last_out [] o.
Proof. intros (p & H). destruct p; discriminate. Qed.

Lemma awaits_intro {X} (s : src X) p : past s = p ++ [Pending] -> awaits s.
Proof. intros H. exists p. exact H. Qed.

(** ** loop_emit *)
Section Emit.
  Context {St D O : Type} (step : St -> D -> option (St * option O)).

  Lemma loop_emit_struct td : forall s pst s' sr r,
    loop_emit step s pst td = Some (s', sr, r) ->
    exists ds tl, past sr = pst ++ somes ds ++ tl
      /\ yielded td = ds ++ yielded (todo sr)
      /\ match r with
         | Pending => tl = [Pending]
         | Ready None => tl = [Ready None]
         | Ready (Some _) => tl = [] /\ ds <> []
         end.
  Proof.
    induction td as [|x td IH]; intros s pst s' sr r H.
    - injection H as <- <- <-. exists [], [Pending]. repeat split.
    - destruct x as [|[d|]]; simpl in H.
      + injection H as <- <- <-. exists [], [Pending]. repeat split.
      + destruct (step s d) as [[s1 [o|]]|] eqn:E; [| |discriminate].
        * injection H as <- <- <-. exists [d], []. repeat split. discriminate.
        * apply IH in H. destruct H as (ds & tl & H1 & H2 & H3).
          exists (d :: ds), tl. split; [|split].
          -- rewrite H1, <- app_assoc. reflexivity.
          -- simpl. rewrite H2. reflexivity.
          -- destruct r as [|[o|]]; [exact H3| |exact H3].
             destruct H3 as [H3 _]. split; [exact H3|discriminate].
      + injection H as <- <- <-. exists [], [Ready None]. repeat split.
  Qed.

  Definition olist (o : option O) : list O := match o with Some x => [x] | None => [] end.
  Definition rlist (r : poll (option O)) : list O := yielded [r].

  Variable P : list D -> Prop.
  Hypothesis P_prefix : forall a b, P (a ++ b) -> P a.
  Variable Inv : St -> list D -> list O -> Prop.
  Hypothesis Inv_step : forall s ds os d, Inv s ds os -> P (ds ++ [d]) ->
    exists s' oo, step s d = Some (s', oo) /\ Inv s' (ds ++ [d]) (os ++ olist oo).

  Lemma loop_emit_inv td : forall s pst os,
    Inv s (yielded pst) os -> P (yielded pst ++ yielded td) ->
    exists s' sr r, loop_emit step s pst td = Some (s', sr, r)
      /\ Inv s' (yielded (past sr)) (os ++ rlist r)
      /\ P (yielded (past sr) ++ yielded (todo sr)).
  Proof.
    induction td as [|x td IH]; intros s pst os HI HP.
    - exists s, (mkSrc (pst ++ [Pending]) []), Pending. split; [reflexivity|].
      unfold rlist; simpl. rewrite yielded_app. simpl. rewrite !app_nil_r in *. auto.
    - destruct x as [|[d|]]; simpl.
      + exists s, (mkSrc (pst ++ [Pending]) td), Pending. split; [reflexivity|].
        unfold rlist; simpl. rewrite yielded_app. simpl. rewrite !app_nil_r in *. auto.
      + assert (HPd : P (yielded pst ++ [d])).
        { apply P_prefix with (b := yielded td). rewrite <- app_assoc. exact HP. }
        destruct (Inv_step s (yielded pst) os d HI HPd) as (s1 & oo & E & HI1).
        rewrite E. destruct oo as [o|].
        * exists s1, (mkSrc (pst ++ [Ready (Some d)]) td), (Ready (Some o)).
          split; [reflexivity|]. unfold rlist; simpl. rewrite yielded_app. simpl.
          split; [exact HI1|]. rewrite <- app_assoc. exact HP.
        * simpl in HI1. rewrite app_nil_r in HI1.
          apply IH; rewrite yielded_app; simpl; [exact HI1|].
          rewrite <- app_assoc. exact HP.
      + exists s, (mkSrc (pst ++ [Ready None]) td), (Ready None). split; [reflexivity|].
        unfold rlist; simpl. rewrite yielded_app. simpl. rewrite !app_nil_r in *. auto.
  Qed.

  (** Runs of [emit_poll] keep the invariant and do not panic. *)
  Lemma emit_run_inv s0 script : Inv s0 [] [] -> P (yielded script) ->
    forall n, exists s sr outs,
      run (emit_poll step) n (s0, fresh script) = Some ((s, sr), outs)
      /\ Inv s (yielded (past sr)) (yielded outs).
  Proof.
    intros H0 HP n.
    destruct (run_inv0 (emit_poll step)
      (fun st outs => Inv (fst st) (yielded (past (snd st))) (yielded outs)
                      /\ P (yielded (past (snd st)) ++ yielded (todo (snd st))))
      (s0, fresh script)) with (n := n) as ([s sr] & outs & Hr & HI & _).
    - simpl. split; assumption.
    - intros [s sr] outs [HI HPs] _. simpl in *.
      destruct (loop_emit_inv (todo sr) s (past sr) (yielded outs) HI HPs)
        as (s' & sr' & r & E & HI' & HP').
      exists (s', sr'), r. rewrite E. split; [reflexivity|]. simpl.
      rewrite yielded_app. split; assumption.
    - exists s, sr, outs. split; assumption.
  Qed.
End Emit.

(** Wake-ups and ends of [emit_poll], whatever the step does. *)
Lemma emit_run_wake {St D O} (step : St -> D -> option (St * option O)) s0 script n s sr outs :
  run (emit_poll step) n (s0, fresh script) = Some ((s, sr), outs) ->
  (last_out outs Pending -> awaits sr)
  /\ (last_out outs (Ready None) <-> ended sr)
  /\ obeys_end (past sr).
Proof.
  intros H.
  cut ((last_out outs Pending -> awaits sr)
       /\ (last_out outs (Ready None) <-> ended sr)
       /\ obeys_end (past sr)
       /\ (~ In (Ready None) outs -> ~ ended sr)); [tauto|].
  revert H. 
  apply (run_inv_partial0 (emit_poll step)
    (fun st outs => (last_out outs Pending -> awaits (snd st))
       /\ (last_out outs (Ready None) <-> ended (snd st))
       /\ obeys_end (past (snd st))
       /\ (~ In (Ready None) outs -> ~ ended (snd st)))) with (s' := (s, sr)).
  - simpl. split; [|split; [|split]].
    + intros Hx. exfalso. exact (last_out_nil _ Hx).
    + split; [intros Hx; exfalso; exact (last_out_nil _ Hx)|intros []].
    + apply obeys_end_nil.
    + intros _ [].
  - clear. intros [s sr] outs [s' sr'] o (_ & _ & _ & Hne) Hno Hm. simpl in *.
      specialize (Hne Hno). unfold ended in Hne.
      destruct (loop_emit step s (past sr) (todo sr)) as [[[s1 sr1] r1]|] eqn:E; [|discriminate].
      injection Hm as <- <- <-.
      apply loop_emit_struct in E. destruct E as (ds & tl & Hp & _ & Htl).
      assert (Hpre : ~ In (Ready None) (past sr ++ somes ds))
        by (apply no_end_app; [exact Hne|apply somes_no_end]).
      rewrite app_assoc in Hp. unfold ended, awaits. rewrite Hp, !last_out_snoc.
      destruct r1 as [|[x|]].
      + subst tl. split; [|split; [|split]].
        * eexists; reflexivity.
        * split; [congruence|]. intros Hin. exfalso. revert Hin.
          apply no_end_app; [exact Hpre|apply no_end_pending].
        * apply obeys_end_snoc. exact Hpre.
        * intros _. apply no_end_app; [exact Hpre|apply no_end_pending].
      + destruct Htl as [-> _]. rewrite app_nil_r. split; [|split; [|split]].
        * congruence.
        * split; [congruence|]. intros Hin. exfalso. exact (Hpre Hin).
        * apply obeys_end_no_end. exact Hpre.
        * intros _. exact Hpre.
      + subst tl. split; [|split; [|split]].
        * congruence.
        * split; [|congruence]. intros _. apply in_or_app. right. left. reflexivity.
        * apply obeys_end_snoc. exact Hpre.
        * intros Hc. exfalso. apply Hc. apply in_or_app. right. left. reflexivity.
Qed.

(** ** loop_drain *)
Section Drain.
  Context {St D : Type} (step : St -> D -> option St).

  Definition drain_end (done : bool) : poll (option D) := if done then Ready None else Pending.

  Lemma loop_drain_struct td : forall s pst s' sr done,
    loop_drain step s pst td = Some (s', sr, done) ->
    exists ds, past sr = (pst ++ somes ds) ++ [drain_end done]
      /\ yielded td = ds ++ yielded (todo sr).
  Proof.
    induction td as [|x td IH]; intros s pst s' sr done H.
    - injection H as <- <- <-. exists []. simpl. rewrite app_nil_r. split; reflexivity.
    - destruct x as [|[d|]]; simpl in H.
      + injection H as <- <- <-. exists []. simpl. rewrite app_nil_r. split; reflexivity.
      + destruct (step s d) as [s1|] eqn:E; [|discriminate].
        apply IH in H. destruct H as (ds & H1 & H2).
        exists (d :: ds). split.
        * rewrite H1, <- (app_assoc pst). reflexivity.
        * simpl. rewrite H2. reflexivity.
      + injection H as <- <- <-. exists []. simpl. rewrite app_nil_r. split; reflexivity.
  Qed.

  Variable P : list D -> Prop.
  Hypothesis P_prefix : forall a b, P (a ++ b) -> P a.
  Variable Inv : St -> list D -> Prop.
  Hypothesis Inv_step : forall s ds d, Inv s ds -> P (ds ++ [d]) ->
    exists s', step s d = Some s' /\ Inv s' (ds ++ [d]).

  Lemma loop_drain_inv td : forall s pst,
    Inv s (yielded pst) -> P (yielded pst ++ yielded td) ->
    exists s' sr done, loop_drain step s pst td = Some (s', sr, done)
      /\ Inv s' (yielded (past sr))
      /\ P (yielded (past sr) ++ yielded (todo sr)).
  Proof.
    induction td as [|x td IH]; intros s pst HI HP.
    - do 3 eexists. split; [reflexivity|].
      simpl. rewrite yielded_app. simpl. rewrite !app_nil_r in *. auto.
    - destruct x as [|[d|]]; simpl.
      + do 3 eexists. split; [reflexivity|].
        simpl. rewrite yielded_app. simpl. rewrite !app_nil_r in *. auto.
      + assert (HPd : P (yielded pst ++ [d])).
        { apply P_prefix with (b := yielded td). rewrite <- app_assoc. exact HP. }
        destruct (Inv_step s (yielded pst) d HI HPd) as (s1 & E & HI1).
        rewrite E. apply IH; rewrite yielded_app; simpl; [exact HI1|].
        rewrite <- app_assoc. exact HP.
      + do 3 eexists. split; [reflexivity|].
        simpl. rewrite yielded_app. simpl. rewrite !app_nil_r in *. auto.
  Qed.
End Drain.
