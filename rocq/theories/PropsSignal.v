(** Properties of the Signal combinators (C32 to C44, parts of C24). *)
From Verif Require Import Base Spec Slot VecDiff VecSpec Sig SigSlots SigFacts SigSlotsFacts SigFutFacts SigFlatFacts MapMutFacts LoopFacts.

(** An input used in the examples: 1, then Pending, then 1, 2 and 2 at once, Pending, 3, end. *)
Definition ex_signal : list (poll (option nat)) :=
  [Ready (Some 1); Pending; Ready (Some 1); Ready (Some 2); Ready (Some 2); Pending; Ready (Some 3); Ready None].
Example ex_signal_initial : has_initial ex_signal.
Proof. do 2 eexists. reflexivity. Qed.

(** ** Wake-ups, ends and initial values of the combinators with one polling loop *)

(** C43, C24: after Pending the input's last answer was Pending; the combinator ends exactly
    when its input has ended; the input is not polled after its end. *)
Theorem C24_C43_loops : forall A B (f : A -> B) (fm : A -> option B) (fd : A -> A * B)
  (eqb : A -> A -> bool) (v : A),
  single_source_ok (map_poll f) tt
  /\ single_source_ok (@inspect_poll A) []
  /\ single_source_ok (@debug_poll A) tt
  /\ single_source_ok (@to_stream_poll A) tt
  /\ single_source_ok (@to_signal_vec_poll A) tt
  /\ single_source_ok (eq_poll eqb v) None
  /\ single_source_ok (neq_poll eqb v) None
  /\ single_source_ok (dedupe_map_poll eqb fd) (None, [])
  /\ single_source_ok (dedupe_poll eqb) (None, [])
  /\ single_source_ok (sig_filter_map_poll fm) (true, [])
  /\ single_source_ok not_poll tt.
Proof.
  intros A B f fm fd eqb v.
  repeat (split; [intros script n s sr outs; apply emit_run_wake|]).
  intros script n s sr outs; apply emit_run_wake.
Qed.
Print Assumptions C24_C43_loops.

(** C32: an input that honours the first-poll contract gives an output that does. *)
Theorem C32_loops : forall A B (f : A -> B) (fm : A -> option B) (fd : A -> A * B)
  (eqb : A -> A -> bool) (v : A) (test : A -> bool),
  initial_ok (map_poll f) tt
  /\ initial_ok (@inspect_poll A) []
  /\ initial_ok (@debug_poll A) tt
  /\ initial_ok (@to_stream_poll A) tt
  /\ initial_ok (@to_signal_vec_poll A) tt
  /\ initial_ok (eq_poll eqb v) None
  /\ initial_ok (neq_poll eqb v) None
  /\ initial_ok (dedupe_map_poll eqb fd) (None, [])
  /\ initial_ok (dedupe_poll eqb) (None, [])
  /\ initial_ok (sig_filter_map_poll fm) (true, [])
  /\ initial_ok not_poll tt
  /\ initial_ok (stop_if_poll test) (false, []).
Proof.
  intros A B f fm fd eqb v test.
  split; [apply emit_initial; intros d s' o [= <- <-]; discriminate|].
  split; [apply emit_initial; intros d s' o [= <- <-]; discriminate|].
  split; [apply emit_initial; intros d s' o [= <- <-]; discriminate|].
  split; [apply emit_initial; intros d s' o [= <- <-]; discriminate|].
  split; [apply emit_initial; intros d s' o [= <- <-]; discriminate|].
  split; [apply emit_initial; intros d s' o [= <- <-]; discriminate|].
  split; [apply emit_initial; intros d s' o [= <- <-]; discriminate|].
  split; [apply emit_initial; intros d s' o; unfold dedupe_step; destruct (fd d); intros [= <- <-]; discriminate|].
  split; [apply emit_initial; intros d s' o [= <- <-]; discriminate|].
  split; [apply emit_initial; intros d s' o; unfold sig_fm_step; destruct (fm d); intros [= <- <-]; discriminate|].
  split; [apply emit_initial; intros d s' o [= <- <-]; discriminate|].
  apply stop_if_initial.
Qed.
Print Assumptions C32_loops.

Example C24_C32_C43_ex :
  option_map snd (run (eq_poll Nat.eqb 2) 6 (None, fresh ex_signal))
  = Some [Ready (Some false); Pending; Ready (Some true); Pending; Ready (Some false); Ready None].
Proof. reflexivity. Qed.

(** ** What they show *)

(** C33: one answer per answer of the input; the closure of inspect saw every value once, in
    order. *)
Theorem C33_map : forall A B (f : A -> B) script n, exists s sr outs,
  run (map_poll f) n (tt, fresh script) = Some ((s, sr), outs)
  /\ outs = answers_mapped f (past sr).
Proof. exact @map_mirror. Qed.
Print Assumptions C33_map.

Theorem C33_not : forall script n, exists s sr outs,
  run not_poll n (tt, fresh script) = Some ((s, sr), outs)
  /\ outs = answers_mapped negb (past sr).
Proof. exact (map_mirror negb). Qed.
Print Assumptions C33_not.

Theorem C33_inspect : forall A (script : list (poll (option A))) n, exists calls sr,
  run inspect_poll n ([], fresh script) = Some ((calls, sr), past sr)
  /\ calls = yielded (past sr).
Proof. exact @inspect_mirror. Qed.
Print Assumptions C33_inspect.

Theorem C33_debug : forall A (script : list (poll (option A))) n, exists sr,
  run debug_poll n (tt, fresh script) = Some ((tt, sr), past sr).
Proof. intros A. exact (forward_id (@debug_step A) (fun _ _ => eq_refl)). Qed.
Print Assumptions C33_debug.

(** Signal::to_signal_vec: the list conveyed is always the input's most recent value. *)
Theorem C33_to_signal_vec : forall A (script : list (poll (option (list A)))) n, exists s sr outs,
  run to_signal_vec_poll n (tt, fresh script) = Some ((s, sr), outs)
  /\ outs = answers_mapped Replace (past sr)
  /\ replay (yielded outs) = Some (match latest sr with Some l => l | None => [] end).
Proof. exact @to_signal_vec_mirror. Qed.
Print Assumptions C33_to_signal_vec.

(** C33, C34: eq and neq output the derived booleans without repetitions; the last output is
    always the comparison of the most recent input. *)
Theorem C33_C34_eq : forall A (eqb : A -> A -> bool) v script n, exists s sr outs,
  run (eq_poll eqb v) n (None, fresh script) = Some ((s, sr), outs)
  /\ yielded outs = squash Bool.eqb (map (fun a => eqb a v) (yielded (past sr)))
  /\ latest_of outs = option_map (fun a => eqb a v) (latest sr)
  /\ no_repeats Bool.eqb (yielded outs).
Proof. exact @eq_run. Qed.
Print Assumptions C33_C34_eq.

Theorem C33_C34_neq : forall A (eqb : A -> A -> bool) v script n, exists s sr outs,
  run (neq_poll eqb v) n (None, fresh script) = Some ((s, sr), outs)
  /\ yielded outs = squash Bool.eqb (map (fun a => negb (eqb a v)) (yielded (past sr)))
  /\ latest_of outs = option_map (fun a => negb (eqb a v)) (latest sr)
  /\ no_repeats Bool.eqb (yielded outs).
Proof. exact @neq_run. Qed.
Print Assumptions C33_C34_neq.

(** dedupe and dedupe_cloned, for an arbitrary PartialEq. *)
Theorem C33_C34_dedupe : forall A (eqb : A -> A -> bool) script n, exists s sr outs,
  run (dedupe_poll eqb) n ((None, []), fresh script) = Some ((s, sr), outs)
  /\ yielded outs = squash eqb (yielded (past sr))
  /\ no_repeats eqb (yielded outs)
  /\ (forall a, latest sr = Some a ->
        exists k, latest_of outs = Some k /\ (k = a \/ eqb k a = true)).
Proof. exact @dedupe_run. Qed.
Print Assumptions C33_C34_dedupe.

(** For a lawful PartialEq the last output is the input's most recent value. *)
Theorem C33_C34_dedupe_lawful : forall A (eqb : A -> A -> bool) script n, lawful eqb -> exists s sr outs,
  run (dedupe_poll eqb) n ((None, []), fresh script) = Some ((s, sr), outs)
  /\ latest_of outs = latest sr
  /\ (forall p a b q, yielded outs = p ++ a :: b :: q -> a <> b).
Proof. exact @dedupe_run_lawful. Qed.
Print Assumptions C33_C34_dedupe_lawful.

Example C34_ex : lawful Nat.eqb
  /\ option_map snd (run (dedupe_poll Nat.eqb) 6 ((None, []), fresh ex_signal))
     = Some [Ready (Some 1); Pending; Ready (Some 2); Pending; Ready (Some 3); Ready None].
Proof. split; [exact PeanoNat.Nat.eqb_eq|reflexivity]. Qed.

(** C33: filter_map. The closure sees every value once, in order. The first output is the
    closure's answer for the first value, the later ones are the accepted values; the last
    output is the most recent accepted value, None if there was none. *)
Theorem C33_filter_map : forall A B (f : A -> option B) script n, exists s sr outs,
  run (sig_filter_map_poll f) n ((true, []), fresh script) = Some ((s, sr), outs)
  /\ snd s = yielded (past sr)
  /\ yielded outs = match yielded (past sr) with
                    | [] => []
                    | a :: t => f a :: map Some (accepted_values f t)
                    end
  /\ latest_of outs = match yielded (past sr) with
                      | [] => None
                      | l => Some (last (map Some (accepted_values f l)) None)
                      end.
Proof. exact @sig_filter_map_run. Qed.
Print Assumptions C33_filter_map.

Example C33_filter_map_ex :
  option_map snd (run (sig_filter_map_poll (fun a => if Nat.eqb a 2 then Some (a * 10) else None)) 6
    ((true, []), fresh ex_signal))
  = Some [Ready (Some None); Pending; Ready (Some (Some 20)); Ready (Some (Some 20)); Pending; Ready None].
Proof. reflexivity. Qed.

(** C33: option and result. With a signal inside they forward every answer, wrapped; without
    one they output once and end. *)
Theorem C24_C33_C43_maybe : forall A E C (f : A -> C) (g : E -> C),
  (forall script n, exists sr,
     run (maybe_poll f g) n (MSignal (fresh script)) = Some (MSignal sr, answers_mapped f (past sr))
     /\ obeys_end (past sr))
  /\ (forall e n, exists st,
     run (maybe_poll f g) n (MValue (Some e)) = Some (st, firstn n [Ready (Some (g e)); Ready None])).
Proof. intros A E C f g. split; [apply maybe_signal_run|apply maybe_value_run]. Qed.
Print Assumptions C24_C33_C43_maybe.

(** ** C35: dedupe_map *)

(** The closure modifies the value it is given before it is remembered: a closure that sets it
    to 0 is called for 5 and again for 5. *)
Theorem C35_dedupe_map_refuted : exists (f : nat -> nat * nat) (script : list (poll (option nat))) n s sr outs,
  run (dedupe_map_poll Nat.eqb f) n ((None, []), fresh script) = Some ((s, sr), outs)
  /\ snd s <> squash Nat.eqb (yielded (past sr)).
Proof.
  exists (fun v => (0, v)), [Ready (Some 5); Ready (Some 5)], 2. vm_compute.
  do 3 eexists. split; [reflexivity|]. simpl. discriminate.
Qed.
Print Assumptions C35_dedupe_map_refuted.

(** Worse: the next value is not noticed at all if the closure left its equal behind. *)
Theorem C35_dedupe_map_stale_refuted : exists (f : nat -> nat * nat) (script : list (poll (option nat))) n s sr outs,
  run (dedupe_map_poll Nat.eqb f) n ((None, []), fresh script) = Some ((s, sr), outs)
  /\ last_out outs Pending
  /\ latest_of outs <> option_map (fun a => snd (f a)) (latest sr).
Proof.
  exists (fun v => (0, v)), [Ready (Some 5); Ready (Some 0)], 2. vm_compute.
  do 3 eexists. split; [reflexivity|]. split; [exists [Ready (Some 5)]; reflexivity|]. simpl. discriminate.
Qed.
Print Assumptions C35_dedupe_map_stale_refuted.

(** Missing: closures that change what the value compares equal to. *)
Theorem C35_dedupe_map_partial : forall A B (eqb : A -> A -> bool) (f : A -> A * B),
  (forall a b, eqb (fst (f a)) b = eqb a b) -> forall script n, exists s sr outs,
  run (dedupe_map_poll eqb f) n ((None, []), fresh script) = Some ((s, sr), outs)
  /\ snd s = squash eqb (yielded (past sr))
  /\ yielded outs = map (fun a => snd (f a)) (squash eqb (yielded (past sr)))
  /\ (forall a, latest sr = Some a ->
        exists k, latest_of outs = Some (snd (f k)) /\ (k = a \/ eqb k a = true)).
Proof. exact @dedupe_map_latest. Qed.
Print Assumptions C35_dedupe_map_partial.

Theorem C35_dedupe_map_lawful_partial : forall A B (eqb : A -> A -> bool) (f : A -> A * B) script n,
  lawful eqb -> (forall a, fst (f a) = a) -> exists s sr outs,
  run (dedupe_map_poll eqb f) n ((None, []), fresh script) = Some ((s, sr), outs)
  /\ snd s = squash eqb (yielded (past sr))
  /\ yielded outs = map (fun a => snd (f a)) (squash eqb (yielded (past sr)))
  /\ latest_of outs = option_map (fun a => snd (f a)) (latest sr).
Proof. exact @dedupe_map_lawful. Qed.
Print Assumptions C35_dedupe_map_lawful_partial.

Example C35_ex : (forall a b, Nat.eqb (fst ((fun a => (a, a * 10)) a)) b = Nat.eqb a b)
  /\ option_map snd (run (dedupe_map_poll Nat.eqb (fun a => (a, a * 10))) 6 ((None, []), fresh ex_signal))
     = Some [Ready (Some 10); Pending; Ready (Some 20); Pending; Ready (Some 30); Ready None].
Proof. split; reflexivity. Qed.

(** ** C33, C36: map_ref!, map_mut!, and, or *)

(** For any number of inputs that honour the first-poll contract:
    - the first answer is a value;
    - the last value output is the closure applied to the most recent value of every input;
    - a value is output exactly by the polls in which some input answered with a value (one
      value, however many inputs changed);
    - after Pending every input awaits or has ended, and some input awaits;
    - it ends only when all inputs have ended;
    - every live input is polled exactly once per poll, an ended one never. *)
Theorem C24_C32_C33_C36_C43_map_ref : forall A B (f : list A -> B) (scripts : list (list (poll (option A)))) n,
  scripts <> [] -> Forall has_initial scripts ->
  exists is outs, run (map_ref_poll f) n (map_mut_init scripts) = Some (is, outs)
  /\ (let inputs := map (fun i => snd (mr_signal i)) is in
      length inputs = length scripts
      /\ (outs <> [] -> has_initial outs)
      /\ (outs <> [] -> exists vs, map latest inputs = map Some vs /\ latest_of outs = Some (f vs))
      /\ ((exists b, last_out outs (Ready (Some b))) <->
            outs <> [] /\ Exists (fun i => length (past i) = length outs /\ exists a, last_out (past i) (Ready (Some a))) inputs)
      /\ (last_out outs Pending -> Forall (fun i => awaits i \/ ended i) inputs /\ Exists awaits inputs)
      /\ (last_out outs (Ready None) -> Forall ended inputs)
      /\ Forall (fun i => obeys_end (past i) /\ length (past i) <= length outs
                         /\ (~ ended i -> length (past i) = length outs)) inputs).
Proof. exact @map_ref_run. Qed.
Print Assumptions C24_C32_C33_C36_C43_map_ref.

(** map_mut! with a body that may modify the values. [answered k] is what the inputs answered
    in the k-th poll: the outputs are the results of calling the body once for every poll in
    which some input answered with a value, on the newest value of every input, where the body's
    own modification stays in place until the input answers again. *)
Theorem C24_C32_C33_C36_C43_map_mut : forall A B (f : list A -> list A * B) (scripts : list (list (poll (option A)))) n,
  scripts <> [] -> Forall has_initial scripts -> (forall vs, length (fst (f vs)) = length vs) ->
  exists is outs, run (map_mut_poll f) n (map_mut_init scripts) = Some (is, outs)
  /\ (let inputs := map (fun i => snd (mr_signal i)) is in
      length inputs = length scripts
      /\ (outs <> [] -> has_initial outs)
      /\ (exists final, called_per_round f (repeat None (length scripts))
            (map (fun k => map (answered k) inputs) (seq 0 (length outs))) = Some (final, yielded outs))
      /\ (last_out outs Pending -> Forall (fun i => awaits i \/ ended i) inputs /\ Exists awaits inputs)
      /\ (last_out outs (Ready None) -> Forall ended inputs)
      /\ Forall (fun i => obeys_end (past i) /\ length (past i) <= length outs
                         /\ (~ ended i -> length (past i) = length outs)) inputs).
Proof. exact @map_mut_modifying. Qed.
Print Assumptions C24_C32_C33_C36_C43_map_mut.

(** With a body that leaves the values as they are, the last output is the body's result for
    the most recent values, as for map_ref!. *)
Theorem C33_C36_map_mut_unmodified : forall A B (f : list A -> list A * B) (scripts : list (list (poll (option A)))) n,
  scripts <> [] -> Forall has_initial scripts -> (forall vs, fst (f vs) = vs) ->
  exists is outs, run (map_mut_poll f) n (map_mut_init scripts) = Some (is, outs)
  /\ (outs <> [] -> exists vs, map latest (map (fun i => snd (mr_signal i)) is) = map Some vs
                             /\ latest_of outs = Some (snd (f vs))).
Proof.
  intros A B f scripts n H1 H2 H3. destruct (map_mut_run f scripts n H1 H2 H3) as (is & outs & Hr & _ & _ & Hl & _).
  exists is, outs. split; [exact Hr|exact Hl].
Qed.
Print Assumptions C33_C36_map_mut_unmodified.

Example C36_map_mut_ex :
  option_map snd (run (map_mut_poll (fun l => (map S l, list_sum l))) 4
    (map_mut_init [[Ready (Some 1); Pending; Ready (Some 5)]; [Ready (Some 7); Ready (Some 8)]]))
  = Some [Ready (Some 8); Ready (Some 10); Ready (Some 14); Pending].
Proof. reflexivity. Qed.

Theorem C33_and : forall s1 s2 n, has_initial s1 -> has_initial s2 ->
  exists i1 i2 outs, run and_poll n (map_mut_init [s1; s2]) = Some ([i1; i2], outs)
  /\ (outs <> [] -> exists a b, latest (snd (mr_signal i1)) = Some a /\ latest (snd (mr_signal i2)) = Some b
                               /\ latest_of outs = Some (a && b)).
Proof. exact (two_values (fun vs => match vs with [a; b] => a && b | _ => false end)). Qed.
Print Assumptions C33_and.

Theorem C33_or : forall s1 s2 n, has_initial s1 -> has_initial s2 ->
  exists i1 i2 outs, run or_poll n (map_mut_init [s1; s2]) = Some ([i1; i2], outs)
  /\ (outs <> [] -> exists a b, latest (snd (mr_signal i1)) = Some a /\ latest (snd (mr_signal i2)) = Some b
                               /\ latest_of outs = Some (a || b)).
Proof. exact (two_values (fun vs => match vs with [a; b] => a || b | _ => false end)). Qed.
Print Assumptions C33_or.

Example C36_ex : Forall has_initial [ex_signal; [Ready (Some 7); Pending; Pending; Ready (Some 8); Ready None]]
  /\ option_map snd (run (map_ref_poll (fun l => list_sum l)) 9
       (map_mut_init [ex_signal; [Ready (Some 7); Pending; Pending; Ready (Some 8); Ready None]]))
     = Some [Ready (Some 8); Pending; Ready (Some 8); Ready (Some 10); Ready (Some 10); Pending; Ready (Some 11); Ready None].
Proof. split; [repeat constructor; do 2 eexists; reflexivity|reflexivity]. Qed.

(** ** C37: map_future *)

(** [futures]: the futures created so far, with the input value each was created for. *)
Theorem C24_C32_C37_C43_map_future : forall A B (callback : nat -> A -> list (poll B)) script n, exists st outs,
  run (map_future_poll callback) n (map_future_init script) = Some (st, outs)
  /\ (let signal := snd (mf_signal st) in let futures := made (mf_future st) in
      map fst futures = yielded (past signal)
      /\ (exists first, (first = [] \/ first = [None])
            /\ yielded outs = first ++ map Some (flat_map (fun kf => results (past (snd kf))) futures))
      /\ (outs <> [] -> has_initial outs)
      /\ (forall b, last_out outs (Ready (Some (Some b))) ->
            exists older k f, futures = older ++ [(k, f)] /\ results (past f) = [b])
      /\ (last_out outs Pending ->
            (awaits signal \/ ended signal)
            /\ (forall older k f, futures = older ++ [(k, f)] ->
                  awaits f \/ exists b, results (past f) = [b] /\ latest_of outs = Some (Some b))
            /\ (ended signal -> exists older k f, futures = older ++ [(k, f)] /\ awaits f))
      /\ (last_out outs (Ready None) ->
            ended signal
            /\ (forall older k f, futures = older ++ [(k, f)] -> exists b, results (past f) = [b]))
      /\ obeys_end (past signal)
      /\ Forall (fun kf => obeys_completion (past (snd kf))) futures).
Proof. exact @map_future_run. Qed.
Print Assumptions C24_C32_C37_C43_map_future.

Example C37_ex :
  option_map snd (run (map_future_poll (fun k a => if Nat.eqb k 1 then [Pending; Pending; Ready (a * 10)] else [Pending; Ready (a * 10)])) 9
    (map_future_init [Ready (Some 1); Pending; Ready (Some 2); Pending; Ready (Some 3); Pending; Ready None]))
  = Some [Ready (Some None); Pending; Pending; Ready (Some (Some 30)); Ready None].
Proof. reflexivity. Qed.

(** ** C38: throttle *)
Theorem C24_C38_C43_throttle : forall A (callback : nat -> list (poll unit)) (script : list (poll (option A))) n,
  exists st outs, run (throttle_poll callback) n (throttle_init script) = Some (st, outs)
  /\ (let signal := snd (th_signal st) in let futures := map snd (made (th_future st)) in
      yielded outs = yielded (past signal)
      /\ length futures = length (yielded outs)
      /\ (forall older f newer, futures = older ++ f :: newer -> newer <> [] -> results (past f) <> [])
      /\ (last_out outs Pending ->
            (exists older f, futures = older ++ [f] /\ awaits f /\ results (past f) = [])
            \/ ((forall f, In f futures -> results (past f) <> []) /\ awaits signal))
      /\ (last_out outs (Ready None) -> ended signal)
      /\ obeys_end (past signal)
      /\ Forall (fun f => obeys_completion (past f)) futures).
Proof. exact @throttle_run. Qed.
Print Assumptions C24_C38_C43_throttle.

Theorem C32_throttle : forall A (callback : nat -> list (poll unit)) (script : list (poll (option A))) n st outs,
  has_initial script -> run (throttle_poll callback) n (throttle_init script) = Some (st, outs) ->
  outs <> [] -> has_initial outs.
Proof. exact @throttle_initial. Qed.
Print Assumptions C32_throttle.

Example C38_ex :
  option_map snd (run (throttle_poll (fun k => if Nat.eqb k 1 then [Pending; Pending; Ready tt] else [Ready tt])) 9
    (throttle_init ex_signal))
  = Some [Ready (Some 1); Pending; Ready (Some 1); Pending; Ready (Some 2); Ready (Some 2); Pending; Ready (Some 3); Ready None].
Proof. reflexivity. Qed.

(** ** C39: switch and flatten *)

(** [inners]: the inner signals created so far, each with the outer value it came from. The
    outputs are the values of the inner signals in order, and the last output is the most
    recent value of the newest inner signal. *)
Theorem C24_C39_C43_switch : forall A B (inner_of : nat -> A -> list (poll (option B))) script n,
  (forall k a, has_initial (inner_of k a)) -> exists st outs,
  run (switch_poll inner_of) n (switch_init script) = Some (st, outs)
  /\ (let outer := snd (fl_signal st) in let inners := made (fl_inner st) in
      map fst inners = yielded (past outer)
      /\ yielded outs = flat_map (fun kf => yielded (past (snd kf))) inners
      /\ (forall older a f, inners = older ++ [(a, f)] ->
            latest outer = Some a /\ latest f <> None /\ latest_of outs = latest f)
      /\ (last_out outs Pending ->
            (awaits outer \/ ended outer)
            /\ (forall older a f, inners = older ++ [(a, f)] -> awaits f \/ ended f)
            /\ (awaits outer \/ exists older a f, inners = older ++ [(a, f)] /\ awaits f))
      /\ (last_out outs (Ready None) ->
            ended outer /\ (forall older a f, inners = older ++ [(a, f)] -> ended f))
      /\ obeys_end (past outer)
      /\ Forall (fun kf => obeys_end (past (snd kf))) inners).
Proof. exact @switch_run. Qed.
Print Assumptions C24_C39_C43_switch.

Theorem C32_switch : forall A B (inner_of : nat -> A -> list (poll (option B))) script n st outs,
  (forall k a, has_initial (inner_of k a)) -> has_initial script ->
  run (switch_poll inner_of) n (switch_init script) = Some (st, outs) -> outs <> [] -> has_initial outs.
Proof. exact @switch_initial. Qed.
Print Assumptions C32_switch.

Example C39_ex : (forall k a, has_initial ((fun (_ a : nat) => [Ready (Some (a * 10)); Pending; Ready (Some (a * 10 + 1)); Ready None]) k a))
  /\ option_map snd (run (switch_poll (fun _ a => [Ready (Some (a * 10)); Pending; Ready (Some (a * 10 + 1)); Ready None])) 9
       (switch_init ex_signal))
     = Some [Ready (Some 10); Pending; Ready (Some 10); Ready (Some 20); Ready (Some 20); Pending; Ready (Some 30);
             Pending; Ready (Some 31)].
Proof. split; [intros k a; do 2 eexists; reflexivity|reflexivity]. Qed.

(** The hypothesis on the inner signals is needed for the wake-up claim: with an inner signal
    that has no initial value the outer signal is left unpolled after it yielded. *)
Theorem C43_switch_needs_contract : exists (inner_of : nat -> nat -> list (poll (option nat))) script n st outs,
  run (switch_poll inner_of) n (switch_init script) = Some (st, outs)
  /\ last_out outs Pending
  /\ ~ awaits (snd (fl_signal st)) /\ ~ ended (snd (fl_signal st)).
Proof.
  exists (fun _ _ => [Pending]), [Ready (Some 1); Ready (Some 2)], 1. vm_compute. do 2 eexists.
  split; [reflexivity|]. split; [exists []; reflexivity|]. split.
  - intros (p & H). destruct p as [|? [|]]; discriminate.
  - intros [H|[]]. discriminate.
Qed.
Print Assumptions C43_switch_needs_contract.

(** ** C40: stop_if *)

(** The outputs are the values of the input; the input is not polled after a value that
    satisfies the test, and then the next answer is the end. *)
Theorem C24_C40_C43_stop_if : forall A (test : A -> bool) script n, exists s sr outs,
  run (stop_if_poll test) n ((false, []), fresh script) = Some ((s, sr), outs)
  /\ yielded outs = yielded (past sr)
  /\ snd s = yielded (past sr)
  /\ (forall p a q, past sr = p ++ Ready (Some a) :: q -> test a = true -> q = [])
  /\ (last_out outs Pending -> awaits sr)
  /\ (last_out outs (Ready None) ->
        ended sr \/ exists p a, past sr = p ++ [Ready (Some a)] /\ test a = true)
  /\ obeys_end (past sr)
  /\ (forall p a, past sr = p ++ [Ready (Some a)] -> test a = true ->
        exists s', stop_if_poll test (s, sr) = Some ((s', sr), Ready None)).
Proof. exact @stop_if_run. Qed.
Print Assumptions C24_C40_C43_stop_if.

Example C40_ex :
  option_map snd (run (stop_if_poll (fun a => Nat.eqb a 2)) 9 ((false, []), fresh ex_signal))
  = Some [Ready (Some 1); Pending; Ready (Some 1); Ready (Some 2); Ready None].
Proof. reflexivity. Qed.

(** ** C41: from_future, from_stream, always, first, wait_for, to_future *)
Theorem C24_C32_C41_C43_from_future : forall A (script : list (poll A)) n, exists st outs,
  run from_future_poll n (from_future_init script) = Some (st, outs)
  /\ (let fut := snd (ff_future st) in
      obeys_completion (past fut)
      /\ yielded outs = match past fut with Pending :: _ => [None] | _ => [] end ++ map Some (results (past fut))
      /\ (last_out outs Pending -> awaits fut)
      /\ (last_out outs (Ready None) -> exists a, results (past fut) = [a])
      /\ (outs <> [] -> has_initial outs)).
Proof. exact @from_future_run. Qed.
Print Assumptions C24_C32_C41_C43_from_future.

Theorem C24_C32_C41_C43_from_stream : forall A (script : list (poll (option A))) n, exists st outs,
  run from_stream_poll n (from_stream_init script) = Some (st, outs)
  /\ (outs <> [] -> has_initial outs /\ latest_of outs = Some (latest (snd (fs_stream st))))
  /\ source_ok outs (snd (fs_stream st))
  /\ (forall p q, yielded outs = p ++ None :: q -> p = []).
Proof. exact @from_stream_run. Qed.
Print Assumptions C24_C32_C41_C43_from_stream.

Theorem C41_always : forall A (v : A) n, exists st,
  run sig_always_poll n (Some v) = Some (st, firstn n [Ready (Some v); Ready None]).
Proof. exact @sig_always_run. Qed.
Print Assumptions C41_always.

Theorem C24_C41_first : forall A (a : A) script n, exists st,
  run first_poll n (some_slot (Ready (Some a) :: script)) = Some (st, firstn n [Ready (Some a); Ready None])
  /\ past (snd st) = firstn n [Ready (Some a)].
Proof. exact @first_run. Qed.
Print Assumptions C24_C41_first.

(** wait_for: still running = every value so far differed and the input awaits; completed with
    a value = the first equal one; completed with None = the input ended without one. *)
Theorem C24_C41_C43_wait_for : forall A (eqb : A -> A -> bool) v script n, exists s sr r,
  run_future (wait_for_poll eqb v) n (tt, fresh script) = Some ((s, sr), r)
  /\ obeys_end (past sr)
  /\ match r with
     | None => (n <> 0 -> awaits sr) /\ ~ ended sr /\ Forall (fun a => eqb a v = false) (yielded (past sr))
     | Some (Some a) => exists p, yielded (past sr) = p ++ [a] /\ eqb a v = true
                          /\ Forall (fun b => eqb b v = false) p /\ ~ ended sr
     | Some None => ended sr /\ Forall (fun a => eqb a v = false) (yielded (past sr))
     end.
Proof. exact @wait_for_run. Qed.
Print Assumptions C24_C41_C43_wait_for.

Theorem C24_C41_C43_to_future : forall A (script : list (poll (option A))) n,
  has_initial script -> exists s sr r,
  run_future to_future_poll n (None, fresh script) = Some ((s, sr), r)
  /\ obeys_end (past sr)
  /\ match r with
     | None => (n <> 0 -> awaits sr) /\ ~ ended sr
     | Some v => ended sr /\ latest sr = Some v
     end.
Proof. exact @to_future_run. Qed.
Print Assumptions C24_C41_C43_to_future.

Example C41_ex :
  option_map snd (run from_future_poll 9 (from_future_init [Pending; Pending; Ready 7]))
    = Some [Ready (Some None); Pending; Ready (Some (Some 7)); Ready None]
  /\ option_map snd (run from_stream_poll 9 (from_stream_init (Pending :: ex_signal)))
    = Some [Ready (Some None); Ready (Some (Some 1)); Ready (Some (Some 2)); Ready (Some (Some 3)); Ready None]
  /\ option_map snd (run_future to_future_poll 9 (None, fresh ex_signal)) = Some (Some 3)
  /\ option_map snd (run_future (wait_for_poll Nat.eqb 3) 9 (tt, fresh ex_signal)) = Some (Some (Some 3)).
Proof. repeat split. Qed.

(** ** C42: sample_stream_cloned *)

(** The items come out in order, one output per item; at the moment of each output its first
    component is the signal's most recent value, and the signal has nothing newer to offer. *)
Theorem C24_C42_sample_stream : forall A B (signal : list (poll (option A))) (stream : list (poll (option B))) n,
  has_initial signal -> exists st outs,
  run sample_poll n (sample_init signal stream) = Some (st, outs)
  /\ past (ss_stream st) = answers_mapped snd outs
  /\ (forall a b, last_out outs (Ready (Some (a, b))) ->
        latest (snd (ss_signal st)) = Some a
        /\ (awaits (snd (ss_signal st)) \/ ended (snd (ss_signal st))))
  /\ obeys_end (past (ss_stream st)) /\ obeys_end (past (snd (ss_signal st))).
Proof. exact @sample_run. Qed.
Print Assumptions C24_C42_sample_stream.

Example C42_ex : has_initial ex_signal
  /\ option_map snd (run sample_poll 9 (sample_init ex_signal [Ready (Some 70); Pending; Ready (Some 80); Ready None]))
     = Some [Ready (Some (1, 70)); Pending; Ready (Some (2, 80)); Ready None].
Proof. split; [do 2 eexists; reflexivity|reflexivity]. Qed.

(** ** C44: for_each, to_stream *)

(** [futures]: the futures returned by the closure so far, with the value the closure was
    called with. *)
Theorem C24_C43_C44_for_each : forall A (f : nat -> A -> list (poll unit)) script n, exists sr fs r,
  run_future (for_each_poll f) n (for_each_init script) = Some ((sr, fs), r)
  /\ (let futures := made fs in
      map fst futures = yielded (past sr)
      /\ (forall older kf newer, futures = older ++ kf :: newer -> newer <> [] -> results (past (snd kf)) <> [])
      /\ (r <> None -> ended sr /\ forall kf, In kf futures -> results (past (snd kf)) <> [])
      /\ (r = None -> n <> 0 ->
            (exists older k g, futures = older ++ [(k, g)] /\ awaits g /\ results (past g) = [])
            \/ ((forall kf, In kf futures -> results (past (snd kf)) <> []) /\ awaits sr))
      /\ obeys_end (past sr)
      /\ Forall (fun kf => obeys_completion (past (snd kf))) futures).
Proof. exact @for_each_run. Qed.
Print Assumptions C24_C43_C44_for_each.

Theorem C44_to_stream : forall A (script : list (poll (option A))) n, exists sr,
  run to_stream_poll n (tt, fresh script) = Some ((tt, sr), past sr).
Proof. intros A. exact (forward_id (@to_stream_step A) (fun _ _ => eq_refl)). Qed.
Print Assumptions C44_to_stream.

Example C44_ex :
  match run_future (for_each_poll (fun k _ => if Nat.eqb k 1 then [Pending; Ready tt] else [Ready tt])) 5 (for_each_init ex_signal) with
  | Some ((_, fs), r) => map fst (made fs) = [1; 1; 2; 2; 3] /\ r = Some tt
  | None => False
  end.
Proof. vm_compute. auto. Qed.
