(** * Properties of explicit strategies (C13-C17, C19, C34, C35) *)

From Coq Require Import String Ascii Arith List Bool Lia.
From Verif Require Import FileSpec BDD Loop Spec VarTypes Synth Sem FixBase SynthProofs Verdict Solvers SolversProofs PropsSynth AutSpec OutputSpec
  Explicit DetProofs ExplicitProofs ExplicitGame OutputProofs.
Import ListNotations.
Open Scope string_scope.

Local Arguments isOut : simpl never.

(** The automaton that is printed: options --explicitStrategy with
    --sysInitRoboticsSemantics ([robotics]) and --simpleRecovery ([recovery]), and --fixedPointRecycling or
    --biasForAction ([alg]). *)
Definition automaton (alg : algorithm) (robotics recovery : bool) (c : ctx) : option (list node) :=
  match computeExplicit alg robotics recovery c with
  | Some (Realizable, out) => Some (map fst out)
  | _ => None
  end.

(** ** What a run consists of *)
Lemma explicit_cases alg robotics recovery c : wf c ->
  exists w data L, solve alg c = Some (w, data) /\ exactW c w /\ dep (isPreV c) w /\
    (forall j, j < length (livenessGuarantees c) -> dataOf j data = map fst (L j) /\
       goodEnt c w (nth j (livenessGuarantees c) btrue) (L j) w /\ fullEnt c (L j) w) /\
    exists keys out, extract recovery c w data = Some out /\
      result c false recovery (positional c data) (extractInit recovery c w) keys out /\
      computeExplicit alg robotics recovery c =
        (if robotics then
           match checkRealizabilityRobotics c with Realizable => Some (Realizable, out) | v => Some (v, []) end
         else match checkRealizability c with Realizable => Some (Realizable, out) | v => Some (v, []) end).
Proof.
  intros Hwf. destruct (solve_spec c Hwf alg) as (w & d & E & S).
  destruct (solved_ranked c Hwf w d S) as (L & HL).
  assert (Hw : dep (isPreV c) w) by (eapply solved_pre; eauto).
  exists w, d, L. split; auto. split; [eapply solved_exact; eauto|]. split; auto. split; [exact HL|].
  assert (HD : Forall (fun e => fst e < length (livenessGuarantees c) -> dep (isAnyV c) (snd e)) d).
  { apply (data_any c w d L). intros j Hj. destruct (HL j Hj) as (A & B & _). auto. }
  destruct (extract_spec c recovery w d Hwf Hw HD) as (keys & out & E1 & R).
  exists keys, out. split; auto. split; auto.
  pose proof (verdict_same alg robotics c Hwf) as V. unfold verdictWith in V. rewrite E in V.
  unfold computeExplicit. rewrite E, E1. destruct robotics; rewrite <- V; destruct (verdictOf _) eqn:EV; reflexivity.
Qed.

Lemma automaton_cases alg robotics recovery c A : wf c -> automaton alg robotics recovery c = Some A ->
  exists w data L keys out, exactW c w /\ dep (isPreV c) w /\
    (forall j, j < length (livenessGuarantees c) -> dataOf j data = map fst (L j) /\
       goodEnt c w (nth j (livenessGuarantees c) btrue) (L j) w) /\
    (forall j, j < length (livenessGuarantees c) -> fullEnt c (L j) w) /\
    result c false recovery (positional c data) (extractInit recovery c w) keys out /\ A = map fst out /\
    computeExplicit alg robotics recovery c = Some (Realizable, out) /\
    verdictOf (if robotics then initialCheckRobotics c w else initialCheck c w) = Realizable.
Proof.
  intros Hwf. unfold automaton.
  destruct (explicit_cases alg robotics recovery c Hwf) as (w & d & L & E & HX & Hw & HL & keys & out & E1 & R & E2).
  intros H. rewrite E2 in H. exists w, d, L, keys, out.
  assert (V : (if robotics then checkRealizabilityRobotics c else checkRealizability c) =
    verdictOf (if robotics then initialCheckRobotics c w else initialCheck c w)).
  { rewrite <- (verdict_same alg robotics c Hwf). unfold verdictWith. now rewrite E. }
  split; auto. split; auto. split; [intros j Hj; destruct (HL j Hj) as (X & Y & _); auto|].
  split; [intros j Hj; now apply HL|]. split; auto. split; [|split].
  - destruct robotics; [destruct (checkRealizabilityRobotics c)|destruct (checkRealizability c)]; try discriminate; now injection H as <-.
  - rewrite E2. destruct robotics; [destruct (checkRealizabilityRobotics c)|destruct (checkRealizability c)]; auto; discriminate.
  - rewrite <- V. destruct robotics; [destruct (checkRealizabilityRobotics c)|destruct (checkRealizability c)]; auto; discriminate.
Qed.

(** ** C16 *)

(** Extraction terminates: the run ends with the verdict of the realizability
    check, and with an automaton if and only if the verdict is "realizable". *)
Theorem C16_terminates : forall alg (robotics recovery : bool) c, wf c ->
  let v := if robotics then checkRealizabilityRobotics c else checkRealizability c in
  (v = Realizable -> exists A, automaton alg robotics recovery c = Some A) /\
  (v = Unrealizable -> computeExplicit alg robotics recovery c = Some (Unrealizable, [])).
Proof.
  intros alg robotics recovery c Hwf v.
  destruct (explicit_cases alg robotics recovery c Hwf) as (w & d & L & E & HX & Hw & HL & keys & out & E1 & R & E2).
  unfold v, automaton. rewrite E2. split; destruct robotics; intros ->; eauto.
Qed.
Print Assumptions C16_terminates.

(** The i-th state has number i; two states differ in a value or in the goal;
    every successor number is the number of a state; successor lists have no
    duplicates; every state has one value for each declared variable and the
    number of one of the liveness guarantees. *)
Theorem C16_numbering : forall alg robotics recovery c A, wf c -> automaton alg robotics recovery c = Some A ->
  map n_num A = seq 0 (length A) /\
  NoDup (map (fun v => (n_vals v, n_rank v)) A) /\
  (forall v, In v A -> length (n_vals v) = nvars c /\ n_rank v < length (g_liveG (game_of c)) /\
     NoDup (n_succ v) /\ forall n, In n (n_succ v) -> n < length A).
Proof.
  intros alg robotics recovery c A Hwf H.
  destruct (automaton_cases _ _ _ _ _ Hwf H) as (w & d & L & keys & out & HX & Hw & HL & HF & R & -> & _).
  pose proof (A_numbers c Hwf false recovery (positional c d) _ keys out R) as HN. split; auto. split.
  - apply NoDup_nth_error. intros i j Hi E. rewrite map_length in Hi.
    rewrite !(nth_error_map (fun v => (n_vals v, n_rank v))) in E.
    destruct (nth_error (map fst out) i) as [v|] eqn:Ei; [|apply nth_error_None in Ei; lia].
    destruct (nth_error (map fst out) j) as [u|] eqn:Ej; [|cbn in E; discriminate].
    cbn [option_map] in E. assert (EE : (n_vals v, n_rank v) = (n_vals u, n_rank u)) by congruence.
    injection EE as E1 E2.
    assert (v = u).
    { apply (A_distinct c false recovery (positional c d) _ keys out R); auto; eapply nth_error_In; eauto. }
    subst u.
    assert (G : forall k, nth_error (map fst out) k = Some v -> n_num v = k).
    { intros k Ek. assert (Lk : k < length (map fst out)) by (apply nth_error_Some; congruence).
      assert (X : nth_error (map n_num (map fst out)) k = Some (n_num v)) by (rewrite (nth_error_map n_num); now rewrite Ek).
      rewrite HN in X. apply (nth_error_nth _ _ 0) in X. rewrite seq_nth in X by auto. cbn in X. auto. }
    rewrite <- (G i Ei). now apply G.
  - intros v Hv. destruct (A_shape c false recovery (positional c d) _ keys out R v Hv) as [S1 S2].
    split; auto. split; [cbn; now rewrite map_length|]. split.
    + now apply (succ_nodup c false recovery (positional c d) _ keys out R).
    + intros n Hn. destruct (succ_printed c false recovery (positional c d) _ keys out R v n Hv Hn) as (u & (_ & Hu & _) & <-).
      assert (X : In (n_num u) (map n_num (map fst out))) by now apply in_map.
      rewrite HN in X. apply in_seq in X. lia.
Qed.
Print Assumptions C16_numbering.

(** Only states that are needed are printed: all of them are reachable from
    states with goal number 0 that are winning initial states. *)
Theorem C16_reachable : forall alg robotics recovery c A, wf c -> automaton alg robotics recovery c = Some A ->
  forall v, In v A -> reach A (fun v => n_rank v = 0 /\ winning (game_of c) (val v) /\
    g_initS (game_of c) (val v) = true /\ (recovery = false -> g_initE (game_of c) (val v) = true)) v.
Proof.
  intros alg robotics recovery c A Hwf H v Hv.
  destruct (automaton_cases _ _ _ _ _ Hwf H) as (w & d & L & keys & out & HX & Hw & HL & HF & R & -> & _).
  pose proof (all_reached c false recovery (positional c d) _ keys out R v Hv) as G.
  induction G as [v Hin [G1 G2]|v u G IH E]; [apply reach_init; auto|].
  - split; auto. rewrite <- (exact_winning c w HX). unfold extractInit in G2. cbn [g_initE g_initS game_of].
    destruct recovery; rewrite !pos_and, !andb_true_iff in G2; repeat split; tauto || discriminate.
  - apply (reach_step _ _ v u); auto. apply IH. apply E.
Qed.
Print Assumptions C16_reachable.

(** ** C13 *)

(** Every input that ENV_INIT permits is the input of a printed state with goal
    number 0 that satisfies SYS_INIT and is winning. *)
Theorem C13_initial_inputs : forall alg recovery c A, wf c -> automaton alg false recovery c = Some A ->
  forall s, g_initE (game_of c) s = true ->
  exists v, In v A /\ n_rank v = 0 /\ same_in (game_of c) (nvars c) (val v) s /\
    g_initE (game_of c) (val v) = true /\ g_initS (game_of c) (val v) = true /\ winning (game_of c) (val v).
Proof.
  intros alg recovery c A Hwf H s Hs.
  destruct (automaton_cases _ _ _ _ _ Hwf H) as (w & d & L & keys & out & HX & Hw & HL & HF & R & -> & _ & V).
  pose proof (wf_kinds c Hwf) as Hk.
  set (q := band w (initSys c)).
  assert (Pq : dep (isPreV c) q) by (apply dep_and; auto; apply wf_initSys; auto).
  set (f := bimp (initEnv c) (bexists (varCubePreOutput c) q)).
  assert (Df : dep (isPreInV c) f).
  { apply dep_imp; [now apply wf_initEnv|now apply dep_exPreOut]. }
  destruct (const_cases c Hwf (initialCheck c w) f Df eq_refl) as [[_ G]|[E _]]; [|congruence].
  specialize (G s). unfold f in G. rewrite pos_imp in G. cbn in Hs. rewrite Hs in G. cbn [implb] in G.
  apply exPreOut_pos in G; auto. destruct G as (y & Hy).
  assert (Hi : pos (initEnv c) (mrg c s y) = true).
  { rewrite (preIn_merge c (initEnv c) s y s) by now apply wf_initEnv. rewrite <- Hs. apply (pos_ext c Hk).
    - apply preIn_pre. now apply wf_initEnv.
    - intros k _. apply mrg_id. }
  unfold q in Hy. rewrite pos_and, andb_true_iff in Hy. destruct Hy as [Y1 Y2].
  assert (HI : pos (extractInit recovery c w) (mrg c s y) = true).
  { unfold extractInit. destruct recovery; rewrite !pos_and, Y1, Y2; auto. }
  pose proof (r_init _ _ _ _ _ _ _ R _ HI) as HK. apply In_nth_error in HK. destruct HK as (i & HK).
  destruct (A_key c false recovery (positional c d) _ keys out R _ _ _ HK) as (v & _ & Hin & _ & Er & Ev).
  assert (SM : forall k, k < nvars c -> val v k = mrg c s y k).
  { intros k Hlt. unfold val. rewrite Ev. now apply (ofVec_toVec (nvars c)). }
  exists v. split; auto. split; auto. split; [|split; [|split]].
  - intros k Hlt Ho. rewrite SM by auto. unfold mrg. cbn in Ho. now rewrite Ho.
  - cbn. rewrite <- Hi. apply (pos_ext c Hk); auto. apply preIn_pre. now apply wf_initEnv.
  - cbn. rewrite <- Y2. apply (pos_ext c Hk); auto. now apply wf_initSys.
  - apply (exact_winning c w HX). rewrite <- Y1. apply (pos_ext c Hk); auto.
Qed.
Print Assumptions C13_initial_inputs.

(** All winning initial positions are printed (with --simpleRecovery: also those
    that violate ENV_INIT). *)
Theorem C13_initial_positions : forall alg robotics recovery c A, wf c -> automaton alg robotics recovery c = Some A ->
  forall s, winning (game_of c) s -> g_initS (game_of c) s = true ->
  (g_initE (game_of c) s = true \/ recovery = true) ->
  exists v, In v A /\ n_rank v = 0 /\ same (nvars c) (val v) s.
Proof.
  intros alg robotics recovery c A Hwf H s Hwin Hs He.
  destruct (automaton_cases _ _ _ _ _ Hwf H) as (w & d & L & keys & out & HX & Hw & HL & HF & R & -> & _ & V).
  apply (exact_winning c w HX) in Hwin. cbn in Hs, He.
  assert (HI : pos (extractInit recovery c w) s = true).
  { unfold extractInit. destruct He as [He|He]; [destruct recovery|subst recovery]; rewrite !pos_and, Hwin, Hs; auto. }
  pose proof (r_init _ _ _ _ _ _ _ R _ HI) as HK. apply In_nth_error in HK. destruct HK as (i & HK).
  destruct (A_key c false recovery (positional c d) _ keys out R _ _ _ HK) as (v & _ & Hin & _ & Er & Ev).
  exists v. split; auto. split; auto. intros k Hlt. unfold val. rewrite Ev. now apply (ofVec_toVec (nvars c)).
Qed.
Print Assumptions C13_initial_positions.

(** In the robotics semantics, every initial position is printed. *)
Theorem C13_robotics : forall alg recovery c A, wf c -> automaton alg true recovery c = Some A ->
  forall s, g_initE (game_of c) s = true -> g_initS (game_of c) s = true ->
  exists v, In v A /\ n_rank v = 0 /\ same (nvars c) (val v) s.
Proof.
  intros alg recovery c A Hwf H s He Hs. apply (C13_initial_positions alg true recovery c A Hwf H); auto.
  assert (V : checkRealizabilityRobotics c = Realizable).
  { unfold automaton in H.
    destruct (explicit_cases alg true recovery c Hwf) as (w & d & L & E & _ & _ & _ & keys & out & E1 & _ & E2).
    rewrite E2 in H. destruct (checkRealizabilityRobotics c); auto; discriminate. }
  destruct (C18_robotics_sound c Hwf V) as (f & Hf). exists f. intros x. now apply Hf.
Qed.
Print Assumptions C13_robotics.

(** ** C14 *)

(** Every permitted next input has exactly one successor. *)
Theorem C14_input_complete : forall alg robotics recovery c A, wf c -> automaton alg robotics recovery c = Some A ->
  forall v x, In v A -> g_safeE (game_of c) (val v) x = true ->
  exists u, edge A v u /\ same_in (game_of c) (nvars c) (val u) x /\
    forall u', edge A v u' -> same_in (game_of c) (nvars c) (val u') x -> u' = u.
Proof.
  intros alg robotics recovery c A Hwf H v x Hv Hx.
  destruct (automaton_cases _ _ _ _ _ Hwf H) as (w & d & L & keys & out & HX & Hw & HL & HF & R & -> & _ & V).
  destruct (stratT_covers c Hwf recovery w d L HL (n_rank v) (val v) x) as (y & Hy); auto.
  - now apply (A_shape c false recovery (positional c d) _ keys out R).
  - now apply (det_node_W c Hwf recovery w d L HL keys out R).
  - destruct (edge_total c false recovery (positional c d) _ keys out R v _ Hv Hy) as (u & Eu & Su).
    assert (Sx : same_in (game_of c) (nvars c) (val u) x).
    { intros k Hlt Ho. rewrite Su by auto. unfold mrg. cbn in Ho. now rewrite Ho. }
    exists u. split; auto. split; auto. intros u' Eu' Su'.
    apply (edge_unique c Hwf false recovery (positional c d) _ keys out R v); auto.
    intros k Hlt Ho. now rewrite Su', Sx.
Qed.
Print Assumptions C14_input_complete.

(** Every edge satisfies SYS_TRANS and, without --simpleRecovery, ENV_TRANS; a
    state has at most one successor for each input. *)
Theorem C14_safe_deterministic : forall alg robotics recovery c A, wf c -> automaton alg robotics recovery c = Some A ->
  (forall v u, edge A v u -> g_safeS (game_of c) (val v) (val u) = true /\
     (recovery = false -> g_safeE (game_of c) (val v) (val u) = true)) /\
  (forall v u u', edge A v u -> edge A v u' -> same_in (game_of c) (nvars c) (val u) (val u') -> u = u').
Proof.
  intros alg robotics recovery c A Hwf H.
  destruct (automaton_cases _ _ _ _ _ Hwf H) as (w & d & L & keys & out & HX & Hw & HL & HF & R & -> & _ & V).
  split.
  - intros v u E. apply (det_edge_safe c Hwf recovery w d L HL keys out R v u E).
  - intros v u u'. apply (edge_unique c Hwf false recovery (positional c d) _ keys out R).
Qed.
Print Assumptions C14_safe_deterministic.

(** The automaton reacts to every sequence of inputs, as long as ENV_TRANS holds. *)
Theorem C14_runs : forall alg robotics recovery c A, wf c -> automaton alg robotics recovery c = Some A ->
  forall v (x : nat -> state), In v A -> exists p : nat -> node, p 0 = v /\
    forall n, (forall m, m <= n -> g_safeE (game_of c) (val (p m)) (x m) = true) ->
      edge A (p n) (p (S n)) /\ same_in (game_of c) (nvars c) (val (p (S n))) (x n).
Proof.
  intros alg robotics recovery c A Hwf H v x Hv.
  set (ok := fun v x u => existsb (Nat.eqb (n_num u)) (n_succ v) &&
    forallb (fun k => isOut c k || Bool.eqb (val u k) (x k)) (seq 0 (nvars c))).
  set (next := fun v x => match find (ok v x) A with Some u => u | None => v end).
  set (p := fix p n := match n with O => v | S n => next (p n) (x n) end).
  assert (OK : forall v x u, ok v x u = true <-> In (n_num u) (n_succ v) /\ same_in (game_of c) (nvars c) (val u) x).
  { intros v' x' u. unfold ok. rewrite andb_true_iff, existsb_exists, forallb_forall. split.
    - intros [(n & Hn & En) G]. apply Nat.eqb_eq in En. subst n. split; auto.
      intros k Hlt Ho. cbn in Ho. specialize (G k (proj2 (in_seq _ _ _) (conj (Nat.le_0_l k) Hlt))).
      rewrite Ho in G. cbn in G. now apply eqb_prop.
    - intros [Hn G]. split; [exists (n_num u); split; auto; apply Nat.eqb_refl|].
      intros k Hlt. apply in_seq in Hlt. destruct (isOut c k) eqn:Ho; auto. cbn.
      rewrite (G k); [apply eqb_reflx|lia|exact Ho]. }
  exists p. split; auto.
  assert (G : forall n, (forall m, m < n -> g_safeE (game_of c) (val (p m)) (x m) = true) -> In (p n) A /\
    (g_safeE (game_of c) (val (p n)) (x n) = true ->
       edge A (p n) (p (S n)) /\ same_in (game_of c) (nvars c) (val (p (S n))) (x n))).
  { assert (ST : forall n, In (p n) A -> g_safeE (game_of c) (val (p n)) (x n) = true ->
       edge A (p n) (p (S n)) /\ same_in (game_of c) (nvars c) (val (p (S n))) (x n)).
    { intros n Hin Hs. destruct (C14_input_complete _ _ _ _ _ Hwf H (p n) (x n) Hin Hs) as (u & (Eu1 & Eu2 & Eu3) & Su & _).
      cbn [p]. fold p. unfold next. destruct (find (ok (p n) (x n)) A) as [u'|] eqn:F.
      - apply find_some in F. destruct F as [F1 F2]. apply OK in F2. destruct F2. repeat split; auto.
      - exfalso. pose proof (find_none _ _ F u Eu2) as X. rewrite <- not_true_iff_false in X. apply X. apply OK. auto. }
    induction n as [|n IH]; intros Hs.
    - split; [exact Hv|]. now apply ST.
    - destruct IH as [I1 I2]; auto. assert (X : In (p (S n)) A) by (apply I2; auto). split; auto. }
  intros n Hn. apply (proj2 (G n (fun m Hm => Hn m (Nat.lt_le_incl _ _ Hm)))). auto.
Qed.
Print Assumptions C14_runs.

(** ** C15 *)

(** On every infinite path through the automaton, if all liveness assumptions hold
    infinitely often, then all liveness guarantees hold infinitely often. *)
Theorem C15_liveness : forall alg robotics c A, wf c -> automaton alg robotics false c = Some A ->
  forall p, path A p ->
  (forall q, In q (g_liveA (game_of c)) -> inf_often q (positions p)) ->
  (forall q, In q (g_liveG (game_of c)) -> inf_often q (positions p)).
Proof.
  intros alg robotics c A Hwf H p HP.
  destruct (automaton_cases _ _ _ _ _ Hwf H) as (w & d & L & keys & out & HX & Hw & HL & HF & R & -> & _ & V).
  apply (det_path_live c Hwf false w d L HL keys out R p HP).
  exists 0. intros n _. apply (det_edge_safe c Hwf false w d L HL keys out R _ _ (HP n)). reflexivity.
Qed.
Print Assumptions C15_liveness.

(** So every infinite path that starts in an initial state satisfies the specification. *)
Theorem C15_correct : forall alg robotics c A, wf c -> automaton alg robotics false c = Some A ->
  forall p, path A p -> g_initS (game_of c) (val (p 0)) = true -> objective (game_of c) (positions p).
Proof.
  intros alg robotics c A Hwf H p HP HI _. split; auto. split.
  - intros n _. now apply (C14_safe_deterministic _ _ _ _ _ Hwf H).
  - intros _. now apply (C15_liveness _ _ _ _ Hwf H).
Qed.
Print Assumptions C15_correct.

(** ** C19 *)

(** With --simpleRecovery, a state has a successor for an input, permitted or not,
    if and only if the system has a reply that satisfies SYS_TRANS and leads to a
    winning position; then there is exactly one. *)
Theorem C19_recovery : forall alg robotics c A, wf c -> automaton alg robotics true c = Some A ->
  forall v x, In v A ->
  ((exists u, edge A v u /\ same_in (game_of c) (nvars c) (val u) x) <->
   (exists y, g_safeS (game_of c) (val v) (merge (game_of c) x y) = true /\
              winning (game_of c) (merge (game_of c) x y))).
Proof.
  intros alg robotics c A Hwf H v x Hv.
  destruct (automaton_cases _ _ _ _ _ Hwf H) as (w & d & L & keys & out & HX & Hw & HL & HF & R & -> & _ & V).
  pose proof (wf_kinds c Hwf) as Hk. split.
  - intros (u & E & S). exists (val u).
    assert (SM : forall k, k < nvars c -> merge (game_of c) x (val u) k = val u k).
    { intros k Hlt. unfold merge. destruct (g_out (game_of c) k) eqn:Eo; auto. symmetry. now apply S. }
    split.
    + destruct (det_edge_safe c Hwf true w d L HL keys out R v u E) as [T _]. cbn. rewrite <- T.
      apply (trans_ext c); auto. now apply wf_safetySys.
    + apply (exact_winning c w HX). rewrite <- (det_node_W c Hwf true w d L HL keys out R u (proj1 (proj2 E))).
      apply (pos_ext c Hk); auto.
  - intros (y & S & W). apply (exact_winning c w HX) in W. cbn in S. rewrite <- (mrg_merge c) in S, W.
    destruct (stratT_recovery c Hwf true w d L HL (n_rank v) (val v) x) as (y' & Hy'); eauto.
    + now apply (A_shape c false true (positional c d) _ keys out R).
    + apply HF. now apply (A_shape c false true (positional c d) _ keys out R).
    + destruct (edge_total c false true (positional c d) _ keys out R v _ Hv Hy') as (u & E & S'). exists u. split; auto.
      intros k Hlt Ho. rewrite S' by auto. unfold mrg. cbn in Ho. now rewrite Ho.
Qed.
Print Assumptions C19_recovery.

(** Liveness with --simpleRecovery: it suffices that ENV_TRANS is violated only
    finitely often. *)
Theorem C19_liveness : forall alg robotics c A, wf c -> automaton alg robotics true c = Some A ->
  forall p, path A p ->
  (exists n0, forall n, n0 <= n -> g_safeE (game_of c) (val (p n)) (val (p (S n))) = true) ->
  (forall q, In q (g_liveA (game_of c)) -> inf_often q (positions p)) ->
  (forall q, In q (g_liveG (game_of c)) -> inf_often q (positions p)).
Proof.
  intros alg robotics c A Hwf H p HP.
  destruct (automaton_cases _ _ _ _ _ Hwf H) as (w & d & L & keys & out & HX & Hw & HL & HF & R & -> & _ & V).
  apply (det_path_live c Hwf true w d L HL keys out R p HP).
Qed.
Print Assumptions C19_liveness.

(** ** C16, C17: the printed text *)

(** The plain text lists, for each state, a line with its number, goal number and
    values, and a line with its successors. *)
Theorem C16_text : forall alg robotics recovery c A, wf c -> automaton alg robotics recovery c = Some A ->
  (forall n a, In n (printedNames c) -> In a (list_ascii_of_string n) -> a <> "010"%char) ->
  exists text, executeExplicit alg robotics recovery false c = Some (Realizable, text) /\
    textLines (printedNames c) A (file_lines text).
Proof.
  intros alg robotics recovery c A Hwf H HN.
  destruct (automaton_cases _ _ _ _ _ Hwf H) as (w & d & L & keys & out & HX & Hw & HL & HF & R & -> & E & V).
  unfold executeExplicit. rewrite E. eexists. split; [reflexivity|]. apply render_text.
  apply Forall_forall. intros n Hn a Ha. eauto.
Qed.
Print Assumptions C16_text.

(** With --jsonOutput the text is one JSON document that represents the automaton. *)
Theorem C17_json : forall alg robotics recovery c A, wf c -> automaton alg robotics recovery c = Some A ->
  (forall n, In n (printedNames c) -> plainString n = true) ->
  exists text doc, executeExplicit alg robotics recovery true c = Some (Realizable, text) /\
    jsonAutomaton (printedNames c) A doc /\ jsonDocument doc text.
Proof.
  intros alg robotics recovery c A Hwf H HN.
  destruct (automaton_cases _ _ _ _ _ Hwf H) as (w & d & L & keys & out & HX & Hw & HL & HF & R & -> & E & V).
  unfold executeExplicit. rewrite E.
  destruct (render_json c out) as (doc & D1 & D2).
  - apply (r_flags _ _ _ _ _ _ _ R).
  - rewrite (A_numbers c Hwf false recovery (positional c d) _ keys out R). apply seq_NoDup.
  - now apply Forall_forall.
  - exists (render true c out), doc. auto.
Qed.
Print Assumptions C17_json.

(** Variable names are not escaped, so the hypothesis on the names is needed: with
    a quotation mark in the name of an input, the text is not JSON. *)
Definition exQ : ctx := mkCtx [String "a" (String "034" "b"); "c"; "d"; "e"] (varTypes exR) (livenessAssumptions exR)
  (livenessGuarantees exR) (initEnv exR) (initSys exR) (safetyEnv exR) (safetySys exR).
Theorem C17_json_any_names_refuted : exists c text, wf c /\
  executeExplicit Basic false false true c = Some (Realizable, text) /\ forall doc, ~ jsonDocument doc text.
Proof.
  exists exQ. eexists. split; [destruct exR_wf; constructor; auto|]. split; [vm_compute; reflexivity|].
  intros doc D. apply oddQuotes_document in D. vm_compute in D. discriminate.
Qed.
Print Assumptions C17_json_any_names_refuted.

(** ** Examples *)
Definition exNode (n r : nat) (vs : list bool) (ss : list nat) : node := mkNode n r vs ss.
Definition exA : list node := [exNode 0 0 [false; false] [0; 1]; exNode 1 0 [true; true] [0]].
Example C13_C16_C17_example : wf exR /\ automaton Basic false false exR = Some exA /\ automaton Basic true false exR = Some exA /\
  (forall n, In n (printedNames exR) -> plainString n = true).
Proof.
  split; [exact exR_wf|]. split; [vm_compute; reflexivity|]. split; [vm_compute; reflexivity|].
  apply Forall_forall. vm_compute. repeat constructor.
Qed.

Example C13_example : exists s, g_initE (game_of exR) s = true /\ g_initS (game_of exR) s = true /\
  winning (game_of exR) s.
Proof.
  exists (fun _ => false). split; [vm_compute; reflexivity|]. split; [vm_compute; reflexivity|].
  destruct (C04_winning_exact exR exR_wf) as (w & d & E & W & _). apply W.
  vm_compute in E. injection E as <- _. vm_compute. reflexivity.
Qed.

(** From state 0 two inputs are permitted, from state 1 only one. *)
Example C14_example : forall v, In v exA ->
  g_safeE (game_of exR) (val v) (fun _ => false) = true /\
  g_safeE (game_of exR) (val v) (fun _ => true) = negb (val v 0).
Proof. intros v [<-|[<-|[]]]; vm_compute; auto. Qed.

(** The path that alternates between both states satisfies all assumptions. *)
Definition exPath (n : nat) : node := nth (if Nat.even n then 0 else 1) exA (exNode 0 0 [] []).
Example C15_example : path exA exPath /\
  forall q, In q (g_liveA (game_of exR)) -> inf_often q (positions exPath).
Proof.
  assert (E : forall n, exPath (2 * n) = exNode 0 0 [false; false] [0; 1] /\
                        exPath (S (2 * n)) = exNode 1 0 [true; true] [0] /\ exPath (S (S (2 * n))) = exNode 0 0 [false; false] [0; 1]).
  { intros n. unfold exPath. rewrite Nat.even_succ, Nat.even_succ_succ, Nat.even_mul, <- Nat.negb_even, Nat.even_mul. auto. }
  split.
  - intros n. destruct (Nat.even n) eqn:Ev.
    + apply Nat.even_spec in Ev. destruct Ev as (m & ->). destruct (E m) as (-> & -> & _).
      repeat split; cbn; auto.
    + assert (O : Nat.odd n = true) by (rewrite <- Nat.negb_even, Ev; auto).
      apply Nat.odd_spec in O. destruct O as (m & ->). rewrite Nat.add_1_r. destruct (E m) as (_ & -> & ->).
      repeat split; cbn; auto.
  - intros q [<-|[<-|[]]] n.
    + exists (S (2 * n)). split; [lia|]. unfold positions. destruct (E n) as (_ & -> & ->). vm_compute. reflexivity.
    + exists (2 * n). split; [lia|]. unfold positions. destruct (E n) as (-> & -> & _). vm_compute. reflexivity.
Qed.

(** With recovery, state 2 (a and b true) also reacts to the input a, which ENV_TRANS forbids. *)
Definition exA' : list node :=
  [exNode 0 0 [false; false] [0; 2]; exNode 1 0 [true; false] [3; 2]; exNode 2 0 [true; true] [0; 4];
   exNode 3 0 [false; true] [0; 4]; exNode 4 1 [true; true] [5; 4]; exNode 5 1 [false; false] [0; 4]].
Example C19_example : automaton Basic false true exR = Some exA' /\
  g_safeE (game_of exR) (val (nth 2 exA' (exNode 0 0 [] []))) (fun _ => true) = false.
Proof. split; vm_compute; reflexivity. Qed.

(** The printed texts. *)
Example C16_text_example :
  option_map (fun p => file_lines (snd p)) (executeExplicit Basic false false false exR) =
  Some ["State 0 with rank 0 -> <a:0, b:0>"; String "009" "With successors : 0, 1";
        "State 1 with rank 0 -> <a:1, b:1>"; String "009" "With successors : 0"].
Proof. vm_compute. reflexivity. Qed.

(** ** C34 *)

(** Determinization of a non-empty set keeps exactly those elements that agree, on
    the listed variables, with one of its elements. *)
Theorem C34_determinize : forall f vs, (exists e, eval f e = true) ->
  exists e0, eval f e0 = true /\ forall e,
    (eval (determinize f vs) e = true <-> eval f e = true /\ forall v, In v vs -> e v = e0 v).
Proof.
  intros f vs H. destruct (determinize_spec vs f) as (e0 & H0 & H1).
  - now apply isFalse_false.
  - exists e0. split; auto. intros e. now rewrite H1, andb_true_iff, agreeOn_iff.
Qed.
Print Assumptions C34_determinize.

(** So all elements of the result have the same values for the listed variables,
    and the result contains an element. *)
Theorem C34_one_valuation : forall f vs, (exists e, eval f e = true) ->
  (exists e, eval (determinize f vs) e = true) /\
  (forall e e', eval (determinize f vs) e = true -> eval (determinize f vs) e' = true ->
     forall v, In v vs -> e v = e' v) /\
  (forall e, eval (determinize f vs) e = true -> eval f e = true).
Proof.
  intros f vs H. destruct (C34_determinize f vs H) as (e0 & H0 & H1). split; [|split].
  - exists e0. apply H1. auto.
  - intros e e' He He' v Hv. apply H1 in He. apply H1 in He'. transitivity (e0 v); [now apply He|symmetry; now apply He'].
  - intros e He. now apply H1 in He.
Qed.
Print Assumptions C34_one_valuation.

Theorem C34_empty : forall f vs, (forall e, eval f e = false) -> forall e, eval (determinize f vs) e = false.
Proof.
  intros f vs H. apply isFalse_spec. apply determinize_empty. now apply isFalse_spec.
Qed.
Print Assumptions C34_empty.

Example C34_example : exists e, eval (bor (bvar 0) (bvar 2)) e = true /\
  eval (determinize (bor (bvar 0) (bvar 2)) [0; 2]) e = false.
Proof. exists (fun _ => true). split; vm_compute; reflexivity. Qed.

(** ** C35 *)

(** Two functions compare equal if and only if they have the same value everywhere. *)
Theorem C35_equality : forall f g, bf_eqb f g = true <-> forall e, eval f e = eval g e.
Proof.
  intros f g. rewrite bf_eqb_eq. split; [now intros ->|apply bf_ext].
Qed.
Print Assumptions C35_equality.

(** The comparisons with constants and the inclusion tests are exact, too. *)
Theorem C35_comparisons : forall f g,
  (isFalse f = true <-> forall e, eval f e = false) /\
  (isTrue f = true <-> forall e, eval f e = true) /\
  (isConstant f = true <-> forall e e', eval f e = eval f e') /\
  (bleq f g = true <-> forall e, eval f e = true -> eval g e = true) /\
  (blt f g = true <-> (forall e, eval f e = true -> eval g e = true) /\ exists e, eval f e <> eval g e).
Proof.
  intros f g. split; [apply isFalse_spec|]. split; [apply isTrue_spec|]. split; [apply isConstant_iff|].
  split; [apply bleq_spec|]. unfold blt. rewrite andb_true_iff, bleq_spec, negb_true_iff. split.
  - intros [H1 H2]. split; auto. destruct (isFalse (bxor f g)) eqn:E.
    + assert (f = g); [|subst; rewrite bf_eqb_refl in H2; discriminate]. apply bf_ext. intros e.
      rewrite isFalse_spec in E. specialize (E e). rewrite eval_xor in E. now apply xorb_eq.
    + apply isFalse_false in E. destruct E as (e & E). exists e. rewrite eval_xor in E. intros X. rewrite X, xorb_nilpotent in E. discriminate.
  - intros [H1 (e & H2)]. split; auto. apply bf_eqb_neq. congruence.
Qed.
Print Assumptions C35_comparisons.

(** The operations compute what their names say; quantification ranges over all
    changes of the listed variables. *)
Theorem C35_operations : forall f g e,
  eval (band f g) e = eval f e && eval g e /\ eval (bor f g) e = eval f e || eval g e /\
  eval (bxor f g) e = xorb (eval f e) (eval g e) /\ eval (bimp f g) e = implb (eval f e) (eval g e) /\
  eval (bnot f) e = negb (eval f e) /\
  (forall vs, eval (bexists vs f) e = true <->
     exists e', (forall v, ~ In v vs -> e' v = e v) /\ eval f e' = true) /\
  (forall vs, eval (bforall vs f) e = true <->
     forall e', (forall v, ~ In v vs -> e' v = e v) -> eval f e' = true).
Proof.
  intros f g e. split; [apply eval_and|]. split; [apply eval_or|]. split; [apply eval_xor|].
  split; [apply eval_imp|]. split; [apply eval_not|]. split; intros vs.
  - rewrite eval_exists. split; intros (e' & A & B); exists e'; (split; [|exact B]); intros v Hv; symmetry; now apply A.
  - rewrite eval_forall. split; intros H e' A; apply H; intros v Hv; symmetry; now apply A.
Qed.
Print Assumptions C35_operations.

(** A fixed-point loop ends exactly in the round in which the set does not change. *)
Theorem C35_fixedpoint : forall (D : Type) cur new (d : D),
  ((forall e, eval cur e = eval new e) -> fpUpdate cur new d = Done (cur, d)) /\
  ((exists e, eval cur e <> eval new e) -> fpUpdate cur new d = Cont (new, d)).
Proof.
  intros D cur new d. unfold fpUpdate. split.
  - intros H. apply C35_equality in H. now rewrite H.
  - intros (e & H). destruct (bf_eqb_spec cur new); [congruence|auto].
Qed.
Print Assumptions C35_fixedpoint.

Example C35_example : bf_eqb (bor (bvar 0) (bnot (bvar 0))) btrue = true /\
  bf_eqb (bxor (bvar 3) (bvar 1)) (bxor (bvar 1) (bvar 3)) = true /\ bf_eqb (bvar 1) (bvar 3) = false.
Proof. vm_compute. auto. Qed.
