(** * Properties of symbolic strategies (C20) *)

From Coq Require Import String Ascii Arith List Bool Lia.
From Verif Require Import FileSpec BDD Loop Spec VarTypes Synth Sem FixBase GameSound SynthProofs Verdict Solvers SolversProofs
  PropsSynth AutSpec OutputSpec SymSpec Explicit DetProofs ExplicitProofs ExplicitGame OutputProofs PropsExplicit Symbolic SymbolicProofs.
Import ListNotations.
Open Scope list_scope.

Local Arguments isOut : simpl never.

(** What is written with --simpleSymbolicStrategy ([encoded] = true) and with
    --symbolicStrategy. *)
Definition symStrategy (alg : algorithm) (robotics encoded : bool) (c : ctx) : option symResult :=
  match computeSymbolic alg robotics encoded c with
  | Some (Realizable, Some y) => Some y
  | _ => None
  end.

(** Every variable has a name, as in every loaded specification. *)
Definition named (c : ctx) : Prop := length (varNames c) = length (varTypes c).

(** The value of the written Boolean function for a current and next position, a
    current and next value of the counter and a value of strat_type. *)
Definition holds (c : ctx) (y : symResult) (s t : state) (i i' : nat) (b : bool) : bool :=
  eval (sy_rel y) (symVal (nvars c) (sy_names y) s t i i' b).

(** One step of a controller that follows the written relation, from position [s]
    with counter value [i] to position [t] with counter value [i'].  With
    --simpleSymbolicStrategy, the relation determines both; with
    --symbolicStrategy, the controller moves on to the next goal if the
    transition is permitted with strat_type = 1, and keeps the goal otherwise. *)
Definition symStep (encoded : bool) (c : ctx) (y : symResult) (s : state) (i : nat) (t : state) (i' : nat) : Prop :=
  if encoded then holds c y s t i i' false = true
  else exists b, holds c y s t i 0 b = true /\ (b = false -> holds c y s t i 0 true = false) /\
       i' = if b then (i + 1) mod length (livenessGuarantees c) else i.

Lemma symbolic_cases alg robotics encoded c : wf c -> named c ->
  exists w data L y k, solve alg c = Some (w, data) /\ exactW c w /\ dep (isPreV c) w /\
    (forall j, j < length (livenessGuarantees c) -> dataOf j data = map fst (L j) /\
       goodEnt c w (nth j (livenessGuarantees c) btrue) (L j) w) /\
    (forall j, j < length (livenessGuarantees c) -> fullEnt c (L j) w) /\
    sy_names y = varNames c ++ addedNames encoded k /\ length (livenessGuarantees c) < 2 ^ k /\
    counterBits c encoded (sy_names y) = k /\
    (exists v, sy_header y = header encoded (length (livenessGuarantees c)) v /\ sv_names v = sy_names y /\
       sv_types v = varTypes c ++ repeat SymbolicStrategyCounterVar (length (addedNames encoded k))) /\
    (forall s t i i' b, i < 2 ^ k -> i' < 2 ^ k -> holds c y s t i i' b = true <->
      i < length (livenessGuarantees c) /\ trans (positional c data i) s t = true /\
      (if encoded then i' = (if guarantee c i s t then (i + 1) mod length (livenessGuarantees c) else i)
       else b = true -> guarantee c i s t = true)) /\
    computeSymbolic alg robotics encoded c =
      match (if robotics then checkRealizabilityRobotics c else checkRealizability c) with
      | Realizable => Some (Realizable, Some y) | v => Some (v, None) end.
Proof.
  intros Hwf HN. destruct (solve_spec c Hwf alg) as (w & d & E & S).
  destruct (solved_ranked c Hwf w d S) as (L & HL).
  assert (Hw : dep (isPreV c) w) by (eapply solved_pre; eauto).
  assert (HD : Forall (fun e => fst e < length (livenessGuarantees c) -> dep (isAnyV c) (snd e)) d).
  { apply (data_any c w d L). intros j Hj. destruct (HL j Hj) as (A & B & _). auto. }
  destruct (extractSymbolic_spec c Hwf HN d HD encoded) as (y & k & Ey & Y1 & Y2 & Y3 & Y4 & Y5).
  exists w, d, L, y, k. split; auto. split; [eapply solved_exact; eauto|]. split; auto.
  split; [intros j Hj; destruct (HL j Hj) as (A & B & _); auto|].
  split; [intros j Hj; now apply HL|]. split; auto. split; auto. split; auto. split; auto. split; [exact Y5|].
  pose proof (verdict_same alg robotics c Hwf) as V. unfold verdictWith in V. rewrite E in V.
  unfold computeSymbolic. rewrite E, Ey. cbv zeta. rewrite V.
  destruct (if robotics then checkRealizabilityRobotics c else checkRealizability c); reflexivity.
Qed.

Lemma symStrategy_cases alg robotics encoded c y : wf c -> named c -> symStrategy alg robotics encoded c = Some y ->
  exists w data L k, exactW c w /\ dep (isPreV c) w /\
    (forall j, j < length (livenessGuarantees c) -> dataOf j data = map fst (L j) /\
       goodEnt c w (nth j (livenessGuarantees c) btrue) (L j) w) /\
    (forall j, j < length (livenessGuarantees c) -> fullEnt c (L j) w) /\
    sy_names y = varNames c ++ addedNames encoded k /\ length (livenessGuarantees c) < 2 ^ k /\
    counterBits c encoded (sy_names y) = k /\
    (exists v, sy_header y = header encoded (length (livenessGuarantees c)) v /\ sv_names v = sy_names y /\
       sv_types v = varTypes c ++ repeat SymbolicStrategyCounterVar (length (addedNames encoded k))) /\
    (forall s t i i' b, i < 2 ^ k -> i' < 2 ^ k -> holds c y s t i i' b = true <->
      i < length (livenessGuarantees c) /\ trans (positional c data i) s t = true /\
      (if encoded then i' = (if guarantee c i s t then (i + 1) mod length (livenessGuarantees c) else i)
       else b = true -> guarantee c i s t = true)).
Proof.
  intros Hwf HN H. unfold symStrategy in H.
  destruct (symbolic_cases alg robotics encoded c Hwf HN) as (w & d & L & y' & k & E & H1 & H2 & H3 & H4 & H5 & H6 & H7 & H8 & H9 & E2).
  rewrite E2 in H. exists w, d, L, k.
  destruct (if robotics then _ else _); try discriminate. injection H as <-. auto 12.
Qed.

Section STEP.
  Variable c : ctx.
  Hypothesis Hwf : wf c.
  Variables (encoded : bool) (data : list (nat * BF)) (y : symResult) (k : nat).
  Local Notation M := (length (livenessGuarantees c)).
  Hypothesis HM : M < 2 ^ k.
  Hypothesis HR : forall s t i i' b, i < 2 ^ k -> i' < 2 ^ k -> holds c y s t i i' b = true <->
      i < M /\ trans (positional c data i) s t = true /\
      (if encoded then i' = (if guarantee c i s t then (i + 1) mod M else i) else b = true -> guarantee c i s t = true).

  Lemma step_spec s i t i' : i < 2 ^ k -> i' < 2 ^ k -> symStep encoded c y s i t i' <->
    i < M /\ trans (positional c data i) s t = true /\ i' = (if guarantee c i s t then (i + 1) mod M else i).
  Proof.
    intros Hi Hi'. unfold symStep. destruct encoded; [now apply HR|].
    assert (H0 : 0 < 2 ^ k) by lia. split.
    - intros (b & H1 & H2 & ->). apply HR in H1; auto. destruct H1 as (H1 & H3 & H4). split; auto. split; auto.
      destruct b; [now rewrite H4|]. specialize (H2 eq_refl).
      destruct (guarantee c i s t) eqn:G; auto. exfalso. apply not_true_iff_false in H2. apply H2. apply HR; auto.
    - intros (H1 & H3 & ->). exists (guarantee c i s t). split; [apply HR; auto|]. split; auto.
      intros G. apply not_true_iff_false. intros H. apply HR in H; auto. destruct H as (_ & _ & H). rewrite H in G; auto. discriminate.
  Qed.
End STEP.

(** ** C20 *)

(** Extraction terminates, with a strategy if and only if the specification is
    realizable. *)
Theorem C20_terminates : forall alg (robotics encoded : bool) c, wf c -> named c ->
  let v := if robotics then checkRealizabilityRobotics c else checkRealizability c in
  (v = Realizable -> exists y, symStrategy alg robotics encoded c = Some y) /\
  (v = Unrealizable -> computeSymbolic alg robotics encoded c = Some (Unrealizable, None)).
Proof.
  intros alg robotics encoded c Hwf HN v.
  destruct (symbolic_cases alg robotics encoded c Hwf HN) as (w & d & L & y & k & E & H1 & H2 & H3 & H4 & H5 & H6 & H7 & H8 & H9 & E2).
  fold v in E2. unfold symStrategy. rewrite E2. split; intros ->; eauto.
Qed.
Print Assumptions C20_terminates.

(** The variables of the relation are the declared ones followed by the bits of
    the counter (and strat_type), and the bits suffice for all goals. *)
Theorem C20_variables : forall alg robotics encoded c y, wf c -> named c ->
  symStrategy alg robotics encoded c = Some y ->
  exists k, sy_names y = varNames c ++ addedNames encoded k /\ length (g_liveG (game_of c)) < 2 ^ k.
Proof.
  intros alg robotics encoded c y Hwf HN H.
  destruct (symStrategy_cases _ _ _ _ _ Hwf HN H) as (w & d & L & k & _ & _ & _ & _ & H5 & H6 & _).
  exists k. cbn. rewrite map_length. auto.
Qed.
Print Assumptions C20_variables.

Definition C20_strategy_hyps (alg : algorithm) (robotics encoded : bool) (c : ctx) (y : symResult) (k : nat) : Prop :=
  wf c /\ named c /\ symStrategy alg robotics encoded c = Some y /\ sy_names y = varNames c ++ addedNames encoded k.

Lemma hyps_cases alg robotics encoded c y k : C20_strategy_hyps alg robotics encoded c y k ->
  exists w data L, exactW c w /\ dep (isPreV c) w /\
    (forall j, j < length (livenessGuarantees c) -> dataOf j data = map fst (L j) /\
       goodEnt c w (nth j (livenessGuarantees c) btrue) (L j) w) /\
    (forall j, j < length (livenessGuarantees c) -> fullEnt c (L j) w) /\ length (livenessGuarantees c) < 2 ^ k /\
    forall s i t i', i < 2 ^ k -> i' < 2 ^ k -> symStep encoded c y s i t i' <->
      i < length (livenessGuarantees c) /\ trans (positional c data i) s t = true /\
      i' = (if guarantee c i s t then (i + 1) mod length (livenessGuarantees c) else i).
Proof.
  intros (Hwf & HN & H & EN).
  destruct (symStrategy_cases _ _ _ _ _ Hwf HN H) as (w & d & L & k' & H1 & H2 & H3 & H4 & H5 & H6 & H7 & _ & H9).
  assert (k' = k).
  { rewrite EN in H5. apply app_inv_head in H5. apply (f_equal (@length string)) in H5. revert H5. unfold addedNames. clear.
    destruct encoded.
    - intros H. assert (G : forall n a, length (flat_map (fun j => [counterBit j; counterBit' j]) (seq a n)) = 2 * n).
      { induction n as [|n IH]; intros a; [reflexivity|].
        cbn [seq flat_map app length]. rewrite IH. lia. }
      rewrite !G in H. lia.
    - rewrite !app_length, !map_length, !seq_length. lia. }
  clear H7. subst k'. exists w, d, L. split; auto. split; auto. split; auto. split; auto. split; auto.
  now apply (step_spec c encoded d y k).
Qed.

(** The relation never blocks: from every winning position, for every goal number
    and every next input permitted by ENV_TRANS, there is a step with that input. *)
Theorem C20_nonblocking : forall alg robotics encoded c y k, C20_strategy_hyps alg robotics encoded c y k ->
  forall s i x, winning (game_of c) s -> i < length (g_liveG (game_of c)) -> g_safeE (game_of c) s x = true ->
  exists t i', same_in (game_of c) (nvars c) t x /\ i' < length (g_liveG (game_of c)) /\ symStep encoded c y s i t i'.
Proof.
  intros alg robotics encoded c y k H s i x Hs Hi Hx.
  destruct (hyps_cases _ _ _ _ _ _ H) as (w & d & L & HX & Hw & HL & HF & HM & HS). destruct H as [Hwf _].
  cbn in Hi. rewrite map_length in Hi. apply (exact_winning c w HX) in Hs.
  destruct (stratT_covers c Hwf true w d L HL i s x Hi Hs Hx) as (y0 & Hy).
  exists (mrg c x y0), (if guarantee c i s (mrg c x y0) then (i + 1) mod length (livenessGuarantees c) else i).
  assert (B : (if guarantee c i s (mrg c x y0) then (i + 1) mod length (livenessGuarantees c) else i) < length (livenessGuarantees c)).
  { destruct (guarantee _ _ _ _); auto. apply Nat.mod_upper_bound. lia. }
  split; [|split].
  - intros j Hj Ho. unfold mrg. cbn in Ho. now rewrite Ho.
  - cbn. rewrite map_length. exact B.
  - apply HS; [lia|lia|]. auto.
Qed.
Print Assumptions C20_nonblocking.

(** Every step satisfies SYS_TRANS, leads to a winning position and to the number
    of a goal; the counter moves on to the next goal exactly if the current one is
    satisfied by the step. *)
Theorem C20_step : forall alg robotics encoded c y k, C20_strategy_hyps alg robotics encoded c y k ->
  forall s i t i', i < 2 ^ k -> i' < 2 ^ k -> symStep encoded c y s i t i' ->
  g_safeS (game_of c) s t = true /\ winning (game_of c) t /\
  exists goal, nth_error (g_liveG (game_of c)) i = Some goal /\
    i' = (if goal s t then (i + 1) mod length (g_liveG (game_of c)) else i).
Proof.
  intros alg robotics encoded c y k H s i t i' Hi Hi' HSt.
  destruct (hyps_cases _ _ _ _ _ _ H) as (w & d & L & HX & Hw & HL & HF & HM & HS). destruct H as [Hwf _].
  apply HS in HSt; auto. destruct HSt as (H1 & H2 & H3).
  destruct (stratT_good c Hwf true w d L HL i s t H1 H2) as [G1 G2].
  split; auto. split; [now apply (exact_winning c w HX)|].
  exists (guarantee c i). split.
  - cbn. rewrite nth_error_map, (nth_error_nth' _ btrue H1). reflexivity.
  - cbn. now rewrite map_length.
Qed.
Print Assumptions C20_step.

(** Even if the next input violates ENV_TRANS, the relation does not block as long
    as there is a reply that satisfies SYS_TRANS and leads to a winning position. *)
Theorem C20_recovery : forall alg robotics encoded c y k, C20_strategy_hyps alg robotics encoded c y k ->
  forall s i u, i < length (g_liveG (game_of c)) -> g_safeS (game_of c) s u = true -> winning (game_of c) u ->
  exists t i', same_in (game_of c) (nvars c) t u /\ i' < length (g_liveG (game_of c)) /\ symStep encoded c y s i t i'.
Proof.
  intros alg robotics encoded c y k H s i u Hi Hsu Hu.
  destruct (hyps_cases _ _ _ _ _ _ H) as (w & d & L & HX & Hw & HL & HF & HM & HS). destruct H as [Hwf _].
  cbn in Hi. rewrite map_length in Hi. apply (exact_winning c w HX) in Hu.
  destruct (stratT_recovery c Hwf true w d L HL i s u eq_refl Hi (HF i Hi)) as (y0 & Hy).
  { exists u. cbn in Hsu. split.
    - rewrite <- Hsu. apply trans_eq. intros j. apply mrg_id.
    - rewrite <- Hu. apply (pos_ext c (wf_kinds c Hwf)); auto. intros j _. apply mrg_id. }
  exists (mrg c u y0), (if guarantee c i s (mrg c u y0) then (i + 1) mod length (livenessGuarantees c) else i).
  assert (B : (if guarantee c i s (mrg c u y0) then (i + 1) mod length (livenessGuarantees c) else i) < length (livenessGuarantees c)).
  { destruct (guarantee _ _ _ _); auto. apply Nat.mod_upper_bound. lia. }
  split; [|split].
  - intros j Hj Ho. unfold mrg. cbn in Ho. now rewrite Ho.
  - cbn. rewrite map_length. exact B.
  - apply HS; [lia|lia|]. auto.
Qed.
Print Assumptions C20_recovery.

(** Every infinite sequence that follows the relation from a winning position, on
    which ENV_TRANS holds from some point on and every liveness assumption holds
    infinitely often, satisfies every liveness guarantee infinitely often. *)
Theorem C20_liveness : forall alg robotics encoded c y k, C20_strategy_hyps alg robotics encoded c y k ->
  forall (p : nat -> state) (i : nat -> nat), winning (game_of c) (p 0) ->
  (forall n, i n < 2 ^ k /\ symStep encoded c y (p n) (i n) (p (S n)) (i (S n))) ->
  (exists n0, forall n, n0 <= n -> g_safeE (game_of c) (p n) (p (S n)) = true) ->
  (forall q, In q (g_liveA (game_of c)) -> inf_often q p) ->
  (forall q, In q (g_liveG (game_of c)) -> inf_often q p).
Proof.
  intros alg robotics encoded c y k H p i H0 HP (n0 & HE) HA q Hq.
  assert (HP' : forall n, i n < 2 ^ k /\ i (S n) < 2 ^ k /\ symStep encoded c y (p n) (i n) (p (S n)) (i (S n))).
  { intros n. destruct (HP n) as [A B]. destruct (HP (S n)) as [C _]. auto. }
  assert (HW : forall n, winning (game_of c) (p n)).
  { intros [|n]; auto. destruct (HP' n) as (A & B & C). now apply (C20_step _ _ _ _ _ _ H) in C. }
  destruct (hyps_cases _ _ _ _ _ _ H) as (w & d & L & HX & Hw & HL & HF & HM & HS). destruct H as [Hwf _].
  assert (HP2 : forall n, i n < length (livenessGuarantees c) /\ trans (positional c d (i n)) (p n) (p (S n)) = true /\
    i (S n) = (if guarantee c (i n) (p n) (p (S n)) then (i n + 1) mod length (livenessGuarantees c) else i n)).
  { intros n. destruct (HP' n) as (A & B & C). now apply HS in C. }
  clear HS HP HP'.
  assert (HSn : forall n, n0 + S n = S (n0 + n)) by (intros; lia).
  set (pi := fun n => p (n0 + n)). set (jn := fun n => i (n0 + n)).
  assert (Lq : inf_often q pi).
  { cbn in Hq. apply in_map_iff in Hq. destruct Hq as (q0 & <- & Hq0).
    destruct (In_nth _ _ btrue Hq0) as (j & Hj & Ej).
    apply (all_goals (game_of c) (fun s => pos w s = true) (length (livenessGuarantees c))
             (fun j => trans (nth j (livenessGuarantees c) btrue)) (fun j => lift (L j))) with (pi := pi) (jn := jn) (j := j) in Hj;
      [now rewrite Ej in Hj| | | | | |].
    - intros a Ha. apply goodEnt_ranked. now apply HL.
    - intros n. apply HP2.
    - intros n. unfold pi, jn. rewrite HSn. destruct (HP2 (n0 + n)) as (A & B & _).
      apply (stratT_follow c Hwf true w d L HL); auto. apply HE. lia.
    - intros n. unfold pi, jn. rewrite HSn. destruct (HP2 (n0 + n)) as (A & _ & E). rewrite E. unfold guarantee.
      destruct (trans (nth (i (n0 + n)) (livenessGuarantees c) btrue) (p (n0 + n)) (p (S (n0 + n)))) eqn:G.
      + exists 1. split; [lia|]. split; auto. split; [|auto].
        intros e He. replace e with 0 by lia. now rewrite Nat.add_0_r, Nat.mod_small by auto.
      + exists 0. split; [lia|]. split; [now rewrite Nat.add_0_r, Nat.mod_small by auto|]. split; [intros; lia|congruence].
    - intros q' Hq' n. destruct (HA q' Hq' (n0 + n)) as (m & Hm & G). exists (m - n0). split; [lia|].
      unfold pi. rewrite HSn. replace (n0 + (m - n0)) with m by lia. exact G.
    - apply (exact_winning c w HX). unfold pi. auto. }
  intros n. destruct (Lq n) as (m & Hm & G). exists (n0 + m). split; [lia|]. unfold pi in G. now rewrite HSn in G.
Qed.
Print Assumptions C20_liveness.

(** Every infinite sequence that follows the relation from a winning position
    permitted by the initial conditions satisfies the specification. *)
Theorem C20_correct : forall alg robotics encoded c y k, C20_strategy_hyps alg robotics encoded c y k ->
  forall (p : nat -> state) (i : nat -> nat), winning (game_of c) (p 0) -> g_initS (game_of c) (p 0) = true ->
  (forall n, i n < 2 ^ k /\ symStep encoded c y (p n) (i n) (p (S n)) (i (S n))) ->
  objective (game_of c) p.
Proof.
  intros alg robotics encoded c y k H p i H0 HI HP _. split; auto. split.
  - intros n _. destruct (HP n) as [A B]. destruct (HP (S n)) as [C _]. now apply (C20_step _ _ _ _ _ _ H) in B.
  - intros HE. apply (C20_liveness _ _ _ _ _ _ H p i); auto. exists 0. auto.
Qed.
Print Assumptions C20_correct.

(** For every permitted initial input there is a winning initial position (plain
    semantics); all permitted initial positions are winning (robotics semantics). *)
Theorem C20_initial : forall alg robotics encoded c y, wf c -> named c -> symStrategy alg robotics encoded c = Some y ->
  if robotics then forall s, g_initE (game_of c) s = true -> g_initS (game_of c) s = true -> winning (game_of c) s
  else forall x, g_initE (game_of c) x = true ->
    exists s, same_in (game_of c) (nvars c) s x /\ g_initS (game_of c) s = true /\ winning (game_of c) s.
Proof.
  intros alg robotics encoded c y Hwf HN H.
  destruct (symStrategy_cases _ _ _ _ _ Hwf HN H) as (w & _ & _ & _ & HX & Hw & _).
  assert (V : (if robotics then checkRealizabilityRobotics c else checkRealizability c) = Realizable).
  { unfold symStrategy in H.
    destruct (symbolic_cases alg robotics encoded c Hwf HN) as (? & ? & ? & y' & ? & _ & _ & _ & _ & _ & _ & _ & _ & _ & _ & E2).
    rewrite E2 in H. destruct (if robotics then _ else _); congruence. }
  destruct (C16_terminates alg robotics false c Hwf) as [T _]. specialize (T V). destruct T as (A & HA).
  destruct robotics.
  - intros s HE HS. destruct (C18_robotics_sound c Hwf V) as (f & Hf). exists f. intros x. now apply Hf.
  - intros x Hx. destruct (C13_initial_inputs alg false c A Hwf HA x Hx) as (v & _ & _ & S1 & _ & S2 & S3). eauto.
Qed.
Print Assumptions C20_initial.

(** ** The header *)

(** The header consists of comment lines; among them there are the number of goals
    and, for every variable of the relation, its number and its name. *)
Theorem C20_header : forall alg robotics encoded c y, wf c -> named c ->
  (forall n a, In n (varNames c) -> In a (list_ascii_of_string n) -> a <> "010"%char) ->
  symStrategy alg robotics encoded c = Some y ->
  exists h1 h2 vars : list string, file_lines (sy_header y) = h1 ++ vars ++ h2 /\
    (forall l, In l (h1 ++ h2) -> exists r, l = String "#" r) /\
    (exists (h : list string) w, h1 = h ++ [("# Num goals: " ++ w)%string; "# Variable names:"%string] /\ number (length (g_liveG (game_of c))) w) /\
    Forall2 (fun i l => exists w, number i w /\
       l = ("#" ++ tab ++ w ++ ": " ++
            (if encoded && Nat.ltb i (2 * nvars c) && negb (g_out (game_of c) (Nat.div2 i)) then "in_" else "") ++
            nth i (sy_names y) "")%string) (seq 0 (length (sy_names y))) vars.
Proof.
  intros alg robotics encoded c y Hwf HN HL H.
  destruct (symStrategy_cases _ _ _ _ _ Hwf HN H) as (w & d & L & k & _ & _ & _ & _ & H5 & _ & _ & (v & E & EN & ET) & _).
  rewrite E, header_file.
  2:{ rewrite EN, H5. apply Forall_app. split.
      - apply Forall_forall. intros n Hn a Ha. eauto.
      - unfold addedNames. destruct encoded.
        + apply Forall_flat_map, Forall_forall. intros j _. constructor; [|constructor; [|constructor]].
          * apply noNl_app; [now apply noNl_lit|apply noNl_show].
          * apply noNl_app; [apply noNl_app; [now apply noNl_lit|apply noNl_show]|now apply noNl_lit].
        + apply Forall_app. split; [|constructor; [now apply noNl_lit|constructor]].
          apply Forall_forall. intros n Hn. apply in_map_iff in Hn. destruct Hn as (j & <- & _).
          apply noNl_app; [now apply noNl_lit|apply noNl_show]. }
  eexists _, _, _. split; [reflexivity|]. split; [|split].
  - intros l Hl. rewrite <- app_assoc, !in_app_iff in Hl. destruct Hl as [Hl|[Hl|Hl]].
    + destruct encoded; cbn in Hl; intuition (subst l; eauto).
    + cbn in Hl. intuition (subst l; eauto).
    + cbn in Hl. intuition (subst l; eauto).
  - exists (head1 encoded), (showNat (length (livenessGuarantees c))). split; [reflexivity|]. cbn. rewrite map_length. apply showNat_number.
  - replace (length (sv_types v)) with (length (sy_names y)).
    2:{ rewrite H5, ET, !app_length, repeat_length. now rewrite HN. }
    induction (seq 0 (length (sy_names y))) as [|i l IH]; cbn [map]; constructor; auto.
    exists (showNat i). split; [apply showNat_number|]. unfold headVar.
    rewrite (headVar_input c _ _ i Hwf ET), EN. now rewrite andb_assoc.
Qed.
Print Assumptions C20_header.

(** ** Names *)

(** The names in the written file need not be different, although the names of the
    specification are: a specification may declare a variable _jx_b0. *)
Definition exClash : ctx :=
  mkCtx ["_jx_b0"; "_jx_b0'"; "b"; "b'"]%string (varTypes exR) (livenessAssumptions exR) (livenessGuarantees exR)
    (initEnv exR) (initSys exR) (safetyEnv exR) (safetySys exR).
Theorem C20_unique_names_refuted : exists c y, wf c /\ named c /\ NoDup (varNames c) /\
  (forall encoded, exists y, symStrategy Basic false encoded c = Some y) /\
  symStrategy Basic false true c = Some y /\ ~ NoDup (sy_names y).
Proof.
  assert (W : wf exClash) by (destruct exR_wf; constructor; auto).
  exists exClash. destruct (symStrategy Basic false true exClash) as [y|] eqn:E.
  - exists y. split; auto. split; [reflexivity|]. split; [|split; [|split; auto]].
    + repeat constructor; cbn; intuition discriminate.
    + intros encoded. destruct (C20_terminates Basic false encoded exClash W eq_refl) as [T _]. apply T. vm_compute. reflexivity.
    + assert (EN : sy_names y = ["_jx_b0"; "_jx_b0'"; "b"; "b'"; "_jx_b0"; "_jx_b0'"; "_jx_b1"; "_jx_b1'"]%string).
      { assert (G : option_map sy_names (symStrategy Basic false true exClash) =
          Some ["_jx_b0"; "_jx_b0'"; "b"; "b'"; "_jx_b0"; "_jx_b0'"; "_jx_b1"; "_jx_b1'"]%string) by (vm_compute; reflexivity).
        rewrite E in G. now injection G. }
      rewrite EN. intros N. inversion N as [|? ? N1]. apply N1. cbn. auto.
  - exfalso. assert (G : option_map sy_names (symStrategy Basic false true exClash) <> None) by (vm_compute; discriminate).
    rewrite E in G. now apply G.
Qed.
Print Assumptions C20_unique_names_refuted.

(** ** Examples *)
(** An infinite run that satisfies all assumptions and permitted inputs: positions
    alternate between "nothing" and "a and b", the counter has period four. *)
Definition exSymP (n : nat) : state := fun _ => Nat.odd n.
Definition exSymI (n : nat) : nat := nth (n mod 4) [0; 0; 1; 1] 0.
Definition stepB (encoded : bool) (c : ctx) (y : symResult) (s : state) (i : nat) (t : state) (i' : nat) : bool :=
  if encoded then holds c y s t i i' false
  else (holds c y s t i 0 true && (i' =? (i + 1) mod length (livenessGuarantees c))%nat) ||
       (holds c y s t i 0 false && negb (holds c y s t i 0 true) && (i' =? i)%nat).
Lemma stepB_spec encoded c y s i t i' : stepB encoded c y s i t i' = true -> symStep encoded c y s i t i'.
Proof.
  unfold stepB, symStep. destruct encoded; auto. rewrite orb_true_iff, !andb_true_iff, negb_true_iff, !Nat.eqb_eq.
  intros [[H1 H2]|[[H1 H2] H3]]; [exists true|exists false]; repeat split; auto. discriminate.
Qed.

Example C20_example : forall encoded, exists y, C20_strategy_hyps Basic false encoded exR y 2 /\
  winning (game_of exR) (exSymP 0) /\ g_initS (game_of exR) (exSymP 0) = true /\
  (forall n, exSymI n < 2 ^ 2 /\ symStep encoded exR y (exSymP n) (exSymI n) (exSymP (S n)) (exSymI (S n))) /\
  (forall n, g_safeE (game_of exR) (exSymP n) (exSymP (S n)) = true) /\
  (forall q, In q (g_liveA (game_of exR)) -> inf_often q exSymP).
Proof.
  intros encoded.
  destruct (C20_terminates Basic false encoded exR exR_wf eq_refl) as [T _].
  destruct T as (y & Hy); [vm_compute; reflexivity|]. exists y.
  assert (F : forall n, n mod 4 = 0 \/ n mod 4 = 1 \/ n mod 4 = 2 \/ n mod 4 = 3).
  { intros n. pose proof (Nat.mod_upper_bound n 4). lia. }
  assert (N4 : forall n, S n mod 4 = S (n mod 4) mod 4).
  { intros n. change (S (n mod 4)) with (1 + n mod 4). now rewrite Nat.add_mod_idemp_r by lia. }
  assert (O4 : forall n, Nat.odd n = Nat.odd (n mod 4)).
  { intros n. rewrite (Nat.div_mod n 4) at 1 by lia. rewrite Nat.odd_add, Nat.odd_mul. now destruct (Nat.odd (n mod 4)). }
  split; [|split; [|split; [|split; [|split]]]].
  - split; [exact exR_wf|]. split; [reflexivity|]. split; auto.
    assert (G : option_map sy_names (symStrategy Basic false encoded exR) = Some (varNames exR ++ addedNames encoded 2))
      by (destruct encoded; vm_compute; reflexivity).
    rewrite Hy in G. now injection G.
  - destruct (C04_winning_exact exR exR_wf) as (w & d & E & HX & _). apply HX.
    assert (G : option_map (fun r => pos (fst r) (exSymP 0)) (computeWinningPositions exR) = Some true) by (vm_compute; reflexivity).
    rewrite E in G. now injection G.
  - vm_compute. reflexivity.
  - intros n. split; [unfold exSymI; destruct (F n) as [->|[->|[->| ->]]]; cbn; lia|].
    apply stepB_spec.
    assert (G : forall m, m < 4 -> option_map (fun y => stepB encoded exR y (fun _ => Nat.odd m) (nth m [0; 0; 1; 1] 0)
        (fun _ => Nat.odd (S m mod 4)) (nth (S m mod 4) [0; 0; 1; 1] 0)) (symStrategy Basic false encoded exR) = Some true).
    { intros m Hm. destruct encoded; destruct m as [|[|[|[|m]]]]; try lia; vm_compute; reflexivity. }
    specialize (G (n mod 4) ltac:(apply Nat.mod_upper_bound; lia)). rewrite Hy in G. injection G as G.
    unfold exSymP, exSymI. rewrite (O4 n), (O4 (S n)), N4. exact G.
  - intros n. unfold exSymP. rewrite (O4 n), (O4 (S n)), N4. destruct (F n) as [->|[->|[->| ->]]]; vm_compute; reflexivity.
  - intros q [<-|[<-|[]]] n.
    + exists (S (2 * n)). split; [lia|]. unfold exSymP.
      replace (Nat.odd (S (2 * n))) with true by (rewrite Nat.odd_succ, Nat.even_mul; reflexivity).
      destruct (Nat.odd (S (S (2 * n)))); vm_compute; reflexivity.
    + exists (2 * n). split; [lia|]. unfold exSymP.
      replace (Nat.odd (2 * n)) with false by (rewrite Nat.odd_mul; reflexivity).
      destruct (Nat.odd (S (2 * n))); vm_compute; reflexivity.
Qed.
