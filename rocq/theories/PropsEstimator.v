(** * Properties of --computeIncompleteInformationEstimator (C63 to C66) *)

From Coq Require Import String Ascii Arith NArith ZArith List Bool Lia.
From Verif Require Import BDD Loop Spec VarTypes Synth Sem FixBase AutSpec OutputSpec Explicit Parser ParserProofs FormulaSpec FileSpec FileProofs OutputProofs
  FastSlowFile EstimatorSpec Estimator EstimatorProofs EstimatorText EstimatorFile EstimatorRange PropsParser.
Import ListNotations.
Local Open Scope string_scope.

(** ** Files *)

(** In a file for an estimator, there are three kinds of inputs, and the outputs are the estimates; everything else
    is read as in the slugsin file with ordinary inputs. *)
Theorem C63_file : forall ord content c, initE ord content = POk c ->
  wfE c /\ NoDup (varNames c) /\ length (varNames c) = length (varTypes c) /\
  forall L, layout None (map ordinaryLine (file_lines content)) = Some L -> plain_file L ->
    varNames c = declared L /\
    exists fs, formulas_of true L fs /\ same_domain (domain_of c) (file_domain L fs (file_kinds "" (file_lines content))).
Proof.
  intros ord content c E. pose proof (init_excluded ord content c E) as NX. destruct (init_ord ord content NX) as [E' T].
  rewrite E in E'. cbn [pmap] in E'. specialize (T c E). pose proof (C41_accepted_wf _ _ _ E') as W'.
  destruct (init_kinds ord content c E) as [K HK].
  destruct (initContext_inv _ _ _ E') as (L0 & bs & El0 & ND & HV & Ec). rewrite ordinaryFile_lines in El0.
  assert (EN : varNames c = declared L0) by (change (varNames c) with (varNames (withLive (ordCtx c))); now rewrite Ec).
  split; [now apply (ord_wf c)|]. split; [now rewrite EN|]. split.
  { rewrite EN. rewrite <- length_types. replace (typesF L0) with (varTypes (withLive (ordCtx c))) by now rewrite Ec. cbn. apply map_length. }
  intros L El PF. rewrite El in El0. injection El0 as <-. split; [exact EN|].
  destruct (values_formulas ord L bs ND PF HV) as (fs & HF & HSF). exists fs. split; auto.
  assert (EI : forall s, pos (initEnv c) s = g_initE (file_game L fs) s)
    by (intros s; change (initEnv c) with (initEnv (withLive (ordCtx c))); rewrite Ec; apply bandAll_holds; auto).
  assert (ES : forall s, pos (initSys c) s = g_initS (file_game L fs) s)
    by (intros s; change (initSys c) with (initSys (withLive (ordCtx c))); rewrite Ec; apply bandAll_holds; auto).
  assert (ET : forall s t, trans (safetyEnv c) s t = g_safeE (file_game L fs) s t)
    by (intros s t; change (safetyEnv c) with (safetyEnv (withLive (ordCtx c))); rewrite Ec; apply bandAll_holds; auto).
  assert (EU : forall s t, trans (safetySys c) s t = g_safeS (file_game L fs) s t)
    by (intros s t; change (safetySys c) with (safetySys (withLive (ordCtx c))); rewrite Ec; apply bandAll_holds; auto).
  unfold same_domain. cbn [file_domain d_kind d_wish d_init d_env d_sys domain_of]. split; [exact HK|]. split; [now rewrite EN|].
  split; [intros s; now rewrite EI, ES|]. split; auto.
Qed.
Print Assumptions C63_file.

(** Which files are accepted. *)
Theorem C63_accepts : forall ord content, (exists c, initE ord content = POk c) <->
  (exists c', initContext ord (ordinaryFile content) = POk c') /\
  forall l, In l (file_lines content) -> ~ In (strip l) excludedHeaders.
Proof.
  intros ord content.
  assert (X : forall l, excluded l = false <-> ~ In l excludedHeaders).
  { intros l. unfold excluded. rewrite <- not_true_iff_false, existsb_exists. apply not_iff_compat. split.
    - intros (x & H & E). apply String.eqb_eq in E. now subst.
    - intros H. exists l. split; auto. apply String.eqb_refl. }
  split.
  - intros (c & E). pose proof (init_excluded ord content c E) as NX. split; [|intros l Hl; apply X; auto].
    destruct (init_ord ord content NX) as [E' _]. rewrite E in E'. eauto.
  - intros ((c' & E) & NX). destruct (init_ord ord content) as [E' _]; [intros l Hl; apply X; auto|]. rewrite E in E'.
    destruct (initE ord content) as [c|e| |]; try discriminate. eauto.
Qed.
Print Assumptions C63_accepts.

(** ** C63: the estimator *)

(** The formula for [SYS_TRANS] holds exactly for the best updates: those that are safe in whatever state the domain may be, and
    among those the ones that fulfil the wishes best. *)
Theorem C63_update : forall c, wfE c -> exists e, estimation c = Some e /\
  forall s t, trans (e_sys e) s t = true <-> best_update (domain_of c) s t.
Proof. intros c W. destruct (estimation_spec c W) as (e & E & _ & _ & _ & _ & H & _). eauto. Qed.
Print Assumptions C63_update.

(** It tells the updates by what can be seen, and as long as it holds the estimates are correct. *)
Theorem C63_estimator : forall c e, wfE c -> estimation c = Some e ->
  estimator (domain_of c) (fun s t => trans (e_sys e) s t = true).
Proof.
  intros c e W E. destruct (estimation_spec c W) as (e' & E' & H). rewrite E in E'. injection E' as <-.
  destruct H as (_ & _ & _ & _ & HB & _). split.
  - intros s t s' t' H1 H2. rewrite !HB. now apply best_looks.
  - intros pi n H. pose proof (run_visits c _ pi (S n) H n ltac:(lia)) as V. destruct H as [_ H]. destruct (H n ltac:(lia)) as [He Hb].
    apply (best_sound c); auto; [|now apply HB]. apply visits_best. revert V. apply visits_ext. intros a b _ [X Y]. split; auto. now apply HB.
Qed.
Print Assumptions C63_estimator.

(** The wishes do not exclude all safe updates. *)
Theorem C63_wishes : forall c e, wfE c -> estimation c = Some e -> forall s t, safe_update (domain_of c) s t ->
  exists t', same_but_estimates (domain_of c) t t' /\ trans (e_sys e) s t' = true.
Proof.
  intros c e W E s t Sa. destruct (C63_update c W) as (e' & E' & HB). rewrite E in E'. injection E' as <-.
  destruct (best_exists c W s t Sa) as (t' & H1 & H2). exists t'. split; auto. now apply HB.
Qed.
Print Assumptions C63_wishes.

(** If everything can be seen, then the estimator without wishes permits all updates of all estimators. *)
Theorem C63_observable : forall c e, wfE c -> estimation c = Some e ->
  (forall k, d_kind (domain_of c) k <> Unobservable) -> (forall k, d_kind (domain_of c) k = Estimate -> d_wish (domain_of c) k = None) ->
  forall B, estimator (domain_of c) B -> forall pi n, runs_with (domain_of c) B pi (S n) -> trans (e_sys e) (pi n) (pi (S n)) = true.
Proof.
  intros c e W E KO KW B HB pi n H. destruct (C63_update c W) as (e' & E' & HU). rewrite E in E'. injection E' as <-.
  apply HU. split.
  - intros s' t' H1 H2 _ _. destruct HB as [_ HB]. rewrite <- (HB pi n H). cbn. apply trans_eq2; auto.
  - intros t' _ _ (k & b & K & Wk & _). rewrite KW in Wk by exact K. discriminate.
Qed.
Print Assumptions C63_observable.

(** *** Examples *)

(** A switch and a lamp in another room; "lit" is the estimate that the lamp may be lit, "min_on" that it must be. *)
Definition lampFile : string :=
  "[OBSERVABLE_INPUT]" ++ nl ++ "press" ++ nl ++ "[UNOBSERVABLE_INPUT]" ++ nl ++ "lamp" ++ nl ++ "[OUTPUT]" ++ nl ++ "max_lit" ++ nl ++ "min_on" ++ nl ++
  "[ENV_INIT]" ++ nl ++ "& ! press ! lamp" ++ nl ++ "[SYS_INIT]" ++ nl ++ "& ! max_lit ! min_on" ++ nl ++
  "[ENV_TRANS]" ++ nl ++ "| ! press' lamp'" ++ nl ++ "| press' | lamp ! lamp'" ++ nl ++
  "[SYS_TRANS]" ++ nl ++ "| ! lamp' max_lit'" ++ nl ++ "| ! min_on' lamp'" ++ nl.

Definition stateOf (bits : list bool) : state := fun k => nth k bits false.

Example C63_file_example : exists c L, initE exOrd lampFile = POk c /\ layout None (map ordinaryLine (file_lines lampFile)) = Some L /\ plain_file L /\
  file_kinds "" (file_lines lampFile) = [Observable; Unobservable; Estimate; Estimate].
Proof.
  destruct (initE exOrd lampFile) as [c|e| |] eqn:E; try (vm_compute in E; discriminate).
  exists c. eexists. split; auto. split; [vm_compute; reflexivity|]. split; [|reflexivity]. clear E c. intros s line Hs Hin. cbn [In] in Hin.
  repeat match goal with H : _ \/ _ |- _ => destruct H as [H|H] end; try contradiction;
    injection Hin as <- <-; try discriminate; apply plain_dec; reflexivity.
Qed.
Example C63_example : match initE exOrd lampFile with
  | POk c => match estimation c with
      | Some e => e_noInitial e = false /\ e_envDead e = false /\ e_sysDead e = false /\
          trans (e_sys e) (stateOf [false; false; false; false]) (stateOf [true; false; true; true]) = true /\
          trans (e_sys e) (stateOf [false; false; false; false]) (stateOf [true; false; true; false]) = false /\
          trans (e_sys e) (stateOf [false; false; false; false]) (stateOf [false; false; false; false]) = true /\
          trans (e_sys e) (stateOf [false; false; false; false]) (stateOf [false; false; true; false]) = false
      | None => False
      end
  | _ => False
  end.
Proof. vm_compute. repeat split. Qed.

(** *** A limit *)

(** The estimator is not the most permissive one: it provides for all states that the domain can be in after correct steps, also
    for those that are only entered after other updates.  "u" becomes true, and remains true, if "e" has been true;
    when "o" is true, then "e" must tell the value of "u".  It suffices never to set "e". *)
Definition memoryFile : string :=
  "[OBSERVABLE_INPUT]" ++ nl ++ "o" ++ nl ++ "[UNOBSERVABLE_INPUT]" ++ nl ++ "u" ++ nl ++ "[OUTPUT]" ++ nl ++ "e" ++ nl ++
  "[SYS_INIT]" ++ nl ++ "& ! o & ! u ! e" ++ nl ++ "[ENV_TRANS]" ++ nl ++ "! ^ u' | u e" ++ nl ++
  "[SYS_TRANS]" ++ nl ++ "| ! o' ! ^ e' u'" ++ nl.

Theorem C63_permissive_refuted : exists ord content c e, initE ord content = POk c /\ estimation c = Some e /\
  let D := domain_of c in
  exists B, estimator D B /\
    (forall s t, visits D (fun s t => d_env D s t = true /\ B s t) s -> d_env D s t = true -> exists t', same_but_estimates D t t' /\ B s t') /\
    exists s t, d_init D s = true /\ d_env D s t = true /\ forall t', same_but_estimates D t t' -> trans (e_sys e) s t' = false.
Proof.
  exists exOrd, memoryFile. destruct (initE exOrd memoryFile) as [c|e| |] eqn:E; try (vm_compute in E; discriminate).
  destruct (C63_file _ _ _ E) as (W & _). destruct (C63_update c W) as (e & Ee & HB). exists c, e. split; auto. split; auto.
  assert (match initE exOrd memoryFile with
          | POk c => d_kind (domain_of c) 0 = Observable /\ d_kind (domain_of c) 1 = Unobservable /\ d_kind (domain_of c) 2 = Estimate /\
              bf_eqb (initEnv c) btrue = true /\ bf_eqb (initSys c) (band (bnot (bvar 0)) (band (bnot (bvar 2)) (bnot (bvar 4)))) = true /\
              bf_eqb (safetyEnv c) (bnot (bxor (bvar 3) (bor (bvar 2) (bvar 4)))) = true /\
              bf_eqb (safetySys c) (bor (bnot (bvar 1)) (bnot (bxor (bvar 5) (bvar 3)))) = true
          | _ => True end) as X by (vm_compute; repeat split).
  rewrite E in X. clear E Ee. destruct X as (K0 & K1 & K2 & X4 & X5 & X6 & X7). apply bf_eqb_eq in X4, X5, X6, X7.
  assert (DI : forall s, d_init (domain_of c) s = negb (s 0) && (negb (s 1) && negb (s 2))).
  { intros s. cbn [domain_of d_init]. rewrite X4, X5. unfold pos. now rewrite eval_true, !eval_and, !eval_not, !eval_var. }
  assert (DE : forall s t, d_env (domain_of c) s t = negb (xorb (t 1) (s 1 || s 2))).
  { intros s t. cbn [domain_of d_env]. rewrite X6. unfold trans. now rewrite eval_not, eval_xor, eval_or, !eval_var. }
  assert (DS : forall s t, d_sys (domain_of c) s t = negb (t 0) || negb (xorb (t 2) (t 1))).
  { intros s t. cbn [domain_of d_sys]. rewrite X7. unfold trans. now rewrite eval_or, !eval_not, eval_xor, !eval_var. }
  clear X4 X5 X6 X7. cbv zeta. set (D := domain_of c) in *.
  exists (fun _ t => t 2 = false). split; [split|split].
  - intros s t s' t' _ H Ht. rewrite H; auto. congruence.
  - intros pi n H. assert (V : forall i, i <= S n -> pi i 1 = false /\ pi i 2 = false).
    { destruct H as [H0 H]. induction i as [|i IH]; intros L.
      - rewrite DI in H0. destruct (pi 0 1), (pi 0 2), (pi 0 0); try discriminate H0; auto.
      - destruct (H i L) as [He Hb]. rewrite DE in He. destruct (IH ltac:(lia)) as [-> ->] in He. destruct (pi (S i) 1); [discriminate|auto]. }
    destruct (V (S n) (le_n _)) as [V1 V2]. rewrite DS, V1, V2. apply orb_true_r.
  - intros s t _ _. exists (fun k => if Nat.eqb k 2 then false else t k). split; auto. intros k Hk.
    destruct (Nat.eqb_spec k 2) as [->|]; [now elim Hk|reflexivity].
  - set (s0 := stateOf []). set (t := stateOf [true]). exists s0, t. split; [now rewrite DI|]. split; [now rewrite DE|].
    intros t' Ht. apply not_true_iff_false. intros H. apply HB in H. destruct H as [Sa _].
    assert (T0 : t' 0 = true) by (rewrite (Ht 0); [reflexivity|congruence]).
    assert (T1 : t' 1 = false) by (rewrite (Ht 1); [reflexivity|congruence]).
    assert (Refl : forall s, looks_same D s s) by (intros s k _; reflexivity).
    assert (I0 : visits D (fun s t => d_env D s t = true /\ d_sys D s t = true) s0) by (apply visits_init; now rewrite DI).
    destruct (t' 2) eqn:T2.
    + specialize (Sa s0 t' (Refl _) (Refl _) I0). rewrite DE, DS, T0, T1, T2 in Sa. specialize (Sa eq_refl). discriminate.
    + set (s1 := stateOf [false; false; true]). set (s2 := stateOf [false; true]).
      assert (I2 : visits D (fun s t => d_env D s t = true /\ d_sys D s t = true) s2).
      { apply visits_step with s1; [apply visits_step with s0; [exact I0|]|]; now rewrite DE, DS. }
      specialize (Sa s2 (fun k => if Nat.eqb k 1 then true else t' k)). rewrite DE, DS in Sa. cbn [Nat.eqb] in Sa. rewrite T0, T2 in Sa.
      assert (true = false -> False) by discriminate.
      enough (negb true || negb (xorb false true) = true) by discriminate. apply Sa; auto.
      * intros k Hk. destruct k as [|[|[|k]]]; try reflexivity. congruence.
      * intros k Hk. destruct (Nat.eqb_spec k 1) as [->|]; [congruence|reflexivity].
Qed.
Print Assumptions C63_permissive_refuted.

(** ** C64: the assumption and the warnings *)

(** The formula for [ENV_TRANS] holds exactly for the steps that look possible while the estimator runs. *)
Theorem C64_assumption : forall c e, wfE c -> estimation c = Some e ->
  forall s t, trans (e_env e) s t = true <-> looks_possible (domain_of c) (fun s t => trans (e_sys e) s t = true) s t.
Proof.
  intros c e W E. destruct (estimation_spec c W) as (e' & E' & H). rewrite E in E'. injection E' as <-. apply H.
Qed.
Print Assumptions C64_assumption.

(** It is the strongest assumption about what can be seen and the next observation that is true while the estimator runs. *)
Theorem C64_strongest : forall c e, wfE c -> estimation c = Some e ->
  let D := domain_of c in let B s t := trans (e_sys e) s t = true in
  let valid (A : state -> state -> Prop) :=
    (forall s t s' t', looks_same D s s' -> same_observation D t t' -> A s t -> A s' t') /\
    (forall pi n t, runs_with D B pi n -> d_env D (pi n) t = true -> A (pi n) t) in
  valid (fun s t => trans (e_env e) s t = true) /\
  forall A, valid A -> forall s t, trans (e_env e) s t = true -> A s t.
Proof.
  intros c e W E D B valid. pose proof (C64_assumption c e W E) as HA. fold D in HA. fold B in HA. split; [split|].
  - intros s t s' t' H1 H2. rewrite !HA. now apply possible_looks.
  - intros pi n t H He. apply HA. exists (pi n), t. split; [intros k _; reflexivity|]. split; [intros k _; reflexivity|]. split; [|exact He].
    apply (run_visits c B pi n H n (le_n _)).
  - intros A [A1 A2] s t H. apply HA in H. destruct H as (s' & t' & H1 & H2 & V & He).
    destruct (visits_run c B s' V) as (pi & n & Hp & <-). apply (A1 (pi n) t'); auto.
    + now apply looks_sym.
    + intros k Hn. symmetry. auto.
Qed.
Print Assumptions C64_strongest.

(** What the warnings mean. *)
Theorem C64_warnings : forall c e, wfE c -> estimation c = Some e ->
  let D := domain_of c in let B s t := trans (e_sys e) s t = true in let A s t := trans (e_env e) s t = true in
  let V := visits D (fun s t => d_env D s t = true /\ B s t) in
  (e_noInitial e = true <-> forall s, d_init D s = false) /\
  (e_envDead e = true <-> exists s, V s /\ forall t, ~ A s t) /\
  (e_sysDead e = true <-> exists s t, V s /\ (exists t, A s t) /\ forall t', same_but_estimates D t t' -> ~ B s t').
Proof.
  intros c e W E D B A V. pose proof (C64_assumption c e W E) as HA. destruct (estimation_spec c W) as (e' & E' & H). rewrite E in E'. injection E' as <-.
  destruct H as (_ & _ & _ & H1 & _ & _ & H2 & H3 & _). split; [exact H1|]. split; [rewrite H2|rewrite H3].
  - split; intros (s & Hs & H); exists s; (split; [exact Hs|]); intros t Ht; apply (H t); now apply HA.
  - split; intros (s & t & Hs & (u & Hu) & H); exists s, t; (split; [exact Hs|]); (split; [exists u; now apply HA|exact H]).
Qed.
Print Assumptions C64_warnings.

(** If there are no warnings about dead ends, then the estimator can always be updated, and the assumption can be fulfilled. *)
Theorem C64_no_dead_ends : forall c e, wfE c -> estimation c = Some e -> e_envDead e = false -> e_sysDead e = false ->
  let D := domain_of c in let B s t := trans (e_sys e) s t = true in
  forall pi n, runs_with D B pi n ->
    (exists t, trans (e_env e) (pi n) t = true) /\
    forall t, exists t', same_but_estimates D t t' /\ B (pi n) t'.
Proof.
  intros c e W E N1 N2 D B pi n H. pose proof (run_visits c B pi n H n (le_n _)) as V. fold D in V.
  destruct (C64_warnings c e W E) as (_ & H1 & H2). fold D in H1, H2. fold B in H1, H2.
  assert (EA : exists t, trans (e_env e) (pi n) t = true).
  { (* the formula is decided by quantifying the next variables *)
    destruct (estimation_spec c W) as (e' & E' & HS). rewrite E in E'. injection E' as <-. destruct HS as (_ & DA & _).
    destruct (trans (bexists (varCubePost c) (e_env e)) (pi n) (pi n)) eqn:X.
    - apply (exPost c W) in X; auto.
    - exfalso. assert (Y : e_envDead e = true); [|congruence]. apply H1. exists (pi n). split; auto. intros t Ht.
      apply not_true_iff_false in X. apply X. apply (exPost c W); eauto. }
  split; auto. intros t. destruct (trans (bexists (varCubeEstimationPost c) (e_sys e)) (pi n) t) eqn:X.
  - apply (exEst c W) in X. exact X.
  - exfalso. assert (Y : e_sysDead e = true); [|congruence]. apply H2. exists (pi n), t. split; auto. split; auto. intros t' Ht Hb.
    apply not_true_iff_false in X. apply X. apply (exEst c W). eauto.
Qed.
Print Assumptions C64_no_dead_ends.

(** The converse is not true: the warning about dead ends of the system can concern steps only that are excluded by the
    assumption.  As "max_e" is never set, "u" is never true, and "o" never becomes true. *)
Definition alarmFile : string :=
  "[OBSERVABLE_INPUT]" ++ nl ++ "o" ++ nl ++ "[UNOBSERVABLE_INPUT]" ++ nl ++ "u" ++ nl ++ "[OUTPUT]" ++ nl ++ "max_e" ++ nl ++
  "[SYS_INIT]" ++ nl ++ "& ! o & ! u ! max_e" ++ nl ++ "[ENV_TRANS]" ++ nl ++ "! ^ u' | u max_e" ++ nl ++ "| ! o' u" ++ nl ++
  "[SYS_TRANS]" ++ nl ++ "! o'" ++ nl.

Theorem C64_alarm_refuted : exists ord content c e, initE ord content = POk c /\ estimation c = Some e /\ e_sysDead e = true /\
  let D := domain_of c in let B s t := trans (e_sys e) s t = true in
  forall pi n t, runs_with D B pi n -> trans (e_env e) (pi n) t = true -> exists t', same_but_estimates D t t' /\ B (pi n) t'.
Proof.
  exists exOrd, alarmFile. destruct (initE exOrd alarmFile) as [c|e| |] eqn:E; try (vm_compute in E; discriminate).
  destruct (C63_file _ _ _ E) as (W & _). destruct (C63_update c W) as (e & Ee & HB). exists c, e. split; auto. split; auto.
  assert (match initE exOrd alarmFile with
          | POk c => d_kind (domain_of c) 0 = Observable /\ d_kind (domain_of c) 1 = Unobservable /\ d_kind (domain_of c) 2 = Estimate /\
              d_wish (domain_of c) 2 = Some false /\ nvars c = 3 /\
              bf_eqb (initEnv c) btrue = true /\ bf_eqb (initSys c) (band (bnot (bvar 0)) (band (bnot (bvar 2)) (bnot (bvar 4)))) = true /\
              bf_eqb (safetyEnv c) (band (bnot (bxor (bvar 3) (bor (bvar 2) (bvar 4)))) (bor (bnot (bvar 1)) (bvar 2))) = true /\
              bf_eqb (safetySys c) (bnot (bvar 1)) = true /\
              match estimation c with Some e => e_sysDead e = true | None => True end
          | _ => True end) as X by (vm_compute; repeat split).
  rewrite E in X. clear E. destruct X as (K0 & K1 & K2 & W2 & NV & X4 & X5 & X6 & X7 & X8). apply bf_eqb_eq in X4, X5, X6, X7.
  pose proof (C64_assumption c e W Ee) as HA. rewrite Ee in X8. clear Ee. split; [exact X8|].
  assert (DI : forall s, d_init (domain_of c) s = negb (s 0) && (negb (s 1) && negb (s 2))).
  { intros s. cbn [domain_of d_init]. rewrite X4, X5. unfold pos. now rewrite eval_true, !eval_and, !eval_not, !eval_var. }
  assert (DE : forall s t, d_env (domain_of c) s t = negb (xorb (t 1) (s 1 || s 2)) && (negb (t 0) || s 1)).
  { intros s t. cbn [domain_of d_env]. rewrite X6. unfold trans. now rewrite eval_and, eval_or, !eval_not, eval_xor, eval_or, !eval_var. }
  assert (DS : forall s t, d_sys (domain_of c) s t = negb (t 0)).
  { intros s t. cbn [domain_of d_sys]. rewrite X7. unfold trans. now rewrite eval_not, eval_var. }
  assert (KB : forall k, 3 <= k -> d_kind (domain_of c) k = Observable) by (intros k L; apply (kind_big c W); lia).
  clear X4 X5 X6 X7. cbv zeta. set (D := domain_of c) in *.
  assert (ES : forall k, d_kind D k = Estimate -> k = 2).
  { intros k Hk. destruct k as [|[|[|k]]]; try congruence. rewrite KB in Hk by lia. discriminate. }
  assert (SU : forall s t, t 0 = false -> safe_update D s t).
  { intros s t H s' t' _ H2 _ _. rewrite DS, (H2 0), H; [reflexivity|congruence]. }
  assert (BU : forall s t, t 0 = false -> (best_update D s t <-> t 2 = false)).
  { intros s t H. split.
    - intros [_ HX]. destruct (t 2) eqn:T2; auto. exfalso. apply (HX (fun k => if Nat.eqb k 2 then false else t k)).
      + intros k Hk. destruct (Nat.eqb_spec k 2) as [->|]; [now elim Hk|reflexivity].
      + apply SU. exact H.
      + exists 2, false. repeat split; auto. intros j b' L Kj _. apply ES in Kj. lia.
    - intros T2. split; [now apply SU|]. intros t' _ _ (k & b & Kk & Wk & _ & Tk & _). rewrite (ES k Kk) in *. rewrite W2 in Wk. injection Wk as <-.
      rewrite T2 in Tk. discriminate. }
  assert (VI : forall s, visits D (fun s t => d_env D s t = true /\ trans (e_sys e) s t = true) s -> s 1 = false /\ s 2 = false).
  { induction 1 as [s Hi|s t V [V1 V2] [He Hb]].
    - rewrite DI in Hi. destruct (s 1), (s 2), (s 0); try discriminate Hi; auto.
    - rewrite DE, V1, V2 in He. destruct (t 0) eqn:T0; [destruct (t 1); discriminate He|]. destruct (t 1); [discriminate He|]. split; auto.
      apply HB in Hb. now apply BU in Hb. }
  intros pi n t H Ha. apply HA in Ha. destruct Ha as (s' & t' & _ & H2 & V & He). destruct (VI s' V) as [V1 V2].
  rewrite DE, V1, V2 in He. assert (T0 : t 0 = false).
  { rewrite <- (H2 0 K0). destruct (t' 0); auto. destruct (t' 1); discriminate He. }
  exists (fun k => if Nat.eqb k 2 then false else t k). split.
  - intros k Hk. destruct (Nat.eqb_spec k 2) as [->|]; [now elim Hk|reflexivity].
  - apply HB. apply BU; auto.
Qed.
Print Assumptions C64_alarm_refuted.

Example C64_example : match initE exOrd lampFile with
  | POk c => match estimation c with
      | Some e => trans (e_env e) (stateOf [false; false; false; false]) (stateOf [true; false; false; false]) = true /\
          trans (e_env e) (stateOf [false; true; true; false]) (stateOf [false; true; true; true]) = true /\
          trans (e_env e) (stateOf [true; true; false; false]) (stateOf [false; true; true; true]) = false
      | None => False
      end
  | _ => False
  end.
Proof. vm_compute. repeat split. Qed.

(** ** C65: the printed formulas can be used in a slugsin file *)

(** The text can be added to a slugsin file in which the variables that can be seen are declared, observable ones as inputs and the other ones as
    outputs.  It restricts the steps of the system to best updates, and those of the environment to steps that look possible. *)
Theorem C65_text : forall c e, wfE c -> length (varNames c) = length (varTypes c) -> estimation c = Some e ->
  exists text, estimatorText (varNames c) e = Some text /\
  forall ord base c1 r, initContext ord (base ++ nl) = POk c1 ->
    declared_alike (domain_of c) (nvars c) (varNames c) (varNames c1) (isOut c1) r ->
    (forall f parts, f = e_sys e \/ f = e_env e -> printParts (varNames c) f = Some parts -> (N.of_nat (length parts) < uintBound)%N) ->
    exists c2, initContext ord (base ++ nl ++ text) = POk c2 /\
      varNames c2 = varNames c1 /\ varTypes c2 = varTypes c1 /\ livenessAssumptions c2 = livenessAssumptions c1 /\ livenessGuarantees c2 = livenessGuarantees c1 /\
      initEnv c2 = initEnv c1 /\ initSys c2 = initSys c1 /\
      forall s t, let s' k := s (r k) in let t' k := t (r k) in
        (g_safeS (game_of c2) s t = true <-> g_safeS (game_of c1) s t = true /\ best_update (domain_of c) s' t') /\
        (g_safeE (game_of c2) s t = true <-> g_safeE (game_of c1) s t = true /\ looks_possible (domain_of c) (best_update (domain_of c)) s' t').
Proof.
  intros c e W LN E. destruct (C63_estimator c e W E) as [HL _]. destruct (C63_update c W) as (e0 & E0 & HB). rewrite E in E0. injection E0 as <-.
  pose proof (C64_assumption c e W E) as HA. destruct (C64_strongest c e W E) as ((HO & _) & _).
  destruct (estimation_spec c W) as (e0 & E0 & D1 & D2 & _). rewrite E in E0. injection E0 as <-.
  assert (LP : forall s t, looks_possible (domain_of c) (fun s t => trans (e_sys e) s t = true) s t <-> looks_possible (domain_of c) (best_update (domain_of c)) s t).
  { intros s t. split; intros (s' & t' & H1 & H2 & H3 & H4); exists s', t'; (split; [exact H1|split; [exact H2|split; [|exact H4]]]);
      revert H3; apply visits_ext; intros a b _ [X Y]; split; auto; now apply HB. }
  pose proof (nvars_spec c (Hk c W)) as NV.
  (* which variables are mentioned *)
  assert (ME : forall f v, mentions f v -> exists s t s' t' k, trans f s t <> trans f s' t' /\
    ((v = 2 * k /\ (forall j, j <> k -> s' j = s j) /\ forall j, t' j = t j) \/ (v = 2 * k + 1 /\ (forall j, j <> k -> t' j = t j) /\ forall j, s' j = s j))).
  { intros f v (x & Hx). set (a := upd x v true) in *. set (b := upd x v false) in *.
    assert (EV : forall y, eval f y = trans f (fun k => y (2 * k)) (fun k => y (2 * k + 1))).
    { intros y. unfold trans. apply eval_ext. intros w. destruct (even_cases w) as [[k ->]|[k ->]]; now rewrite ?tv_even, ?tv_odd. }
    exists (fun k => a (2 * k)), (fun k => a (2 * k + 1)), (fun k => b (2 * k)), (fun k => b (2 * k + 1)).
    rewrite (EV a), (EV b) in Hx. destruct (even_cases v) as [[k ->]|[k ->]]; exists k; (split; [exact Hx|]); [left|right]; (split; [reflexivity|]);
      unfold a, b; split; intros j; try intros Nj; now rewrite !upd_other by lia. }
  assert (KD : forall k x, d_kind (domain_of c) k = x \/ d_kind (domain_of c) k <> x) by (intros; destruct (kind_dec (d_kind (domain_of c) k) x); auto).
  assert (INV : forall f, (forall s t s' t', looks_same (domain_of c) s s' -> looks_same (domain_of c) t t' -> trans f s t = true -> trans f s' t' = true) ->
    forall v k, mentions f v -> (v = 2 * k \/ v = 2 * k + 1) -> d_kind (domain_of c) k <> Unobservable).
  { intros f Hf v k M Ev Ku. destruct (ME f v M) as (s & t & s' & t' & j & Nx & C). apply Nx.
    assert (X : looks_same (domain_of c) s s' /\ looks_same (domain_of c) t t').
    { destruct C as [(-> & C1 & C2)|(-> & C1 & C2)]; split; intros i Hi; auto; apply C1; intros ->; apply Hi; rewrite <- Ku; f_equal; lia. }
    destruct X as [X1 X2]. apply eq_true_iff_eq. split; apply Hf; auto; now apply looks_sym. }
  assert (MS : forall v k, mentions (e_sys e) v -> (v = 2 * k \/ v = 2 * k + 1) -> d_kind (domain_of c) k <> Unobservable) by (apply INV; exact HL).
  assert (SO : forall t t', looks_same (domain_of c) t t' -> same_observation (domain_of c) t t') by (intros t t' H k Hk; apply H; congruence).
  assert (MA : forall v k, mentions (e_env e) v -> (v = 2 * k \/ v = 2 * k + 1) -> d_kind (domain_of c) k <> Unobservable).
  { apply INV. intros s t s' t' H1 H2. apply HO; auto. }
  assert (MO : forall k, mentions (e_env e) (2 * k + 1) -> d_kind (domain_of c) k = Observable).
  { intros k M. destruct (KD k Observable) as [K|K]; auto. exfalso. destruct (ME _ _ M) as (s & t & s' & t' & j & Nx & C). apply Nx.
    destruct C as [(? & _)|(Ej & C1 & C2)]; [lia|]. assert (X : same_observation (domain_of c) t t').
    { intros i Hi. apply C1. intros ->. apply K. rewrite <- Hi. f_equal. lia. }
    apply eq_true_iff_eq. split; apply HO.
    - intros i _. apply C2.
    - exact X.
    - intros i _. symmetry. apply C2.
    - intros i Hi. symmetry. apply X, Hi. }
  assert (BD : forall f v, dep (isAnyV c) f -> mentions f v -> v < length (varNames c)).
  { intros f v Df M. pose proof (mentions_dep _ _ _ Df M) as X. unfold isAnyV in X. rewrite LN. lia. }
  destruct (print_read (varNames c) (e_sys e)) as (p1 & t1 & P1 & F1 & R1); [eauto|].
  destruct (print_read (varNames c) (e_env e)) as (p2 & t2 & P2 & F2 & R2); [eauto|].
  eexists. split; [unfold estimatorText; rewrite F1, F2; reflexivity|].
  intros ord base c1 r E1 HD HN.
  destruct (initContext_inv _ _ _ E1) as (L & bs & _ & ND & _ & Ec).
  set (ren := fun v => if Nat.even v then 2 * r (Nat.div2 v) else 2 * r (Nat.div2 v) + 1).
  assert (RE : forall k, ren (2 * k) = 2 * r k) by (intros; unfold ren; now rewrite even_double, Nat.div2_double).
  assert (RO : forall k, ren (2 * k + 1) = 2 * r k + 1) by (intros; unfold ren; now rewrite even_double1, div2_double1).
  assert (TY : forall j, 2 * j < length (varNames c1) ->
    nth (2 * j) (varTypes c1) NoneVariableType = (if isOut c1 j then PreOutput else PreInput) /\
    nth (2 * j + 1) (varTypes c1) NoneVariableType = (if isOut c1 j then PostOutput else PostInput)).
  { rewrite Ec. intros j Lj. rewrite isOut_final. cbn [varNames varTypes finalContext] in *. rewrite typesF_kinds, nth_typesOf_even, nth_typesOf_odd.
    unfold kindsF. rewrite <- length_types, typesF_kinds, length_typesOf in Lj. unfold kindsF in Lj. rewrite map_length in Lj.
    rewrite (nth_indep _ NoneVariableType PreInput) by (rewrite map_length; lia).
    pose proof (map_nth (fun o : bool => if o then PreOutput else PreInput) (outputs L) false j) as MN. cbv beta iota in MN. rewrite MN.
    destruct (nth j (outputs L) false); split; reflexivity. }
  assert (NDc : NoDup (varNames c1)) by (rewrite Ec; exact ND).
  assert (READ : forall f allowed, dep (isAnyV c) f ->
    (forall v k, mentions f v -> (v = 2 * k \/ v = 2 * k + 1) -> d_kind (domain_of c) k <> Unobservable) ->
    In PreInput allowed -> In PreOutput allowed ->
    (forall k, mentions f (2 * k + 1) -> In (if isOut c1 (r k) then PostOutput else PostInput) allowed) ->
    readable (varNames c) (var_ok (varNames c1) (varTypes c1) allowed) ren f).
  { intros f allowed Df Mf A1 A2 A3 v Hv. pose proof (BD f v Df Hv) as Lv. rewrite LN, NV in Lv.
    assert (NTH : forall i w, nth_error (varNames c) i = Some w -> nth i (varNames c) "" = w) by (intros i w Hw; now apply nth_error_nth).
    destruct (even_cases v) as [[k ->]|[k ->]].
    - destruct (HD k ltac:(lia)) as ((w & [W1 W2] & H1 & H2) & _ & _); [apply (Mf (2 * k) k Hv); auto|].
      rewrite (NTH _ _ H1), RE. split; [exact W1|]. split; [exact W2|]. split; [now apply names_var_NoDup|].
      destruct (TY (r k)) as [-> _]; [apply nth_error_Some; congruence|]. destruct (isOut c1 (r k)); auto.
    - destruct (HD k ltac:(lia)) as ((w0 & _ & _ & H0) & (w & [W1 W2] & H1 & H2) & _); [apply (Mf (2 * k + 1) k Hv); auto|].
      rewrite (NTH _ _ H1), RO. split; [exact W1|]. split; [exact W2|]. split; [now apply names_var_NoDup|].
      destruct (TY (r k)) as [_ ->]; [apply nth_error_Some; congruence|]. now apply A3. }
  assert (Q1 : readable (varNames c) (var_ok (varNames c1) (varTypes c1) [PreInput; PreOutput; PostInput; PostOutput]) ren (e_sys e)).
  { apply READ; [exact D1|exact MS|cbn; tauto|cbn; tauto|]. intros k _. destruct (isOut c1 (r k)); cbn; tauto. }
  assert (Q2 : readable (varNames c) (var_ok (varNames c1) (varTypes c1) [PreInput; PreOutput; PostInput]) ren (e_env e)).
  { apply READ; [exact D2|exact MA|cbn; tauto|cbn; tauto|]. intros k M. pose proof (MO k M) as K. pose proof (BD _ _ D2 M) as Lk. rewrite LN, NV in Lk.
    destruct (HD k ltac:(lia)) as (_ & _ & HK); [congruence|]. rewrite (proj2 HK K). cbn. tauto. }
  destruct (R1 _ _ _ ren ord (strip t1) (HN _ _ (or_introl eq_refl) P1) Q1 (words_strip _)) as (b1 & B1 & V1).
  destruct (R2 _ _ _ ren ord (strip t2) (HN _ _ (or_intror eq_refl) P2) Q2 (words_strip _)) as (b2 & B2 & V2).
  destruct (print_noNl _ _ _ F1) as [N1 S1]; [intros v Hv; apply (Q1 v Hv)|].
  destruct (print_noNl _ _ _ F2) as [N2 S2]; [intros v Hv; apply (Q2 v Hv)|].
  exists (withTrans c1 b2 b1). split.
  { eapply add_text; [exact E1| |exact S1|exact S2|exact B1|exact B2].
    rewrite !sconcat_cons, sconcat_nil.
    repeat (rewrite file_lines_line by first [exact N1|exact N2|intros x Hx Ex; subst x; cbn in Hx; intuition discriminate]). reflexivity. }
  repeat (split; [reflexivity|]).
  intros s t s' t'. cbn [game_of g_safeS g_safeE withTrans safetySys safetyEnv].
  assert (TR : forall f b, (forall x, eval b x = eval f (fun v => x (ren v))) -> trans b s t = trans f s' t').
  { intros f b H. unfold trans. rewrite H. apply eval_ext. intros v. destruct (even_cases v) as [[k ->]|[k ->]]; now rewrite ?RE, ?RO, ?tv_even, ?tv_odd. }
  rewrite !trans_and, !andb_true_iff, (TR _ _ V1), (TR _ _ V2), HB, HA, LP. tauto.
Qed.
Print Assumptions C65_text.

(** The text for the lamp is added to the specification of a program that knows the button and the estimates. *)
Definition lampBase : string :=
  "[INPUT]" ++ nl ++ "press" ++ nl ++ "[OUTPUT]" ++ nl ++ "max_lit" ++ nl ++ "min_on" ++ nl ++ "[SYS_INIT]" ++ nl ++ "& ! max_lit ! min_on".
Example C65_example : exists c e text c1 r, initE exOrd lampFile = POk c /\ estimation c = Some e /\ estimatorText (varNames c) e = Some text /\
  initContext exOrd (lampBase ++ nl) = POk c1 /\ declared_alike (domain_of c) (nvars c) (varNames c) (varNames c1) (isOut c1) r /\
  (forall f parts, f = e_sys e \/ f = e_env e -> printParts (varNames c) f = Some parts -> (N.of_nat (length parts) < uintBound)%N) /\
  isOk (initContext exOrd (lampBase ++ nl ++ text)) = true.
Proof.
  destruct (initE exOrd lampFile) as [c|e| |] eqn:E; try (vm_compute in E; discriminate).
  destruct (initContext exOrd (lampBase ++ nl)) as [c1|e| |] eqn:E1; try (vm_compute in E1; discriminate).
  destruct (C63_file _ _ _ E) as (W & _ & LN & _). destruct (C63_update c W) as (e & Ee & _). destruct (C65_text c e W LN Ee) as (text & ET & _).
  exists c, e, text, c1, (fun k => match k with 2 => 1 | 3 => 2 | k => k end). split; [reflexivity|]. split; [exact Ee|]. split; [exact ET|]. split; [reflexivity|].
  assert (match initE exOrd lampFile, initContext exOrd (lampBase ++ nl) with
          | POk c, POk c1 => nvars c = 4 /\ varNames c = ["press"; "press'"; "lamp"; "lamp'"; "max_lit"; "max_lit'"; "min_on"; "min_on'"] /\
              varNames c1 = ["press"; "press'"; "max_lit"; "max_lit'"; "min_on"; "min_on'"] /\
              isOut c1 0 = false /\ isOut c1 1 = true /\ isOut c1 2 = true /\
              d_kind (domain_of c) 0 = Observable /\ d_kind (domain_of c) 1 = Unobservable /\ d_kind (domain_of c) 2 = Estimate /\ d_kind (domain_of c) 3 = Estimate /\
              match estimation c with
              | Some e => match printParts (varNames c) (e_sys e), printParts (varNames c) (e_env e), estimatorText (varNames c) e with
                          | Some p1, Some p2, Some text => (N.of_nat (length p1) <? uintBound)%N = true /\ (N.of_nat (length p2) <? uintBound)%N = true /\ isOk (initContext exOrd (lampBase ++ nl ++ text)) = true
                          | _, _, _ => False end
              | None => False end
          | _, _ => True end) as X by (vm_compute; repeat split).
  rewrite E, E1, Ee in X. clear E E1. destruct X as (NV & N1 & N2 & O0 & O1 & O2 & K0 & K1 & K2 & K3 & X).
  destruct (printParts (varNames c) (e_sys e)) as [p1|] eqn:P1; [|contradiction]. destruct (printParts (varNames c) (e_env e)) as [p2|] eqn:P2; [|contradiction].
  rewrite ET in X. destruct X as (Z1 & Z2 & Z3). split; [|split; [|exact Z3]].
  - intros k Lk Ku. rewrite N1, N2. rewrite NV in Lk. destruct k as [|[|[|[|k]]]]; try lia; [|congruence| |].
    + split; [exists "press"; split; [split|split]; reflexivity|]. split; [exists "press'"; split; [split|split]; reflexivity|]. split; auto.
    + split; [exists "max_lit"; split; [split|split]; reflexivity|]. split; [exists "max_lit'"; split; [split|split]; reflexivity|].
      rewrite O1, K2. split; discriminate.
    + split; [exists "min_on"; split; [split|split]; reflexivity|]. split; [exists "min_on'"; split; [split|split]; reflexivity|].
      rewrite O2, K3. split; discriminate.
  - intros f parts [->| ->] EP; rewrite ?P1, ?P2 in EP; injection EP as <-; now apply N.ltb_lt.
Qed.

(** The names must be usable in formulas: otherwise, the text need not be. *)
Theorem C65_names_refuted : exists ord content c e text base c1, initE ord content = POk c /\ estimation c = Some e /\ estimatorText (varNames c) e = Some text /\
  initContext ord (base ++ nl) = POk c1 /\ varNames c1 = varNames c /\ forall c2, initContext ord (base ++ nl ++ text) <> POk c2.
Proof.
  set (file := "[OUTPUT]" ++ nl ++ "min_ x" ++ nl). exists exOrd, file.
  destruct (initE exOrd file) as [c|e| |] eqn:E; try (vm_compute in E; discriminate). exists c.
  destruct (C63_file _ _ _ E) as (W & _ & LN & _). destruct (C63_update c W) as (e & Ee & _). destruct (C65_text c e W LN Ee) as (text & ET & _).
  exists e, text, file. destruct (initContext exOrd (file ++ nl)) as [c1|e1| |] eqn:E1; try (vm_compute in E1; discriminate).
  exists c1. split; [reflexivity|]. split; [exact Ee|]. split; [exact ET|]. split; [reflexivity|].
  assert (match initE exOrd file, initContext exOrd (file ++ nl) with
          | POk c, POk c1 => varNames c1 = varNames c /\
              match estimation c with
              | Some e => match estimatorText (varNames c) e with
                          | Some text => isOk (initContext exOrd (file ++ nl ++ text)) = false
                          | None => False end
              | None => False end
          | _, _ => True end) as X by (vm_compute; repeat split).
  rewrite E, E1, Ee, ET in X. destruct X as [X1 X2]. split; auto. intros c2 EC. rewrite EC in X2. discriminate.
Qed.
Print Assumptions C65_names_refuted.

(** ** C66: differences between numbers *)

(** There is one line for every pair of a number and the next value of another number that is an estimate.  It has the smallest
    and the greatest difference between the two in the steps of the domain and the estimator. *)
Theorem C66_ranges : forall ord content c e, initE ord content = POk c -> estimation c = Some e -> well_numbered (varNames c) ->
  exists lines, rangeLines c (e_all e) = (lines, None) /\
    Forall2 (fun p l => range_line (domain_of c) (fun s t => trans (e_sys e) s t = true) (varNames c) (fst p) (snd p)
                          (l_sim l) (l_ref l) (l_primed l) (l_min l) (l_max l))
      (range_pairs (domain_of c) (varNames c)) lines.
Proof.
  intros ord content c e E Ee WN. destruct (C63_file _ _ _ E) as (W & ND & LN & _).
  destruct (estimation_spec c W) as (e' & E' & H). rewrite Ee in E'. injection E' as <-.
  destruct H as (_ & _ & _ & _ & _ & _ & _ & _ & HA).
  destruct (rangeLines_spec c W LN ND WN (e_all e)) as (ls & EL & HF). exists ls. split; [exact EL|]. clear EL.
  revert HF. generalize (range_pairs (domain_of c) (varNames c)). intros l HF. induction HF as [|p q l l' Hp HF IH]; constructor; [|exact IH].
  destruct Hp as (rlo & rhi & rbits & slo & shi & sbits & H1 & H2 & H3 & H4). exists rlo, rhi, rbits, slo, shi, sbits. rewrite H3.
  split; [exact H1|]. split; [exact H2|]. split; [reflexivity|].
  assert (PE : forall x y, pairs (e_all e) (fst p) rlo rhi rbits (snd p) slo shi sbits x y <->
    exists s t, visits (domain_of c) (fun s t => d_env (domain_of c) s t = true /\ trans (e_sys e) s t = true) s /\ d_env (domain_of c) s t = true /\
      trans (e_sys e) s t = true /\ number_is (fst p) rlo rhi rbits (valuation s t) x /\ number_is (snd p) slo shi sbits (valuation s t) y).
  { intros x y. unfold pairs. split.
    - intros (a & A1 & A2 & A3). exists (fun k => a (2 * k)), (fun k => a (2 * k + 1)).
      assert (EV : forall v, valuation (fun k => a (2 * k)) (fun k => a (2 * k + 1)) v = a v).
      { intros v. change (valuation (fun k => a (2 * k)) (fun k => a (2 * k + 1)) v) with (tv (fun k => a (2 * k)) (fun k => a (2 * k + 1)) v).
        destruct (even_cases v) as [[k ->]|[k ->]]; now rewrite ?tv_even, ?tv_odd. }
      assert (BV : forall bits, bits_value bits (valuation (fun k => a (2 * k)) (fun k => a (2 * k + 1))) = bits_value bits a)
        by (induction bits as [|b bits IHb]; cbn [bits_value]; [reflexivity|now rewrite IHb, EV]).
      destruct (HA (fun k => a (2 * k)) (fun k => a (2 * k + 1))) as [HA1 _]. destruct HA1 as (V & He & Hb).
      { rewrite <- A1. unfold trans. apply eval_ext. exact EV. }
      split; [exact V|]. split; [exact He|]. split; [exact Hb|]. unfold number_is. rewrite !BV. auto.
    - intros (s & t & V & He & Hb & A2 & A3). exists (tv s t). split; [|auto]. apply (HA s t). auto. }
  destruct H4 as (R1 & R2 & R3). split; [|split].
  - intros x y Hxy. apply R1. now apply PE.
  - intros (x & y & Hxy). destruct R2 as [(x1 & y1 & A1 & A2) (x2 & y2 & B1 & B2)]; [exists x, y; now apply PE|].
    split; [exists x1, y1|exists x2, y2]; split; auto; now apply PE.
  - intros Hn. apply R3. intros x y Hxy. apply (Hn x y). now apply PE.
Qed.
Print Assumptions C66_ranges.

(** An unobservable number with values 0 and 1, an observable one with values from 2 to 5, and an estimate with values from 1 to 4.
    The higher bits of the latter two are the same, and the estimate is not 2. *)
Definition numberFile : string :=
  "[UNOBSERVABLE_INPUT]" ++ nl ++ "x@0.0.1" ++ nl ++ "[OBSERVABLE_INPUT]" ++ nl ++ "y@0.2.5" ++ nl ++ "y@1" ++ nl ++ "[OUTPUT]" ++ nl ++ "z@0.1.4" ++ nl ++ "z@1" ++ nl ++
  "[SYS_INIT]" ++ nl ++ "& ! x@0.0.1 & ! y@0.2.5 & ! y@1 & ! z@0.1.4 ! z@1" ++ nl ++
  "[SYS_TRANS]" ++ nl ++ "! ^ z@1' y@1'" ++ nl ++ "| z@1' ! z@0.1.4'" ++ nl.
Example C66_example : match initE exOrd numberFile with
  | POk c => match estimation c with
      | Some e => rangeLines c (e_all e) =
          ([mkLine "z" "x" false 0 4; mkLine "z" "x" true 0 4; mkLine "z" "y" false (-4) 2; mkLine "z" "y" true (-2) 0; mkLine "z" "z" false (-3) 3],
           None)%Z
      | None => False end
  | _ => False end.
Proof. vm_compute. reflexivity. Qed.
Lemma number_prime j : number j (showNat j).
Proof. apply showNat_number. Qed.
Example C66_numbered : exists c e, initE exOrd numberFile = POk c /\ estimation c = Some e /\ well_numbered (varNames c) /\
  range_pairs (domain_of c) (varNames c) = [(0, 7); (1, 7); (2, 7); (3, 7); (6, 7)].
Proof.
  destruct (initE exOrd numberFile) as [c|e| |] eqn:E; try (vm_compute in E; discriminate).
  destruct (C63_file _ _ _ E) as (W & _). destruct (C63_update c W) as (e & Ee & _). exists c, e. split; auto. split; auto.
  assert (match initE exOrd numberFile with
          | POk c => varNames c = ["x@0.0.1"; "x@0.0.1'"; "y@0.2.5"; "y@0.2.5'"; "y@1"; "y@1'"; "z@0.1.4"; "z@0.1.4'"; "z@1"; "z@1'"] /\
              range_pairs (domain_of c) (varNames c) = [(0, 7); (1, 7); (2, 7); (3, 7); (6, 7)]
          | _ => True end) as X by (vm_compute; repeat split).
  rewrite E in X. destruct X as [X1 X2]. split; [|exact X2]. rewrite X1. clear.
  assert (N : forall p lo hi primed bits i wl wh, ~ occurs "@" p -> numeral wl lo -> numeral wh hi ->
    forall names, nth_error names i = Some (p ++ "@0." ++ wl ++ "." ++ wh ++ prime primed) -> length bits = pred (N.to_nat (N.size (hi - lo))) ->
    (forall j v, nth_error bits j = Some v -> nth_error names v = Some (p ++ "@" ++ showNat (S j) ++ prime primed)) ->
    (lo < 2147483648)%N -> (hi < 2147483648)%N -> primed = Nat.odd i ->
    exists p lo hi bits, is_number names i p lo hi (Nat.odd i) bits /\ (lo < 2147483648)%N /\ (hi < 2147483648)%N).
  { intros p lo hi primed bits i wl wh H1 H2 H3 names H4 H5 H6 H7 H8 ->. exists p, lo, hi, bits. split; [|auto]. split; [exact H1|]. split; [eauto|]. split; [exact H5|].
    intros j v Hj. exists (showNat (S j)). split; [apply number_prime|auto]. }
  intros i name Hi HD. repeat (destruct i as [|i]; [injection Hi as <-; try discriminate HD|]); [..|destruct i; discriminate Hi].
  - apply (N "x" 0%N 1%N false [] 0 "0" "1"); try reflexivity; [cbn; intuition discriminate|split; [discriminate|split; reflexivity]|split; [discriminate|split; reflexivity]|intros [|j] v; discriminate].
  - apply (N "x" 0%N 1%N true [] 1 "0" "1"); try reflexivity; [cbn; intuition discriminate|split; [discriminate|split; reflexivity]|split; [discriminate|split; reflexivity]|intros [|j] v; discriminate].
  - apply (N "y" 2%N 5%N false [4] 2 "2" "5"); try reflexivity; [cbn; intuition discriminate|split; [discriminate|split; reflexivity]|split; [discriminate|split; reflexivity]|].
    intros [|[|j]] v; try discriminate. intros E. injection E as <-. reflexivity.
  - apply (N "y" 2%N 5%N true [5] 3 "2" "5"); try reflexivity; [cbn; intuition discriminate|split; [discriminate|split; reflexivity]|split; [discriminate|split; reflexivity]|].
    intros [|[|j]] v; try discriminate. intros E. injection E as <-. reflexivity.
  - apply (N "z" 1%N 4%N false [8] 6 "1" "4"); try reflexivity; [cbn; intuition discriminate|split; [discriminate|split; reflexivity]|split; [discriminate|split; reflexivity]|].
    intros [|[|j]] v; try discriminate. intros E. injection E as <-. reflexivity.
  - apply (N "z" 1%N 4%N true [9] 7 "1" "4"); try reflexivity; [cbn; intuition discriminate|split; [discriminate|split; reflexivity]|split; [discriminate|split; reflexivity]|].
    intros [|[|j]] v; try discriminate. intros E. injection E as <-. reflexivity.
Qed.

(** Names with a dot need not belong to numbers: an estimate with such a name lets the analysis fail as soon as there is a number; and the
    variable of a missing bit is looked up in vain. *)
Theorem C66_names_refuted :
  (exists ord content c e, initE ord content = POk c /\ estimation c = Some e /\ In "v.1" (varNames c) /\
     rangeLines c (e_all e) = ([], Some (RError 5))) /\
  (exists ord content c e, initE ord content = POk c /\ estimation c = Some e /\ ~ In "z@1" (varNames c) /\
     rangeLines c (e_all e) = ([], Some RUndefined)).
Proof.
  split.
  - set (file := "[OBSERVABLE_INPUT]" ++ nl ++ "x@0.0.1" ++ nl ++ "[OUTPUT]" ++ nl ++ "v.1" ++ nl). exists exOrd, file.
    destruct (initE exOrd file) as [c|e| |] eqn:E; try (vm_compute in E; discriminate).
    destruct (C63_file _ _ _ E) as (W & _). destruct (C63_update c W) as (e & Ee & _). exists c, e. split; auto. split; auto.
    assert (match initE exOrd file with
            | POk c => In "v.1" (varNames c) /\ match estimation c with Some e => rangeLines c (e_all e) = ([], Some (RError 5)) | None => True end
            | _ => True end) as X by (vm_compute; split; [tauto|reflexivity]).
    rewrite E, Ee in X. exact X.
  - set (file := "[OBSERVABLE_INPUT]" ++ nl ++ "x@0.0.1" ++ nl ++ "[OUTPUT]" ++ nl ++ "z@0.0.2" ++ nl). exists exOrd, file.
    destruct (initE exOrd file) as [c|e| |] eqn:E; try (vm_compute in E; discriminate).
    destruct (C63_file _ _ _ E) as (W & _). destruct (C63_update c W) as (e & Ee & _). exists c, e. split; auto. split; auto.
    assert (match initE exOrd file with
            | POk c => ~ In "z@1" (varNames c) /\ match estimation c with Some e => rangeLines c (e_all e) = ([], Some RUndefined) | None => True end
            | _ => True end) as X by (vm_compute; split; [intuition discriminate|reflexivity]).
    rewrite E, Ee in X. exact X.
Qed.
Print Assumptions C66_names_refuted.
