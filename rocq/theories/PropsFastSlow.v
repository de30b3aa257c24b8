(** * Properties of --IROSfastslow (C55, C56) *)

From Coq Require Import String Ascii Arith List Bool Lia.
From Verif Require Import BDD Loop Spec VarTypes Synth Sem FixBase SynthProofs Verdict Solvers AutSpec Explicit Parser FormulaSpec FileSpec FileProofs GameExt
  FastSlowSpec FastSlow FastSlowProofs FastSlowFile PropsSynth PropsParser PropsExplicit.
Import ListNotations.
Local Open Scope string_scope.

Local Arguments isOut : simpl never.

(** ** C55: the verdict *)

(** A run ends with one of the two verdicts. *)
Theorem C55_terminates : forall robotics c, wfFS c -> checkFS robotics c = Realizable \/ checkFS robotics c = Unrealizable.
Proof.
  intros robotics c [W F]. rewrite (check_same c W F). pose proof (restr_wf c W F) as W'.
  destruct robotics; [now apply C18_robotics_terminates|now apply C03_check_terminates].
Qed.
Print Assumptions C55_terminates.

(** The verdict is positive iff the system has a strategy that fulfils the specification and in
    whose steps the position between the fast and the slow changes is admissible.  If it is
    negative, then all strategies can be defeated. *)
Theorem C55_verdict : forall c, wfFS c ->
  (checkFS false c = Realizable <-> fs_realizable (game_of c) (isSlow c)) /\
  (checkFS false c = Unrealizable <-> forall f, exists x, ~ fs_objective (game_of c) (isSlow c) (play (game_of c) f x)).
Proof.
  intros c [W F]. pose proof (restr_wf c W F) as W'. rewrite (check_same c W F).
  assert (R : checkRealizability (restr c) = Realizable -> fs_realizable (game_of c) (isSlow c)).
  { intros E. destruct (C01_realizable_sound _ W' E) as (f & Hf). exists f. intros x. apply (objective_same c W F), Hf. }
  assert (U : checkRealizability (restr c) = Unrealizable -> forall f, exists x, ~ fs_objective (game_of c) (isSlow c) (play (game_of c) f x)).
  { intros E f. destruct (C02_unrealizable_sound _ W' E f) as (x & Hx). exists x. intros O. apply Hx. now apply (objective_same c W F). }
  split; split; auto.
  - intros (f & Hf). destruct (C03_check_terminates _ W') as [E|E]; auto. destruct (U E f) as (x & Hx). elim Hx. apply Hf.
  - intros H. destruct (C03_check_terminates _ W') as [E|E]; auto. destruct (R E) as (f & Hf). destruct (H f) as (x & Hx). elim Hx. apply Hf.
Qed.
Print Assumptions C55_verdict.

(** The same for --sysInitRoboticsSemantics. *)
Theorem C55_robotics : forall c, wfFS c ->
  (checkFS true c = Realizable <-> fs_realizable_robotics (game_of c) (isSlow c)) /\
  (checkFS true c = Unrealizable <-> exists s, g_initE (game_of c) s = true /\ g_initS (game_of c) s = true /\
     forall f, exists x, ~ fs_safe_and_live (game_of c) (isSlow c) (play_from (game_of c) f s x)).
Proof.
  intros c [W F]. pose proof (restr_wf c W F) as W'. rewrite (check_same c W F).
  assert (R : checkRealizabilityRobotics (restr c) = Realizable -> fs_realizable_robotics (game_of c) (isSlow c)).
  { intros E. destruct (C18_robotics_sound _ W' E) as (f & Hf). exists f. intros s x HE HS. apply (play_from_sl c W F), Hf; auto. }
  assert (U : checkRealizabilityRobotics (restr c) = Unrealizable -> exists s, g_initE (game_of c) s = true /\ g_initS (game_of c) s = true /\
     forall f, exists x, ~ fs_safe_and_live (game_of c) (isSlow c) (play_from (game_of c) f s x)).
  { intros E. destruct (C18_robotics_complete _ W' E) as (s & HE & HS & H). exists s. split; auto. split; auto.
    intros f. destruct (H f) as (x & Hx). exists x. intros O. apply Hx. now apply (play_from_sl c W F). }
  split; split; auto.
  - intros (f & Hf). destruct (C18_robotics_terminates _ W') as [E|E]; auto. destruct (U E) as (s & HE & HS & H).
    destruct (H f) as (x & Hx). elim Hx. apply Hf; auto.
  - intros (s & HE & HS & H). destruct (C18_robotics_terminates _ W') as [E|E]; auto. destruct (R E) as (f & Hf).
    destruct (H f) as (x & Hx). elim Hx. apply Hf; auto.
Qed.
Print Assumptions C55_robotics.

(** ** C55: files *)

(** Accepted files are well-formed.  The sections [OUTPUT_F] and [OUTPUT_S] take the place of
    [OUTPUT]: the content is that of the ordinary file in which they are merged, and the slow
    variables are those of the sections [OUTPUT_S]. *)
Theorem C55_accepted : forall ord content c, initFS ord content = POk c ->
  wfFS c /\ (forall k, isSlow c k = nth k (slowVars "" (file_lines content)) false) /\
  exists c', initContext ord (plainFile content) = POk c' /\
    varNames c = varNames c' /\ livenessAssumptions c = livenessAssumptions c' /\ livenessGuarantees c = livenessGuarantees c' /\
    initEnv c = initEnv c' /\ initSys c = initSys c' /\ safetyEnv c = safetyEnv c' /\ safetySys c = safetySys c' /\
    (forall k, isOut c k = isOut c' k).
Proof.
  intros ord content c E. destruct (init_slow ord content c E) as [FT HS].
  assert (NO : forall l, In l (file_lines content) -> strip l <> "[OUTPUT]").
  { intros l Hl El. unfold initFS in E. rewrite getlines_spec in E.
    destruct (processLinesFS ord (FMode MNone, emptyCtx) (file_lines content)) as [st|e| |] eqn:P; try discriminate.
    apply (output_rejected ord (file_lines content) (FMode MNone, emptyCtx)) in P; eauto. }
  destruct (init_same ord content NO) as [E' T]. rewrite E in E'. cbn [pmap] in E'. specialize (T c E).
  pose proof (C41_accepted_wf _ _ _ E') as W'. split; [|split; auto].
  - split; auto. now apply plain_wf.
  - exists (plainCtx c). split; auto. repeat (split; [reflexivity|]). intros k. symmetry. now apply plain_isOut.
Qed.
Print Assumptions C55_accepted.

(** A file is accepted iff the ordinary one is, and [OUTPUT] is an unknown section. *)
Theorem C55_accepts : forall ord content,
  (exists c, initFS ord content = POk c) <->
  (exists c', initContext ord (plainFile content) = POk c') /\ (forall l, In l (file_lines content) -> strip l <> "[OUTPUT]").
Proof.
  intros ord content. split.
  - intros (c & E). split; [destruct (C55_accepted ord content c E) as (_ & _ & c' & E' & _); eauto|].
    intros l Hl El. unfold initFS in E. rewrite getlines_spec in E.
    destruct (processLinesFS ord (FMode MNone, emptyCtx) (file_lines content)) as [st|e| |] eqn:P; try discriminate.
    apply (output_rejected ord (file_lines content) (FMode MNone, emptyCtx)) in P; eauto.
  - intros ((c' & E') & NO). destruct (init_same ord content NO) as [E _]. rewrite E' in E.
    destruct (initFS ord content) as [c|e| |]; try discriminate. eauto.
Qed.
Print Assumptions C55_accepts.

(** From the text of a file to the verdict. *)
Definition executeFS (ord : nat -> bool) (content : string) : pres verdict := pbind (initFS ord content) (fun c => POk (checkFS false c)).

Lemma obj_gen c pi : wfFS c -> objective (game_of (restr c)) pi <-> fs_objective (game_of c) (isSlow c) pi.
Proof.
  intros [W F]. unfold objective, fs_objective. now rewrite (sl_same c W F).
Qed.

Lemma obj_split g slow pi : fs_objective g slow pi <->
  objective g pi /\ (g_initE g (pi 0) = true -> forall n, (forall m, m <= n -> g_safeE g (pi m) (pi (S m)) = true) ->
    admissible g (between slow (pi n) (pi (S n)))).
Proof.
  unfold fs_objective, objective, fs_safe_and_live, safe_and_live, fs_step. split.
  - intros H. split.
    + intros HI. destruct (H HI) as (H1 & H2 & H3). split; auto. split; auto. intros n Hn. now apply H2.
    + intros HI n Hn. destruct (H HI) as (H1 & H2 & H3). now apply H2.
  - intros [H HA] HI. destruct (H HI) as (H1 & H2 & H3). split; [auto|]. split; [|auto]. intros n Hn. split; auto.
Qed.

Lemma admissible_ext c q q' : wf c -> (forall k, q k = q' k) -> admissible (game_of c) q -> admissible (game_of c) q'.
Proof.
  intros W E [(t & Ht) (s & Hs)]. cbn [game_of g_safeS] in *. pose proof (wf_kinds c W) as Hk. pose proof (wf_safetySys c W) as D.
  split; [exists t|exists s]; cbn [game_of g_safeS]; [rewrite <- Ht|rewrite <- Hs]; apply (trans_ext c Hk); auto.
Qed.

Lemma slow_ext c slow pi : wf c -> (forall k, slow k = isSlow c k) -> fs_objective (game_of c) slow pi <-> fs_objective (game_of c) (isSlow c) pi.
Proof.
  intros W E. rewrite !obj_split. split; intros [H HA]; split; auto; intros HI n Hn.
  - apply (admissible_ext c (between slow (pi n) (pi (S n)))); auto. intros k. unfold between. now rewrite E.
  - apply (admissible_ext c (between (isSlow c) (pi n) (pi (S n)))); auto. intros k. unfold between. now rewrite E.
Qed.

Lemma file_admissible L bs fs q : (forall s, formulaSection s = true -> Forall2 sameFun (bs s) (fs s)) ->
  admissible (game_of (finalContext L bs)) q <-> admissible (file_game L fs) q.
Proof.
  intros Hs. assert (ST : forall s t, trans (bandAll (bs SSysTrans)) s t = forallb (fun f => holds f (valuation s t)) (fs SSysTrans))
    by (intros; apply bandAll_holds; auto).
  unfold admissible. cbn [game_of file_game g_safeS finalContext safetySys].
  split; intros [(t & H1) (s & H2)]; (split; [exists t|exists s]); first [rewrite <- ST; assumption|rewrite ST; assumption].
Qed.
Lemma file_fs L bs fs slow pi : (forall s, formulaSection s = true -> Forall2 sameFun (bs s) (fs s)) ->
  fs_objective (game_of (finalContext L bs)) slow pi <-> fs_objective (file_game L fs) slow pi.
Proof.
  intros Hs. rewrite !obj_split, (file_objective L bs fs Hs).
  assert (EI : forall s, g_initE (game_of (finalContext L bs)) s = g_initE (file_game L fs) s) by (intros; apply bandAll_holds; auto).
  assert (ET : forall s t, g_safeE (game_of (finalContext L bs)) s t = g_safeE (file_game L fs) s t) by (intros; apply bandAll_holds; auto).
  split; intros [H HA]; (split; [exact H|]); intros HI n Hn; apply (file_admissible L bs fs _ Hs), HA.
  - now rewrite EI.
  - intros m Hm. rewrite ET. auto.
  - now rewrite <- EI.
  - intros m Hm. rewrite <- ET. auto.
Qed.

Theorem C55_file : forall ord content c L,
  initFS ord content = POk c -> layout None (map plainLine (file_lines content)) = Some L -> plain_file L ->
  let slow k := nth k (slowVars "" (file_lines content)) false in
  exists fs, formulas_of true L fs /\
  ((executeFS ord content = POk Realizable /\ fs_realizable (file_game L fs) slow) \/
   (executeFS ord content = POk Unrealizable /\
    forall f, exists x, ~ fs_objective (file_game L fs) slow (play (file_game L fs) f x))).
Proof.
  intros ord content c L E El PF slow.
  destruct (C55_accepted ord content c E) as ((W & F) & HS & _).
  assert (NO : forall l, In l (file_lines content) -> strip l <> "[OUTPUT]") by (apply (C55_accepts ord content); eauto).
  destruct (init_same ord content NO) as [E' T]. rewrite E in E'. cbn [pmap] in E'. specialize (T c E).
  destruct (initContext_inv _ _ _ E') as (L0 & bs & El0 & ND & HV & Ec). rewrite plainFile_lines, El in El0. injection El0 as <-.
  destruct (values_formulas ord L bs ND PF HV) as (fs & HF & HSF). exists fs. split; auto.
  pose proof (restr_wf c W F) as W'.
  assert (OUT : forall k, g_out (game_of c) k = g_out (file_game L fs) k).
  { intros k. rewrite <- (file_out L bs fs). cbn [game_of g_out]. rewrite <- Ec. symmetry. now apply plain_isOut. }
  assert (OBJ : forall pi, fs_objective (file_game L fs) slow pi <-> objective (game_of (restr c)) pi).
  { intros pi. rewrite <- (file_fs L bs fs slow pi HSF), <- Ec, (obj_gen c pi (conj W F)), <- (slow_ext c slow pi W).
    - reflexivity.
    - intros k. symmetry. apply HS. }
  unfold executeFS. rewrite E. cbn [pbind]. rewrite (check_same c W F).
  destruct (check_cases _ W') as [[V R]|[V R]]; rewrite V; [left|right]; split; auto.
  - destruct R as (f & Hf). destruct (strategy_transfer (game_of (restr c)) (file_game L fs) (nvars c) OUT f) as (f' & Hf').
    exists f'. intros x. destruct (Hf' x) as (x' & A). apply OBJ. apply (objective_agree (restr c) W' _ _ A). apply Hf.
  - intros f. destruct (strategy_transfer (file_game L fs) (game_of (restr c)) (nvars c) (fun k => eq_sym (OUT k)) f) as (f' & Hf').
    destruct (R f') as (x & Hx). destruct (Hf' x) as (x' & A). exists x'. intros O. apply Hx.
    apply (objective_agree (restr c) W' _ _ A). now apply OBJ.
Qed.
Print Assumptions C55_file.

(** ** Examples and a limit *)

(** A robot raises its camera (fast) and drives (slow).  In the second file, the camera must be up
    exactly while driving, so that the position between is not admissible. *)
Definition fsBase : string :=
  "[INPUT]" ++ nl ++ "go" ++ nl ++ "[OUTPUT_F]" ++ nl ++ "cam" ++ nl ++ "[OUTPUT_S]" ++ nl ++ "drive" ++ nl ++
  "[SYS_INIT]" ++ nl ++ "& ! cam ! drive" ++ nl ++ "[ENV_LIVENESS]" ++ nl ++ "go" ++ nl ++ "! go" ++ nl ++
  "[SYS_LIVENESS]" ++ nl ++ "drive" ++ nl ++ "! drive" ++ nl ++ "[SYS_TRANS]" ++ nl.
Definition fsFileR : string := fsBase ++ "| ! drive' cam'" ++ nl.
Definition fsFileU : string := fsBase ++ "! ^ drive' cam'" ++ nl.

Example C55_example : executeFS exOrd fsFileR = POk Realizable /\ executeFS exOrd fsFileU = POk Unrealizable /\
  pbind (initFS exOrd fsFileU) (fun c => POk (checkRealizability c)) = POk Realizable /\
  slowVars "" (file_lines fsFileR) = [false; false; true] /\
  isOk (initFS exOrd (fsFileR ++ "[OUTPUT]")) = false.
Proof. vm_compute. repeat split. Qed.
Example C55_file_example : exists c L, initFS exOrd fsFileR = POk c /\ layout None (map plainLine (file_lines fsFileR)) = Some L /\ plain_file L.
Proof.
  destruct (initFS exOrd fsFileR) as [c|e| |] eqn:E; try (vm_compute in E; discriminate).
  exists c. eexists. split; auto. split; [vm_compute; reflexivity|]. intros s line Hs Hin. cbn [In] in Hin.
  repeat match goal with H : _ \/ _ |- _ => destruct H as [H|H] end; try contradiction;
    injection Hin as <- <-; try discriminate; apply plain_dec; reflexivity.
Qed.

(** The step into the position between need not be a permitted one: there is a specification that is
    reported to be realizable in which every play of a winning strategy begins with a step whose fast
    part alone is forbidden. *)
Definition fsFileS : string :=
  "[OUTPUT_F]" ++ nl ++ "f" ++ nl ++ "[OUTPUT_S]" ++ nl ++ "m" ++ nl ++ "[SYS_INIT]" ++ nl ++ "& ! f ! m" ++ nl ++
  "[SYS_TRANS]" ++ nl ++ "& f' | m' | f m" ++ nl.
Theorem C55_between_step_refuted : exists ord content c, initFS ord content = POk c /\ checkFS false c = Realizable /\
  forall f x, let pi := play (game_of c) f x in fs_objective (game_of c) (isSlow c) pi ->
    g_safeS (game_of c) (pi 0) (between (isSlow c) (pi 0) (pi 1)) = false.
Proof.
  exists exOrd, fsFileS. destruct (initFS exOrd fsFileS) as [c|e| |] eqn:E; try (vm_compute in E; discriminate).
  exists c. split; auto.
  assert (match initFS exOrd fsFileS with
          | POk c => checkFS false c = Realizable /\ isSlow c 0 = false /\ isSlow c 1 = true /\
              bf_eqb (initEnv c) btrue = true /\ bf_eqb (initSys c) (band (bnot (bvar 0)) (bnot (bvar 2))) = true /\
              bf_eqb (safetyEnv c) btrue = true /\ bf_eqb (safetySys c) (band (bvar 1) (bor (bvar 3) (bor (bvar 0) (bvar 2)))) = true
          | _ => True end) as X by (vm_compute; repeat split).
  rewrite E in X. destruct X as (X1 & X2 & X3 & X4 & X5 & X6 & X7). apply bf_eqb_eq in X4, X5, X6, X7. split; auto.
  intros f x pi [HI [HS _]]. { cbn. now rewrite X4. }
  cbn [game_of g_initS g_safeE g_safeS] in *. rewrite X5 in HI. rewrite X7 in *. unfold pos, trans in HI |- *.
  assert (F : fs_step (game_of c) (isSlow c) (pi 0) (pi 1)).
  { apply HS. intros m _. rewrite X6. reflexivity. }
  destruct F as [F _]. cbn [game_of g_safeS] in F. rewrite X7 in F. unfold trans in F.
  rewrite eval_and, !eval_not, !eval_var in HI. rewrite eval_and, !eval_or, !eval_var in *.
  unfold between, tv in *. cbn [Nat.even Nat.div2] in *. clearbody pi.
  rewrite X2, X3. destruct (pi 0 0); try discriminate HI. destruct (pi 0 1); try discriminate HI. cbn. apply andb_false_r.
Qed.
Print Assumptions C55_between_step_refuted.

(** ** C56: explicit strategies *)

Definition automatonFS (robotics recovery : bool) (c : ctx) : option (list node) :=
  match computeExplicitFS robotics recovery c with
  | Some (Realizable, out) => Some (map fst out)
  | _ => None
  end.
Lemma automaton_same robotics recovery c : wfFS c -> automatonFS robotics recovery c = automaton Basic robotics recovery (restr c).
Proof. intros [W F]. unfold automatonFS, automaton. now rewrite (explicit_same c W F). Qed.

(** A strategy is printed iff the verdict is positive. *)
Theorem C56_terminates : forall robotics recovery c, wfFS c ->
  (checkFS robotics c = Realizable -> exists A, automatonFS robotics recovery c = Some A) /\
  (checkFS robotics c = Unrealizable -> computeExplicitFS robotics recovery c = Some (Unrealizable, [])).
Proof.
  intros robotics recovery c W. rewrite (automaton_same robotics recovery c W). destruct W as [W F].
  rewrite (explicit_same c W F), (check_same c W F). apply (C16_terminates Basic robotics recovery (restr c) (restr_wf c W F)).
Qed.
Print Assumptions C56_terminates.

(** There is a suitable initial state for every initial input, and with --sysInitRoboticsSemantics for every initial position. *)
Theorem C56_initial : forall recovery c, wfFS c ->
  (forall A, automatonFS false recovery c = Some A -> forall s, g_initE (game_of c) s = true ->
     exists v, In v A /\ same_in (game_of c) (nvars c) (val v) s /\
       g_initE (game_of c) (val v) = true /\ g_initS (game_of c) (val v) = true /\ fs_winning (game_of c) (isSlow c) (val v)) /\
  (forall A, automatonFS true recovery c = Some A -> forall s, g_initE (game_of c) s = true -> g_initS (game_of c) s = true ->
     exists v, In v A /\ same (nvars c) (val v) s).
Proof.
  intros recovery c W. split; intros A E; rewrite automaton_same in E by auto; destruct W as [W F]; pose proof (restr_wf c W F) as W'.
  - intros s Hs. destruct (C13_initial_inputs Basic recovery (restr c) A W' E s Hs) as (v & H1 & _ & H2 & H3 & H4 & H5).
    exists v. split; auto. split; auto. split; auto. split; auto. now apply (winning_same c W F).
  - intros s H1 H2. destruct (C13_robotics Basic recovery (restr c) A W' E s H1 H2) as (v & Hv & _ & Hs). eauto.
Qed.
Print Assumptions C56_initial.

(** In every state, there is exactly one successor for every permitted next input.  All edges are permitted
    steps through admissible positions. *)
Theorem C56_steps : forall robotics recovery c A, wfFS c -> automatonFS robotics recovery c = Some A ->
  (forall v x, In v A -> g_safeE (game_of c) (val v) x = true ->
     exists u, edge A v u /\ same_in (game_of c) (nvars c) (val u) x /\
       forall u', edge A v u' -> same_in (game_of c) (nvars c) (val u') x -> u' = u) /\
  (forall v u, edge A v u -> fs_step (game_of c) (isSlow c) (val v) (val u) /\
     (recovery = false -> g_safeE (game_of c) (val v) (val u) = true)).
Proof.
  intros robotics recovery c A W E. rewrite automaton_same in E by auto. destruct W as [W F]. pose proof (restr_wf c W F) as W'. split.
  - exact (C14_input_complete Basic robotics recovery (restr c) A W' E).
  - intros v u Hv. destruct (proj1 (C14_safe_deterministic Basic robotics recovery (restr c) A W' E) v u Hv) as [H1 H2].
    split; auto. now apply (newSafety_spec c W F).
Qed.
Print Assumptions C56_steps.

(** All infinite paths that start in permitted positions fulfil the specification. *)
Theorem C56_correct : forall robotics c A, wfFS c -> automatonFS robotics false c = Some A ->
  forall p, path A p -> g_initS (game_of c) (val (p 0)) = true -> fs_objective (game_of c) (isSlow c) (positions p).
Proof.
  intros robotics c A W E p HP HI. pose proof W as WF. rewrite automaton_same in E by auto. destruct W as [W F].
  apply (obj_gen c (positions p) WF). apply (C15_correct Basic robotics (restr c) A (restr_wf c W F) E p HP HI).
Qed.
Print Assumptions C56_correct.

Example C56_example : exists c A, initFS exOrd fsFileR = POk c /\ automatonFS false false c = Some A /\ 5 <= List.length A.
Proof.
  destruct (initFS exOrd fsFileR) as [c|e| |] eqn:E; try (vm_compute in E; discriminate). exists c.
  assert (X : match initFS exOrd fsFileR with POk c => match automatonFS false false c with Some A => Nat.leb 5 (List.length A) = true | None => False end | _ => True end)
    by (vm_compute; reflexivity).
  rewrite E in X. destruct (automatonFS false false c) as [A|]; [|contradiction]. exists A. split; auto. split; auto. now apply Nat.leb_le.
Qed.
