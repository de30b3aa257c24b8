(** * C60-C62: abstract winning traces *)

From Coq Require Import String Arith List Bool Lia.
From Verif Require Import BDD Loop Spec VarTypes Synth Sem FixBase SynthProofs Verdict Parser FileSpec FileProofs
  DetProofs Interact InteractSpec InteractProofs PropsSynth PropsParser PropsInteract ShellSpec ShellProofs ShellMarks
  TraceSpec Trace TraceProofs.
Import ListNotations.
Local Open Scope list_scope.

(** The table for the environment (or the system) in the output for a file. *)
Definition resultOf (content : string) (env : bool) : option traceResult :=
  match initContext exOrd content with POk c => traceOf c env | _ => None end.

(** Names and sizes: a row for every variable, inputs first. *)
Definition shaped (c : ctx) (t : table) : Prop :=
  t_names t = map (fun k => nth (2 * k) (varNames c) ""%string) (shellVars c) /\
  Forall (fun col => length col = length (shellVars c)) (t_columns t).
Lemma tableOf_shaped c ds : wf c -> shaped c (tableOf c ds).
Proof.
  intros W. split.
  - unfold tableOf. cbn [t_names]. now rewrite (rowVars_shell c W), map_map.
  - unfold tableOf. cbn [t_columns]. apply Forall_forall. intros col Hin. apply in_map_iff in Hin. destruct Hin as (d & <- & _).
    now rewrite map_length, (rowVars_shell c W), map_length.
Qed.
Lemma length_columns c ds : length (t_columns (tableOf c ds)) = length ds.
Proof. unfold tableOf. cbn [t_columns]. now rewrite map_length, rev_length. Qed.

(** ** C60: the other player cannot escape from the printed trace *)

(** The countertrace has a column for each of the rounds 0, ..., K, and the environment can enforce it. *)
Theorem C60_countertrace : forall c t, wf c -> traceOf c true = Some (Table t) ->
  shaped c t /\ exists K, 1 <= K /\ length (t_columns t) = S K /\ countertrace (game_of c) (shellVars c) K (t_columns t).
Proof.
  intros c t W E. destruct (traceOf_spec c W true) as (r & Er & H). rewrite Er in E. injection E as ->.
  destruct H as (K & l & ds & HK & _ & _ & PE & PS & _ & HS & _ & ->). split; [now apply tableOf_shaped|].
  exists K. split; auto. split; [rewrite length_columns, length_lastInput; apply HS|]. now apply (environment_trace c W K l).
Qed.
Print Assumptions C60_countertrace.

(** The same for the system. *)
Theorem C60_trace : forall c t, wf c -> traceOf c false = Some (Table t) ->
  shaped c t /\ exists K, 1 <= K /\ length (t_columns t) = S K /\ systemtrace (game_of c) (shellVars c) K (t_columns t).
Proof.
  intros c t W E. destruct (traceOf_spec c W false) as (r & Er & H). rewrite Er in E. injection E as ->.
  destruct H as (K & l & ds & HK & _ & _ & PE & PS & _ & HS & _ & ->). split; [now apply tableOf_shaped|].
  exists K. split; auto. split.
  - rewrite length_columns. unfold lastInput. rewrite andb_false_r. apply HS.
  - now apply (system_trace c W K l).
Qed.
Print Assumptions C60_trace.

(** What is printed: the first table is the trace of the environment, the second one that of the
    system. *)
Theorem C60_tables : forall c counter trace, wf c -> abstractTraces c = Some (counter, trace) ->
  (forall t, counter = Table t ->
     shaped c t /\ exists K, 1 <= K /\ length (t_columns t) = S K /\ countertrace (game_of c) (shellVars c) K (t_columns t)) /\
  (forall t, trace = Table t ->
     shaped c t /\ exists K, 1 <= K /\ length (t_columns t) = S K /\ systemtrace (game_of c) (shellVars c) K (t_columns t)).
Proof.
  intros c counter trace W. unfold abstractTraces. destruct (traceOf c true) as [a|] eqn:E1; [|discriminate].
  destruct (traceOf c false) as [b|] eqn:E2; [|discriminate]. intros X. injection X as -> ->. split; intros t ->.
  - now apply C60_countertrace.
  - now apply C60_trace.
Qed.
Print Assumptions C60_tables.

(** Examples: a has to be given twice; the system leaves no next input to the environment. *)
Example C60_countertrace_example : resultOf envFile true = Some (Table (mkTable ["a"; "b"; "c"]%string
  [[Zero; Zero; Zero]; [One; Zero; Zero]; [One; One; Zero]; [One; One; One]; [Zero; Any; Any]])).
Proof. vm_compute. reflexivity. Qed.
Example C60_trace_example : resultOf sysFile false = Some (Table (mkTable ["a"; "b"; "c"]%string
  [[Zero; Zero; Zero]; [Any; One; Zero]; [One; One; One]; [Never; Never; Never]])).
Proof. vm_compute. reflexivity. Qed.
Lemma file_wf content r : (exists c, initContext exOrd content = POk c /\ r c) -> exists c, wf c /\ r c.
Proof. intros (c & E & H). exists c. split; auto. eapply C41_accepted_wf; eauto. Qed.
Lemma resultOf_ex content env r : resultOf content env = Some r -> exists c, initContext exOrd content = POk c /\ traceOf c env = Some r.
Proof. unfold resultOf. destruct (initContext exOrd content) as [c|e| |]; try discriminate. eauto. Qed.
Example C60_hypotheses : exists c t c' t', wf c /\ traceOf c true = Some (Table t) /\ wf c' /\ traceOf c' false = Some (Table t').
Proof.
  destruct (file_wf _ _ (resultOf_ex _ _ _ C60_countertrace_example)) as (c & W & E).
  destruct (file_wf _ _ (resultOf_ex _ _ _ C60_trace_example)) as (c' & W' & E'). eauto 10.
Qed.
Example C60_tables_example : exists c t trace, wf c /\ abstractTraces c = Some (Table t, trace) /\ length (t_columns t) = 5 /\
  exists K, 1 <= K /\ 5 = S K /\ countertrace (game_of c) (shellVars c) K (t_columns t).
Proof.
  destruct (initContext exOrd envFile) as [c|e| |] eqn:E; try (vm_compute in E; discriminate). pose proof (C41_accepted_wf _ _ _ E) as W.
  assert (X : match initContext exOrd envFile with POk c => match abstractTraces c with Some (Table t, _) => length (t_columns t) = 5 | _ => False end | _ => True end) by (vm_compute; reflexivity).
  rewrite E in X. destruct (abstractTraces c) as [[counter trace]|] eqn:A; [|contradiction]. destruct counter as [| |t]; try contradiction. exists c, t, trace. split; [exact W|]. split; [exact A|]. split; [exact X|].
  destruct (C60_tables c (Table t) trace W A) as [H _]. destruct (H t eq_refl) as (_ & K & H1 & H2 & H3). exists K. rewrite <- X. auto.
Qed.

(** ** C61: when the traces are printed *)

(** The system's trace is printed iff some initial input is permitted and the system can
    for each of them choose a permitted initial output from which it can make the environment violate
    its safety assumptions within a bounded number of steps; the number of rounds is the least such bound.
    The message that there is no strategy from an initial position is printed iff no initial input is permitted. *)
Theorem C61_trace : forall c, wf c -> let g := game_of c in exists r, traceOf c false = Some r /\
  match r with
  | Table t => (exists s, g_initE g s = true) /\ exists K, length (t_columns t) = S K /\ least (sys_wins_within g) K
  | NoStrategy => forall s, g_initE g s = false
  | Nothing => (exists s, g_initE g s = true) /\ forall k, ~ sys_wins_within g k
  end.
Proof.
  intros c W g. destruct (traceOf_spec c W false) as (r & Er & H). exists r. split; auto.
  assert (IE : forall x y, g_initE g (merge g x y) = g_initE g x).
  { intros x y. cbn [g game_of g_initE]. change (pos (initEnv c) (mrg c x y) = pos (initEnv c) x).
    rewrite (preIn_merge c (initEnv c) x y x) by apply (wf_initEnv c W). apply eval_ext. intros v.
    unfold tv, mrg. destruct (Nat.even v); now destruct (isOut c _). }
  destruct r as [| |t].
  - assert (NW : forall k, ~ sys_wins_within g k).
    { intros k HW. assert (H1 : sys_wins_within g (S k)).
      { intros x. destruct (HW x) as (y & Hy). exists y. intros HE. destruct (Hy HE) as [H1 (f & Hf)]. split; auto.
        exists f. intros xs. destruct (Hf xs) as (m & Hm & Hx). exists m. split; [lia|auto]. }
      apply (sysInit_wins c W) in H1. rewrite H in H1 by lia. discriminate. }
    split; auto. destruct (InteractProofs.exv (nvars c) (g_initE g)) eqn:EX.
    + apply InteractProofs.exv_spec in EX; auto. intros x y Hxy. apply (pos_ext c (wf_kinds c W)); auto. apply (initEnv_pre c W).
    + exfalso. apply (NW 0). intros x. exists x. intros HE. rewrite IE in HE.
      rewrite (InteractProofs.exv_false (nvars c) (g_initE g)) in HE; auto; [discriminate|].
      intros x' y Hxy. apply (pos_ext c (wf_kinds c W)); auto. apply (initEnv_pre c W).
  - destruct H as (k & Hk & H1 & _ & H2). apply (sysInit_wins c W) in H1. intros s.
    destruct (g_initE g s) eqn:E; auto. exfalso. destruct (H1 s) as (y & Hy). fold g in Hy. rewrite IE in Hy. destruct (Hy E) as [H3 H4].
    apply (sys_falsifies_spec c c W (extends_refl c W)) in H4. rewrite <- (W_sys c false k eq_refl) in H4.
    rewrite H2 in H4; [discriminate| |exact H3]. change (g_initE g (merge g s y) = true). now rewrite IE.
  - destruct H as (K & l & ds & HK & H1 & H2 & PE & _ & _ & HS & _ & ->). split; [now exists (ofVec l)|]. exists K. split.
    + rewrite length_columns. unfold lastInput. rewrite andb_false_r. apply HS.
    + split; auto. split; [now apply (sysInit_wins c W)|]. intros j Hj F. apply (sysInit_wins c W) in F. rewrite H2 in F by auto. discriminate.
Qed.
Print Assumptions C61_trace.

(** The full statement for the environment is: the countertrace is printed iff the environment
    has a permitted initial input from which it can make the system violate its safety
    guarantees within a bounded number of steps, whatever permitted initial output the system picks, and such an output exists.
    It is false, see below.  It holds if the initial guarantees leave an output for every input: then the
    countertrace is printed iff the specification without liveness properties is unrealizable. *)
Theorem C61_countertrace_partial : forall c, wf c -> let g := game_of c in
  (forall x, exists y, g_initS g (merge g x y) = true) ->
  exists r, traceOf c true = Some r /\
  match r with
  | Table t => ~ realizable (only g true false true false) /\ exists K, length (t_columns t) = S K /\ least (env_wins_within g) K
  | NoStrategy => False
  | Nothing => realizable (only g true false true false) /\ forall k, ~ env_wins_within g k
  end.
Proof.
  intros c W g HX. destruct (traceOf_spec c W true) as (r & Er & H). exists r. split; auto.
  assert (IE : forall x y, g_initE g (merge g x y) = g_initE g x).
  { intros x y. cbn [g game_of g_initE]. change (pos (initEnv c) (mrg c x y) = pos (initEnv c) x).
    rewrite (preIn_merge c (initEnv c) x y x) by apply (wf_initEnv c W). apply eval_ext. intros v.
    unfold tv, mrg. destruct (Nat.even v); now destruct (isOut c _). }
  assert (EQ : forall j, initOf c true (TraceProofs.W c true j) = true <-> env_wins_within g j).
  { intros j. rewrite (envInit_code c W j). split.
    - intros (x & Hx). exists x. destruct (HX x) as (y0 & Hy0). destruct (Hx y0 Hy0) as [HE _]. fold g in HE. rewrite IE in HE.
      split; [intros y; now rewrite IE|]. intros y HS. now apply Hx.
    - intros (x & HE & Hx). exists x. intros y HS. split; auto. }
  assert (RZ : (exists k, env_wins_within g k) -> ~ realizable (only g true false true false)).
  { intros (k & Hw). destruct (interaction_spec c W) as (ia & Ei & _). pose proof (C30_environment c ia W Ei) as C.
    destruct (ia_falsify ia); try tauto; destruct C as [_ C]; elim (C k Hw). }
  assert (NR : (forall k, ~ env_wins_within g k) -> realizable (only g true false true false)).
  { intros Hw. destruct (interaction_spec c W) as (ia & Ei & _). pose proof (C30_environment c ia W Ei) as C.
    destruct (ia_falsify ia); try tauto. destruct C as [_ (k & C)]. elim (Hw k C). }
  destruct r as [| |t].
  - assert (NW : forall k, ~ env_wins_within g k).
    { intros k (x & HE & HF). assert (H1 : env_wins_within g (S k)).
      { exists x. split; auto. intros y HS f. destruct (HF y HS f) as (xs & m & Hm & R). exists xs, m. split; [lia|auto]. }
      apply EQ in H1. rewrite H in H1 by lia. discriminate. }
    split; auto.
  - destruct H as (k & Hk & H1 & _ & H2). apply EQ in H1. destruct H1 as (x & HE & HF). destruct (HX x) as (y & Hy).
    specialize (HF y Hy). apply (env_falsifies_spec c c W (extends_refl c W)) in HF. rewrite <- (W_env c true k eq_refl) in HF.
    specialize (H2 (merge g x y) (HE y) Hy). congruence.
  - destruct H as (K & l & ds & HK & H1 & H2 & PE & _ & _ & HS & _ & ->). apply EQ in H1. split; [eauto|]. exists K. split.
    + rewrite length_columns, length_lastInput. apply HS.
    + split; auto. split; auto. intros j Hj F. apply EQ in F. rewrite H2 in F by auto. discriminate.
Qed.
Print Assumptions C61_countertrace_partial.

(** Otherwise a countertrace may be printed although the specification is realizable, because
    an initial input that is not permitted counts if it leaves no permitted initial output.  Here, the
    trace starts with y = 0 although the system can choose y = 1. *)
Definition pickFile : string :=
  ("[INPUT]" ++ nl ++ "x" ++ nl ++ "[OUTPUT]" ++ nl ++ "y" ++ nl ++
   "[ENV_INIT]" ++ nl ++ "x" ++ nl ++ "[SYS_INIT]" ++ nl ++ "x" ++ nl ++ "[SYS_TRANS]" ++ nl ++ "y" ++ nl)%string.
Theorem C61_countertrace_refuted : exists ord content c t,
  initContext ord content = POk c /\ traceOf c true = Some (Table t) /\ realizable (game_of c).
Proof.
  destruct (initContext exOrd pickFile) as [c|e| |] eqn:E; try (vm_compute in E; discriminate).
  assert (match initContext exOrd pickFile with
          | POk c => traceOf c true = Some (Table (mkTable ["x"; "y"]%string [[One; Zero]; [Zero; Any]]))
          | _ => True end) as X by (vm_compute; reflexivity).
  rewrite E in X. exists exOrd, pickFile, c. eexists. split; [exact E|]. split; [exact X|]. clear X.
  assert (match initContext exOrd pickFile with
          | POk c => eqbs ([initEnv c; initSys c; safetyEnv c; safetySys c] ++ livenessGuarantees c) [bvar 0; bvar 0; btrue; bvar 2; btrue] = true /\
                     isOut c 0 = false /\ isOut c 1 = true
          | _ => True end) as Y by (vm_compute; repeat split).
  rewrite E in Y. destruct Y as (Y & O0 & O1). apply eqbs_eq in Y. injection Y as Y1 Y2 Y3 Y4 Y5.
  exists (fun _ _ _ => true). intros x. set (pi := play (game_of c) (fun _ _ _ => true) x).
  assert (P1 : forall k, pi k 1 = true).
  { intros [|k]; unfold pi, play; cbn [history hd]; unfold merge; cbn [g_out game_of]; now rewrite O1. }
  intros HE. split; [|split].
  - cbn [game_of g_initE g_initS] in *. rewrite Y1 in HE. rewrite Y2. exact HE.
  - intros m _. cbn [game_of g_safeS]. rewrite Y4. unfold trans. rewrite eval_var. apply (P1 m).
  - intros _ _ p Hp. cbn [game_of g_liveG] in Hp. rewrite Y5 in Hp. destruct Hp as [<-|[]]. intros m. exists m. split; auto.
Qed.
Print Assumptions C61_countertrace_refuted.

(** And the message that the environment has no strategy from an initial position may be printed although it
    can enforce a violation within two steps, whatever the system does: the search stops too early for the same reason. *)
Theorem C61_message_refuted : exists ord content c,
  initContext ord content = POk c /\ traceOf c true = Some NoStrategy /\
  env_wins_within (game_of c) 2 /\ exists s, g_initE (game_of c) s = true /\ g_initS (game_of c) s = true.
Proof.
  destruct (initContext exOrd stepsFile) as [c|e| |] eqn:E; try (vm_compute in E; discriminate).
  assert (match initContext exOrd stepsFile with
          | POk c => traceOf c true = Some NoStrategy
          | _ => True end) as X by (vm_compute; reflexivity).
  rewrite E in X. exists exOrd, stepsFile, c. split; [exact E|]. split; [exact X|]. clear X.
  assert (match initContext exOrd stepsFile with
          | POk c => eqbs [initEnv c; initSys c; safetyEnv c; safetySys c] [bnot (bvar 0); bnot (bvar 0); btrue; bnot (bvar 0)] = true /\
                     isOut c 0 = false
          | _ => True end) as Y by (vm_compute; repeat split).
  rewrite E in Y. destruct Y as [Y Y5]. apply eqbs_eq in Y. injection Y as Y1 Y2 Y3 Y4.
  assert (IE : forall s, g_initE (game_of c) s = negb (s 0)).
  { intros s. cbn [game_of g_initE]. rewrite Y1. unfold pos. rewrite eval_not, eval_var. reflexivity. }
  assert (IS : forall s, g_initS (game_of c) s = negb (s 0)).
  { intros s. cbn [game_of g_initS]. rewrite Y2. unfold pos. rewrite eval_not, eval_var. reflexivity. }
  assert (SS : forall s t, g_safeS (game_of c) s t = negb (s 0)).
  { intros s t. cbn [game_of g_safeS]. rewrite Y4. unfold trans. rewrite eval_not, eval_var. reflexivity. }
  assert (SE : forall s t, g_safeE (game_of c) s t = true).
  { intros s t. cbn [game_of g_safeE]. rewrite Y3. unfold trans. apply eval_true. }
  assert (MG : forall x y, merge (game_of c) x y 0 = x 0).
  { intros x y. unfold merge. cbn [g_out game_of]. now rewrite Y5. }
  split.
  - exists (fun _ => false). split; [intros y; now rewrite IE, MG|]. intros y _ f. exists (fun _ _ => true), 1. split; [lia|]. split; auto.
    rewrite SS, play_from_S, MG. reflexivity.
  - exists (fun _ => false). now rewrite IE, IS.
Qed.
Print Assumptions C61_message_refuted.

Example C61_examples : resultOf envFile false = Some Nothing /\ resultOf sysFile true = Some Nothing /\
  resultOf ("[INPUT]" ++ nl ++ "x" ++ nl ++ "[OUTPUT]" ++ nl ++ "y" ++ nl ++ "[ENV_INIT]" ++ nl ++ "0" ++ nl) false = Some NoStrategy.
Proof. vm_compute. auto. Qed.
(** A file for which the hypothesis of C61_countertrace_partial holds. *)
Example C61_hypothesis : exists c t, wf c /\ traceOf c true = Some (Table t) /\
  forall x, exists y, g_initS (game_of c) (merge (game_of c) x y) = true.
Proof.
  destruct (resultOf_ex _ _ _ C60_countertrace_example) as (c & E & H). exists c. eexists. split; [eapply C41_accepted_wf; exact E|].
  split; [exact H|]. clear H. intros x. exists (fun _ => false).
  assert (match initContext exOrd envFile with
          | POk c => eqbs [initSys c] [band (bnot (bvar 2)) (bnot (bvar 4))] = true /\ isOut c 1 = true /\ isOut c 2 = true
          | _ => True end) as Y by (vm_compute; repeat split).
  rewrite E in Y. destruct Y as (Y & O1 & O2). apply eqbs_eq in Y. injection Y as Y1.
  cbn [game_of g_initS]. rewrite Y1. unfold pos. rewrite eval_and, !eval_not, !eval_var. unfold tv, merge. cbn [Nat.even Nat.div2 g_out game_of].
  now rewrite O1, O2.
Qed.

(** ** C62: the traces are as concrete as possible *)

(** The positions of a column are those it describes from which the player can win in the remaining number of
    rounds.  From every position of a column, the environment can enforce a position of the
    next column (or win at once), but this is no longer the case if a "*" in the next column is replaced
    by "0" or "1".  (The last column is not a set of positions of this kind.) *)
Theorem C62_countertrace : forall c t K j, wf c -> traceOf c true = Some (Table t) -> length (t_columns t) = S K -> S j < K ->
  let g := game_of c in
  let D := fun j s => env_falsifies g (K - j) s /\ describes (shellVars c) (columnOf (t_columns t) j) s in
  (forall s, D j s -> env_forces g (D (S j)) s) /\
  (forall k b, entry (shellVars c) (columnOf (t_columns t) (S j)) k Any ->
     ~ forall s, D j s -> env_forces g (fun t => D (S j) t /\ t k = b) s).
Proof.
  intros c t K j W E HL Hj. destruct (traceOf_spec c W true) as (r & Er & H). rewrite Er in E. injection E as ->.
  destruct H as (K' & l & ds & HK & _ & _ & _ & _ & PW & HS & HF & ->). rewrite length_columns, length_lastInput in HL.
  assert (K' = K) as -> by (destruct HS as [HS _]; lia). now apply (environment_strict c W K l).
Qed.
Print Assumptions C62_countertrace.

Theorem C62_trace : forall c t K j, wf c -> traceOf c false = Some (Table t) -> length (t_columns t) = S K -> S j <= K ->
  let g := game_of c in
  let D := fun j s => sys_falsifies g (K - j) s /\ describes (shellVars c) (columnOf (t_columns t) j) s in
  (forall s, D j s -> sys_forces g (D (S j)) s) /\
  (forall k b, entry (shellVars c) (columnOf (t_columns t) (S j)) k Any ->
     ~ forall s, D j s -> sys_forces g (fun t => D (S j) t /\ t k = b) s).
Proof.
  intros c t K j W E HL Hj. destruct (traceOf_spec c W false) as (r & Er & H). rewrite Er in E. injection E as ->.
  destruct H as (K' & l & ds & HK & _ & _ & _ & _ & PW & HS & HF & ->). unfold lastInput in *. rewrite andb_false_r in *.
  rewrite length_columns in HL. assert (K' = K) as -> by (destruct HS as [HS _]; lia). now apply (system_strict c W K l).
Qed.
Print Assumptions C62_trace.

(** Round 1 in the example of the system: a may have both values. *)
Example C62_example : exists c t, wf c /\ traceOf c false = Some (Table t) /\ length (t_columns t) = 4 /\
  entry (shellVars c) (columnOf (t_columns t) 1) 0 Any.
Proof.
  destruct (resultOf_ex _ _ _ C60_trace_example) as (c & E & H). exists c. eexists. split; [eapply C41_accepted_wf; exact E|].
  split; [exact H|]. split; [reflexivity|]. exists 0. split; [|reflexivity].
  assert (match initContext exOrd sysFile with POk c => nth_error (shellVars c) 0 = Some 0 | _ => True end) as Y by (vm_compute; reflexivity).
  now rewrite E in Y.
Qed.
(** The environment cannot influence the output d. *)
Definition freeFile : string :=
  ("[INPUT]" ++ nl ++ "a" ++ nl ++ "[OUTPUT]" ++ nl ++ "b" ++ nl ++ "d" ++ nl ++
   "[SYS_INIT]" ++ nl ++ "! b" ++ nl ++ "[SYS_TRANS]" ++ nl ++ "! ^ b' a" ++ nl ++ "! b" ++ nl)%string.
Example C62_countertrace_example : resultOf freeFile true = Some (Table (mkTable ["a"; "b"; "d"]%string
  [[One; Zero; Zero]; [One; One; Any]; [Zero; Any; Any]])).
Proof. vm_compute. reflexivity. Qed.
