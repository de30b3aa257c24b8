(** * Properties of the translation of safety specifications to circuits (C77, C78, C79) *)

From Coq Require Import String Ascii Arith List Bool NArith Lia.
From Verif Require Import BDD Spec FormulaSpec FileSpec GameExt Synth Parser ParserProofs FileProofs Execute Explicit
  MonoProofs MinCoreProofs Aig AigSpec AigProofs AigFile AigRun AigMain AigGame PropsParser PropsMinCore.
Import ListNotations.
Local Open Scope string_scope.
Local Notation nl := Explicit.nl.

(** ** C77: the circuit *)

(** The tool writes a circuit for every safety specification whose formulas follow the grammar and
    separate words by single blanks.  The text describes a well-formed circuit with one input for
    each variable and one output.  When the inputs show a sequence of states, the output is true
    exactly when the guarantees are violated and no assumption has been violated up to then. *)
Theorem C77_circuit : forall content L fs,
  layout None (file_lines content) = Some L -> NoDup (declared L) -> formulas_of false L fs ->
  safety_only L -> single_blanks L ->
  exists lines M A err,
    aigMain content = TOk lines /\ aag_text M A (input_names L) lines /\ well_formed M A /\ a_outputs A = [err] /\
    forall r pi, is_run A r -> shows L A r pi ->
    forall t, lit (r t) err = true <-> violated_at (file_game L fs) pi t.
Proof.
  intros content L fs El ND F SO SB. destruct (circuit content L fs El ND F SB SO) as (lines & M & A & err & H1 & H2 & H3 & _ & H4 & H5).
  exists lines, M, A, err. auto.
Qed.
Print Assumptions C77_circuit.

(** The text of a circuit describes no other circuit. *)
Theorem C77_text_unique : forall M A names M' A' names' lines,
  aag_text M A names lines -> aag_text M' A' names' lines -> M = M' /\ A = A' /\ names = names'.
Proof. exact text_unique. Qed.
Print Assumptions C77_text_unique.

(** A well-formed circuit has a run for all values of the inputs, also for those of every sequence
    of states. *)
Theorem C77_runs : forall M A X, well_formed M A -> exists r, is_run A r /\ with_inputs A r X.
Proof. exact run_exists. Qed.
Print Assumptions C77_runs.

(** A safety specification. *)
Definition exSafe : string := String.concat nl
  ["[OUTPUT]"; "b"; "[INPUT]"; "a"; "[ENV_INIT]"; "! a"; "[SYS_INIT]"; "! b"; "[ENV_TRANS]"; "| ! b ! a'";
   "[SYS_TRANS]"; "| ! a' b'"; "$ 2 ^ a b | ? 0 ! ? 0"].
Definition exSafeL : items :=
  [(SOutput, "b"); (SInput, "a"); (SEnvInit, "! a"); (SSysInit, "! b"); (SEnvTrans, "| ! b ! a'");
   (SSysTrans, "| ! a' b'"); (SSysTrans, "$ 2 ^ a b | ? 0 ! ? 0")].
Definition exSafeFs (s : section) : list fml :=
  match s with
  | SEnvInit => [FNot (FVar 2)]
  | SSysInit => [FNot (FVar 0)]
  | SEnvTrans => [FOr (FNot (FVar 0)) (FNot (FVar 3))]
  | SSysTrans => [FOr (FNot (FVar 3)) (FVar 1); FBuf [FXor (FVar 2) (FVar 0); FOr (FRecall 0) (FNot (FRecall 0))]]
  | _ => []
  end.
Lemma exSafe_layout : layout None (file_lines exSafe) = Some exSafeL.
Proof. vm_compute. reflexivity. Qed.
Ltac gvar := apply g_var; [reflexivity|split; reflexivity].
Lemma exSafe_formulas : formulas_of false exSafeL exSafeFs.
Proof.
  intros [] Hs; try discriminate Hs; vm_compute linesOf; cbn [exSafeFs].
  - constructor; [|constructor]. apply g_not. gvar.
  - constructor; [|constructor]. apply g_not. gvar.
  - constructor; [|constructor]. apply (g_or _ _ _ _ _ _ ["!"; "b"] ["!"; "a'"]); apply g_not; gvar.
  - constructor; [apply (g_or _ _ _ _ _ _ ["!"; "a'"] ["b'"]); [apply g_not|]; gvar|]. constructor; [|constructor].
    apply (g_buf _ _ _ _ "2" 2 _ ["^"; "a"; "b"; "|"; "?"; "0"; "!"; "?"; "0"]); try reflexivity; try discriminate; [repeat split; discriminate|].
    apply (gl_cons _ _ _ _ _ _ _ ["^"; "a"; "b"] ["|"; "?"; "0"; "!"; "?"; "0"]).
    + apply (g_xor _ _ _ _ _ _ ["a"] ["b"]); gvar.
    + apply (gl_cons _ _ _ _ _ _ _ ["|"; "?"; "0"; "!"; "?"; "0"] []); [|constructor].
      apply (g_or _ _ _ _ _ _ ["?"; "0"] ["!"; "?"; "0"]).
      * apply (g_recall _ _ _ 1 "0" 0); [repeat split; discriminate|reflexivity|lia].
      * apply g_not. apply (g_recall _ _ _ 1 "0" 0); [repeat split; discriminate|reflexivity|lia].
  - constructor.
  - constructor.
Qed.
Lemma exSafe_blanks : single_blanks exSafeL.
Proof.
  intros s line Hs H. cbn [exSafeL In] in H. repeat destruct H as [H|H]; try contradiction; injection H as <- <-; try discriminate Hs; vm_compute; reflexivity.
Qed.

(** The environment sends a request and the system does not answer. *)
Example C77_example : layout None (file_lines exSafe) = Some exSafeL /\ NoDup (declared exSafeL) /\ formulas_of false exSafeL exSafeFs /\
  safety_only exSafeL /\ single_blanks exSafeL /\ input_names exSafeL = ["a"; "controllable_b"] /\
  violated_at (file_game exSafeL exSafeFs) (fun n k => (k =? 1) && (n =? 1))%nat 1 /\
  match aigMain exSafe with TOk lines => length lines = 45 | _ => False end.
Proof.
  split; [exact exSafe_layout|]. split; [repeat constructor; cbn; intuition discriminate|]. split; [exact exSafe_formulas|].
  split; [split; reflexivity|]. split; [exact exSafe_blanks|]. split; [reflexivity|]. split; [|vm_compute; reflexivity].
  split; [reflexivity|]. split; [|reflexivity]. intros m Hm. assert (m = 0) as -> by lia. reflexivity.
Qed.

(** ** C78: realizability *)

(** slugs and a synthesis tool for circuits give the same verdict, when no input of the
    specification has a name that looks controllable. *)
Theorem C78_same_verdict : forall ord content L,
  layout None (file_lines content) = Some L -> NoDup (declared L) -> grammatical L -> plain_file L ->
  safety_only L -> single_blanks L ->
  (forall w, In w (linesOf SInput L) -> prefix "controllable_" w = false) ->
  exists lines, aigMain content = TOk lines /\
    (exists M A names, aag_text M A names lines) /\
    forall M A names, aag_text M A names lines ->
      (executeFile ord content = POk Realizable <-> aig_realizable A names) /\
      (executeFile ord content = POk Unrealizable <-> aig_unrealizable A names).
Proof.
  intros ord content L El ND G PF SO SB NC. destruct (gram_formulas L G) as (fs & F).
  destruct (circuit content L fs El ND F SB SO) as (lines & M & A & err & H1 & H2 & H3 & HI & H4 & H5).
  exists lines. split; auto. split; [eauto|]. intros M' A' names' T. destruct (text_unique _ _ _ _ _ _ _ H2 T) as (_ & <- & <-).
  destruct (C41_documented_file ord content L El ND G PF) as (fs' & F' & V).
  assert (H5' : forall r pi, is_run A r -> shows L A r pi -> forall t, lit (r t) err = true <-> violated_at (file_game L fs') pi t).
  { intros r pi R S t. rewrite (H5 r pi R S t). apply violated_same. apply (formulas_unique L fs fs' ND); auto. now apply formulas_loosen. }
  assert (NB := aig_not_both L A).
  destruct V as [[V R]|[V U]]; rewrite V.
  - apply (to_aig L fs' ND F' SO NC A err H4 H5') in R. split; split; auto; try discriminate. intros U. now elim NB.
  - apply (to_aig_un L fs' ND F' SO NC A err H4 H5' (ex_intro _ M H3)) in U. split; split; auto; try discriminate. intros R. now elim NB.
Qed.
Print Assumptions C78_same_verdict.

Lemma exSafe_gram : grammatical exSafeL.
Proof.
  intros L1 s line L2 E Hs. unfold exSafeL in E. repeat (destruct L1 as [|p L1]; [injection E as <- <- <-; try discriminate Hs|injection E as <- E]).
  - exists (FNot (FVar 2)). apply g_not. gvar.
  - exists (FNot (FVar 0)). apply g_not. gvar.
  - exists (FOr (FNot (FVar 0)) (FNot (FVar 3))). apply (g_or _ _ _ _ _ _ ["!"; "b"] ["!"; "a'"]); apply g_not; gvar.
  - exists (FOr (FNot (FVar 3)) (FVar 1)). apply (g_or _ _ _ _ _ _ ["!"; "a'"] ["b'"]); [apply g_not|]; gvar.
  - pose proof (exSafe_formulas SSysTrans eq_refl) as H. inversion H as [|a b c d _ H']; subst. inversion H' as [|a b c d H'' _]; subst.
    eexists. exact H''.
  - destruct L1; discriminate E.
Qed.

Example C78_example : layout None (file_lines exSafe) = Some exSafeL /\ NoDup (declared exSafeL) /\ grammatical exSafeL /\ plain_file exSafeL /\
  safety_only exSafeL /\ single_blanks exSafeL /\ (forall w, In w (linesOf SInput exSafeL) -> prefix "controllable_" w = false) /\
  executeFile exOrd exSafe = POk Realizable /\ executeFile exOrd (exSafe ++ nl ++ "! b'") = POk Unrealizable.
Proof.
  split; [exact exSafe_layout|]. split; [repeat constructor; cbn; intuition discriminate|]. split; [exact exSafe_gram|].
  split; [apply plain_items; vm_compute; reflexivity|].
  split; [split; reflexivity|]. split; [exact exSafe_blanks|].
  split; [intros w [<-|[]]; reflexivity|]. split; vm_compute; reflexivity.
Qed.

(** An input whose name begins with "controllable_" is controlled by the system in the circuit, so
    that a specification may become realizable. *)
Definition exStolen : string := String.concat nl ["[INPUT]"; "controllable_x"; "[SYS_TRANS]"; "controllable_x'"].
Definition exStolenL : items := [(SInput, "controllable_x"); (SSysTrans, "controllable_x'")].
Definition exStolenFs (s : section) : list fml := match s with SSysTrans => [FVar 1] | _ => [] end.
Theorem C78_input_names_refuted : exists ord content L lines M A,
  layout None (file_lines content) = Some L /\ NoDup (declared L) /\ grammatical L /\ plain_file L /\
  safety_only L /\ single_blanks L /\
  aigMain content = TOk lines /\ aag_text M A (input_names L) lines /\
  executeFile ord content = POk Unrealizable /\ aig_realizable A (input_names L).
Proof.
  assert (El : layout None (file_lines exStolen) = Some exStolenL) by (vm_compute; reflexivity).
  assert (ND : NoDup (declared exStolenL)) by (repeat constructor; cbn; intuition discriminate).
  assert (SO : safety_only exStolenL) by (split; reflexivity).
  assert (F : formulas_of false exStolenL exStolenFs).
  { intros [] Hs; try discriminate Hs; vm_compute linesOf; cbn [exStolenFs]; try constructor; [gvar|constructor]. }
  assert (SB : single_blanks exStolenL).
  { intros s line Hs H. cbn [exStolenL In] in H. repeat destruct H as [H|H]; try contradiction; injection H as <- <-; try discriminate Hs; vm_compute; reflexivity. }
  destruct (C77_circuit exStolen exStolenL exStolenFs El ND F SO SB) as (lines & M & A & err & H1 & H2 & H3 & H4 & H5).
  exists exOrd, exStolen, exStolenL, lines, M, A. repeat (split; [assumption|]). split.
  { intros L1 s line L2 E Hs. unfold exStolenL in E. repeat (destruct L1 as [|p L1]; [injection E as <- <- <-; try discriminate Hs|injection E as <- E]).
    - exists (FVar 1). gvar.
    - destruct L1; discriminate E. }
  split; [apply plain_items; vm_compute; reflexivity|]. repeat (split; [assumption|]). split; [vm_compute; reflexivity|].
  exists (fun _ _ _ => true). intros x r R W t o Ho. rewrite H4 in Ho. destruct Ho as [<-|[]].
  destruct (lit (r t) err) eqn:E; auto.
  apply (H5 r (fun _ _ => true) R) in E.
  - destruct t as [|t]; destruct E as [_ E]; [discriminate E|]. destruct E as [_ E]. discriminate E.
  - intros n j k w l J1 J2 J3. rewrite (W n j l J3). destruct j as [|j]; [|destruct j; discriminate J1].
    unfold play. destruct n; reflexivity.
Qed.
Print Assumptions C78_input_names_refuted.

(** ** C79: specifications that are not translated *)

(** Files with liveness properties are never translated. *)
Theorem C79_liveness_rejected : forall content L lines,
  layout None (file_lines content) = Some L -> aigMain content = TOk lines -> safety_only L.
Proof.
  intros content L lines El. unfold aigMain.
  destruct (read_spec (getlines content) None MinCore.noLines L) as (cat & ER & HC).
  { now rewrite getlines_spec. }
  cbn [MinCoreProofs.nameOf] in ER. rewrite ER. cbn [tget tbind]. rewrite !HC. cbn [MinCore.noLines app]. unfold safety_only.
  destruct (linesOf SEnvLive L); [|discriminate]. destruct (linesOf SSysLive L); [auto|discriminate].
Qed.
Print Assumptions C79_liveness_rejected.

Example C79_example : exists L lines, layout None (file_lines exSafe) = Some L /\ aigMain exSafe = TOk lines /\
  aigMain (exSafe ++ nl ++ "[SYS_LIVENESS]" ++ nl ++ "b") = TExc.
Proof. do 2 eexists. split; [exact exSafe_layout|]. split; vm_compute; reflexivity. Qed.

(** The tool fails for some safety specifications that slugs reads: two blanks between words, or a
    tabulator. *)
Definition exBlanks : string := String.concat nl ["[OUTPUT]"; "b"; "[SYS_TRANS]"; "|  b b'"].
Definition exTab : string := String.concat nl ["[OUTPUT]"; "b"; "[SYS_TRANS]"; "|" ++ String (ascii_of_nat 9) "b b'"].
Theorem C79_blanks_refuted : exists ord content L,
  layout None (file_lines content) = Some L /\ NoDup (declared L) /\ plain_file L /\ safety_only L /\
  grammatical L /\ executeFile ord content = POk Realizable /\ aigMain content = TExc.
Proof.
  exists exOrd, exBlanks. eexists. split; [vm_compute; reflexivity|].
  split; [repeat constructor; cbn; intuition discriminate|]. split; [apply plain_items; vm_compute; reflexivity|]. split; [split; reflexivity|].
  split; [|split; vm_compute; reflexivity].
  intros L1 s line L2 E Hs. repeat (destruct L1 as [|p L1]; [injection E as <- <- <-; try discriminate Hs|injection E as <- E]).
  - exists (FOr (FVar 0) (FVar 1)). apply (g_or _ _ _ _ _ _ ["b"] ["b'"]); gvar.
  - destruct L1; discriminate E.
Qed.
Print Assumptions C79_blanks_refuted.

(** The tool translates some files that slugs rejects: an assumption about the next value of an
    output. *)
Definition exScope : string := String.concat nl ["[OUTPUT]"; "b"; "[ENV_TRANS]"; "b'"].
Theorem C79_scopes_refuted : exists ord content lines e,
  initContext ord content = PErr e /\ aigMain content = TOk lines.
Proof.
  exists exOrd, exScope. destruct (aigMain exScope) as [lines| |] eqn:E2; try (vm_compute in E2; discriminate).
  exists lines. eexists. split; [vm_compute; reflexivity|reflexivity].
Qed.
Print Assumptions C79_scopes_refuted.

Example C79_tab_example : executeFile exOrd exTab = POk Realizable /\ aigMain exTab = TExc.
Proof. split; vm_compute; reflexivity. Qed.
