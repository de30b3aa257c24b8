(** * Properties of weaker specifications and of the search for unrealizable cores (C67, C68) *)

From Coq Require Import String Ascii Arith List Bool Lia.
From Verif Require Import BDD Spec VarTypes Synth Sem FormulaSpec Parser ParserProofs FileSpec FileProofs Execute Explicit CommandLine
  MinCoreSpec MinCore MonoProofs MinCoreProofs PropsParser.
Import ListNotations.
Local Open Scope string_scope.
Local Notation nl := Explicit.nl.

(** ** C67: weaker specifications *)

(** Dropping guarantees and adding assumptions never turns a realizable file into an unrealizable
    one.  The declarations and the lines may be in any other order and may be repeated, and the
    operands may be evaluated in any order. *)
Theorem C67_monotone : forall ord ord' content content' c c' L L',
  initContext ord content = POk c -> layout None (file_lines content) = Some L -> plain_file L ->
  initContext ord' content' = POk c' -> layout None (file_lines content') = Some L' -> plain_file L' ->
  demands_less L L' ->
  (executeFile ord content = POk Realizable -> executeFile ord' content' = POk Realizable) /\
  (executeFile ord' content' = POk Unrealizable -> executeFile ord content = POk Unrealizable).
Proof.
  intros ord ord' content content' c c' L L' E El PF E' El' PF' Less.
  pose proof (ND _ _ _ _ E El) as N. pose proof (ND _ _ _ _ E' El') as N'.
  destruct (C41_accepted_file _ _ _ _ E El PF) as (fs & F & H). destruct (C41_accepted_file _ _ _ _ E' El' PF') as (fs' & F' & H').
  destruct H as [[V R]|[V U]], H' as [[V' R']|[V' U']]; rewrite V, V'; split; auto; try discriminate.
  - destruct (realizable_mono L L' N N' Less fs fs' F F' R) as (f & Hf). destruct (U' f) as (x & Hx). elim Hx. apply Hf.
  - destruct (realizable_mono L L' N N' Less fs fs' F F' R) as (f & Hf). destruct (U' f) as (x & Hx). elim Hx. apply Hf.
Qed.
Print Assumptions C67_monotone.

(** Two files with the same lines in each section have the same verdict. *)
Theorem C67_order : forall ord ord' content content' c c' L L',
  initContext ord content = POk c -> layout None (file_lines content) = Some L -> plain_file L ->
  initContext ord' content' = POk c' -> layout None (file_lines content') = Some L' -> plain_file L' ->
  (forall p, In p L <-> In p L') ->
  executeFile ord content = executeFile ord' content'.
Proof.
  intros ord ord' content content' c c' L L' E El PF E' El' PF' Same.
  assert (D1 : demands_less L L') by (repeat split; intros; apply Same; auto).
  assert (D2 : demands_less L' L) by (repeat split; intros; apply Same; auto).
  destruct (C67_monotone _ _ _ _ _ _ _ _ E El PF E' El' PF' D1) as [A1 A2].
  destruct (C67_monotone _ _ _ _ _ _ _ _ E' El' PF' E El PF D2) as [B1 B2].
  destruct (C41_accepted_file _ _ _ _ E El PF) as (fs & F & [[V _]|[V _]]); rewrite V; symmetry; auto.
Qed.
Print Assumptions C67_order.

(** A file and a variant of it with the declarations in another order, a repeated assumption and a
    guarantee less.  The first one is unrealizable and the second one realizable. *)
Definition exStrong : string :=
  "[INPUT]" ++ nl ++ "a" ++ nl ++ "[OUTPUT]" ++ nl ++ "b" ++ nl ++ "c" ++ nl ++
  "[ENV_LIVENESS]" ++ nl ++ "a" ++ nl ++
  "[SYS_TRANS]" ++ nl ++ "! b'" ++ nl ++ "| c' 1" ++ nl ++ "[SYS_LIVENESS]" ++ nl ++ "c" ++ nl ++ "b" ++ nl ++ "& a c" ++ nl.
Definition exWeak : string :=
  "[OUTPUT]" ++ nl ++ "c" ++ nl ++ "b" ++ nl ++ "[INPUT]" ++ nl ++ "a" ++ nl ++ 
  "[SYS_LIVENESS]" ++ nl ++ "& a c" ++ nl ++ "[ENV_LIVENESS]" ++ nl ++ "a" ++ nl ++ "a" ++ nl ++ "| a b" ++ nl ++
  "[SYS_TRANS]" ++ nl ++ "! b'" ++ nl ++ "| c' 1" ++ nl.

Fixpoint plainb (ws : list string) : bool :=
  match ws with
  | op :: ((w :: _) as r) =>
      (negb (String.eqb op "$" || String.eqb op "?") || (negb (String.eqb w "") && allDigits w)) && plainb r
  | _ => true
  end.
Definition plainItem (p : section * string) : bool := negb (formulaSection (fst p)) || plainb (words (snd p)).
Lemma plain_items L : forallb plainItem L = true -> plain_file L.
Proof.
  intros H s line Hs Hin. apply plain_dec. rewrite forallb_forall in H. specialize (H _ Hin). unfold plainItem in H. cbn in H.
  now rewrite Hs in H.
Qed.

Example C67_example : exists c c' L L',
  initContext exOrd exStrong = POk c /\ layout None (file_lines exStrong) = Some L /\ plain_file L /\
  initContext exOrd exWeak = POk c' /\ layout None (file_lines exWeak) = Some L' /\ plain_file L' /\
  demands_less L L' /\
  executeFile exOrd exStrong = POk Unrealizable /\ executeFile exOrd exWeak = POk Realizable.
Proof.
  destruct (initContext exOrd exStrong) as [c|e| |] eqn:E1; try (vm_compute in E1; discriminate).
  destruct (initContext exOrd exWeak) as [c'|e| |] eqn:E2; try (vm_compute in E2; discriminate).
  exists c, c'. clear E1 E2. do 2 eexists. split; [reflexivity|]. split; [vm_compute; reflexivity|].
  split; [apply plain_items; vm_compute; reflexivity|]. split; [reflexivity|]. split; [vm_compute; reflexivity|].
  split; [apply plain_items; vm_compute; reflexivity|].
  split; [|split; vm_compute; reflexivity].
  split; [|split]; intros s line Hs; cbn [In].
  - split; intros H; repeat match goal with H : _ \/ _ |- _ => destruct H as [H|H] end; try contradiction;
      injection H as <- <-; try discriminate Hs; tauto.
  - intros H; repeat match goal with H : _ \/ _ |- _ => destruct H as [H|H] end; try contradiction;
      injection H as <- <-; try discriminate Hs; tauto.
  - intros H; repeat match goal with H : _ \/ _ |- _ => destruct H as [H|H] end; try contradiction;
      injection H as <- <-; try discriminate Hs; tauto.
Qed.

(** ** C68: minimal unrealizable cores *)

(** The tool passes the option --onlyRealizability to slugs, which slugs does not know.  Hence it
    aborts for every file with a guarantee that it could drop. *)
Theorem C68_aborts : forall ord content L, layout None (file_lines content) = Some L ->
  (exists s line, In (s, line) L /\ droppable s = true) -> findMinimalCore (slugsRun ord) content = None.
Proof.
  intros ord content L El (s & line & Hin & Hs). unfold findMinimalCore. rewrite getlines_spec.
  destruct (read_spec (file_lines content) None noLines L El) as (d & R & H). cbn [nameOf] in R. rewrite R. cbn [noLines app] in H.
  assert (NoRun : forall text, slugsRun ord coreArgs text = None) by reflexivity.
  apply in_linesOf in Hin.
  unfold shrinkSection. destruct (d SSysLive) as [|l ls] eqn:E; [|reflexivity].
  cbn [shrink option_map]. change (setLines d SSysLive [] SSysTrans) with (d SSysTrans).
  destruct s; try discriminate Hs; [|rewrite <- H, E in Hin; contradiction].
  rewrite <- H in Hin. destruct (d SSysTrans) as [|l ls]; [contradiction|]. reflexivity.
Qed.
Print Assumptions C68_aborts.

(** An unrealizable file. *)
Definition exCore : string :=
  "# Light" ++ nl ++ "[INPUT]" ++ nl ++ "a" ++ nl ++ "[OUTPUT]" ++ nl ++ "b" ++ nl ++
  "[SYS_LIVENESS]" ++ nl ++ "! b" ++ nl ++ "b" ++ nl ++
  "[SYS_TRANS]" ++ nl ++ "| a' 1" ++ nl ++ "! b'" ++ nl.

Theorem C68_core_refuted : exists ord content c L,
  initContext ord content = POk c /\ layout None (file_lines content) = Some L /\ plain_file L /\ file_unrealizable L /\
  findMinimalCore (slugsRun ord) content = None.
Proof.
  exists exOrd, exCore. destruct (initContext exOrd exCore) as [c|e| |] eqn:E; try (vm_compute in E; discriminate).
  exists c. assert (El : exists L, layout None (file_lines exCore) = Some L) by (eexists; vm_compute; reflexivity).
  destruct El as (L & El). exists L.
  assert (PF : plain_file L) by (vm_compute in El; injection El as <-; apply plain_items; vm_compute; reflexivity).
  split; [reflexivity|]. split; [exact El|]. split; [exact PF|]. split.
  - destruct (C41_accepted_file _ _ _ _ E El PF) as (fs & F & [[V _]|[V U]]); [vm_compute in V; discriminate|].
    exists fs. auto.
  - apply (C68_aborts _ _ L El). exists SSysLive, "b". split; [|reflexivity]. vm_compute in El. injection El as <-. cbn. tauto.
Qed.
Print Assumptions C68_core_refuted.

(** If slugs ignored the option, then the tool would do its job: for every accepted file it writes a
    file that can be read again.  For an unrealizable file it is a minimal core with respect to the
    liveness and transition guarantees, and for a realizable one nothing is dropped. *)
Theorem C68_core : forall ord content c L,
  initContext ord content = POk c -> layout None (file_lines content) = Some L -> plain_file L ->
  exists out L', findMinimalCore (fun _ => verdictOfFile ord) content = Some out /\
    layout None (file_lines out) = Some L' /\
    (file_unrealizable L -> core droppable L L') /\
    (file_realizable L -> forall s, linesOf s L' = linesOf s L).
Proof. exact minimal_core. Qed.
Print Assumptions C68_core.

Example C68_example : exists L, layout None (file_lines exCore) = Some L /\ plain_file L /\ isOk (initContext exOrd exCore) = true /\
  findMinimalCore (fun _ => verdictOfFile exOrd) exCore = Some (
    "[INPUT]" ++ nl ++ "a" ++ nl ++ nl ++ "[OUTPUT]" ++ nl ++ "b" ++ nl ++ nl ++
    "[ENV_INIT]" ++ nl ++ nl ++ "[ENV_LIVENESS]" ++ nl ++ nl ++ "[ENV_TRANS]" ++ nl ++ nl ++ "[SYS_INIT]" ++ nl ++ nl ++
    "[SYS_LIVENESS]" ++ nl ++ "b" ++ nl ++ nl ++ "[SYS_TRANS]" ++ nl ++ "! b'" ++ nl ++ nl).
Proof.
  eexists. split; [vm_compute; reflexivity|]. split; [apply plain_items; vm_compute; reflexivity|].
  split; vm_compute; reflexivity.
Qed.

(** The initialization guarantees are not searched, so the core need not be minimal among all the
    guarantees. *)
Theorem C68_init_refuted : exists ord content c L out L',
  initContext ord content = POk c /\ layout None (file_lines content) = Some L /\ plain_file L /\ file_unrealizable L /\
  findMinimalCore (fun _ => verdictOfFile ord) content = Some out /\ layout None (file_lines out) = Some L' /\
  ~ core guarantees L L'.
Proof.
  pose (content := "[OUTPUT]" ++ nl ++ "b" ++ nl ++ "[SYS_INIT]" ++ nl ++ "b" ++ nl ++ "! b" ++ nl ++ "1").
  pose (less := "[OUTPUT]" ++ nl ++ "b" ++ nl ++ "[SYS_INIT]" ++ nl ++ "b" ++ nl ++ "! b").
  pose (L := [(SOutput, "b"); (SSysInit, "b"); (SSysInit, "! b"); (SSysInit, "1")]).
  pose (K := [(SOutput, "b"); (SSysInit, "b"); (SSysInit, "! b")]).
  assert (E : exists c, initContext exOrd content = POk c).
  { destruct (initContext exOrd content) as [c|e| |] eqn:E; try (vm_compute in E; discriminate). eauto. }
  assert (E' : exists c, initContext exOrd less = POk c).
  { destruct (initContext exOrd less) as [c|e| |] eqn:E'; try (vm_compute in E'; discriminate). eauto. }
  destruct E as (c & E), E' as (c' & E').
  assert (El : layout None (file_lines content) = Some L) by (vm_compute; reflexivity).
  assert (El' : layout None (file_lines less) = Some K) by (vm_compute; reflexivity).
  assert (PF : plain_file L) by (apply plain_items; vm_compute; reflexivity).
  assert (PF' : plain_file K) by (apply plain_items; vm_compute; reflexivity).
  assert (U : file_unrealizable L).
  { destruct (C41_accepted_file _ _ _ _ E El PF) as (fs & F & [[V _]|[V U]]); [vm_compute in V; discriminate|]. exists fs. auto. }
  assert (U' : file_unrealizable K).
  { destruct (C41_accepted_file _ _ _ _ E' El' PF') as (fs & F & [[V _]|[V U']]); [vm_compute in V; discriminate|]. exists fs. auto. }
  exists exOrd, content, c, L. do 2 eexists. split; [exact E|]. split; [exact El|]. split; [exact PF|]. split; [exact U|].
  split; [vm_compute; reflexivity|]. split; [vm_compute; reflexivity|].
  intros (_ & _ & _ & M). specialize (M K SSysInit "1" [] eq_refl eq_refl). rewrite app_nil_r in M.
  apply (realizable_exclusive K (ND _ _ _ _ E' El') M U').
Qed.
Print Assumptions C68_init_refuted.
