(** * C26, C32: the command line *)

From Coq Require Import String Ascii Arith List Bool Lia.
From Verif Require Import CommandLine CommandLineSpec CommandLineProofs.
Import ListNotations.
Local Open Scope string_scope.
Local Open Scope list_scope.

(** ** C32 *)

(** slugs complains about an argument exactly if it is the first option that is not in
    the list of known options. *)
Theorem C32_unknown : forall args a,
  main args = UnknownParameter a <->
  exists l r, args = l ++ a :: r /\ isOption a /\ ~ In a commandLineArguments /\ allKnown l.
Proof.
  intros args a. rewrite <- (parseArgs_inl args [] []). unfold main. split.
  - destruct (parseArgs args [] []) as [b|[ps fs]]; [congruence|].
    destruct (find _ _) as [[k p]|]; [|discriminate]. intros E. exfalso. now apply start_not_unknown in E.
  - intros ->. reflexivity.
Qed.
Print Assumptions C32_unknown.

(** The selected plugin (and everything else that happens before the synthesis starts)
    depends on the set of options and on the sequence of file names only: neither the
    order of the options, nor repetitions, nor the positions of the file names between
    the options have any effect.  If some option is unknown, the two runs may name different
    unknown options. *)
Theorem C32_set : forall args args',
  (forall o, given o args <-> given o args') ->
  fileNames args = fileNames args' ->
  main args = main args' \/
  (exists a a', main args = UnknownParameter a /\ main args' = UnknownParameter a').
Proof.
  intros args args' Ho Hf.
  assert (allKnown args <-> allKnown args') as Hk.
  { unfold allKnown. split; intros H o Hg; apply H; now apply Ho. }
  assert (forall p, listed args p <-> listed args' p) as HL.
  { intros p. unfold listed. split; intros (ws & H1 & H2); exists ws; (split; [|exact H2]); intros o; rewrite H1.
    - apply Ho. - symmetry. apply Ho. }
  destruct (main_cases args) as [(a & E & K)|[(E & K & N)|(p & L & K & E)]].
  - right. destruct (main_cases args') as [(a' & E' & K')|[(E' & K' & N')|(p & L & K' & E')]]; [eauto| |]; tauto.
  - left. destruct (main_cases args') as [(a' & E' & K')|[(E' & K' & N')|(p & L & K' & E')]]; [tauto|congruence|].
    exfalso. apply (N p). now apply HL.
  - left. rewrite E, Hf. symmetry. apply main_listed; [tauto|]. now apply HL.
Qed.
Print Assumptions C32_set.

(** Every set of known options without an entry of its own is rejected, and only those
    are; the exit code is 1 in this case and for unknown options. *)
Theorem C32_unlisted : forall args,
  (main args = NotPermissible <-> allKnown args /\ forall p, ~ listed args p) /\
  (~ allKnown args \/ (forall p, ~ listed args p) -> exitCode (main args) = Some 1).
Proof.
  intros args. destruct (main_cases args) as [(a & E & K)|[(E & K & N)|(p & L & K & E)]]; rewrite E; cbn.
  - split; [|auto]. split; [discriminate|tauto].
  - split; [|auto]. tauto.
  - split.
    + split; [intros H; exfalso; now apply start_not_np in H|]. intros [_ N]. exfalso. exact (N p L).
    + intros [H|H]; exfalso; [tauto|exact (H p L)].
Qed.
Print Assumptions C32_unlisted.

(** If the synthesis starts, then the plugin that runs provides the features that the
    given options ask for, and no others. *)
Theorem C32_features : forall args p r,
  main args = Execute p r -> forall o, given o args <-> In o (features p).
Proof.
  intros args p r H. destruct (main_cases args) as [(a & E & K)|[(E & K & N)|(q & L & K & E)]].
  - congruence.
  - congruence.
  - rewrite E in H. apply start_execute in H. subst q. now apply listed_features.
Qed.
Print Assumptions C32_features.

(** File names, for all options but --counterStrategy (see C26): for permitted
    combinations the synthesis starts exactly if the number of file names fits the
    options; the first file name is the specification, the second one is the second
    input file if the options ask for one, and the next one is the output file, if the
    options ask for one; the output goes to standard output (the empty name) if it is
    missing. *)
Theorem C42_files : forall args p,
  allKnown args -> listed args p -> ~ In "--counterStrategy" args ->
  let files := fileNames args in
  let n := inputs args in
  (n + minOutputs args <= List.length files <= n + maxOutputs args ->
   exists r, main args = Execute p r /\
     r_spec r = nth_error files 0 /\
     r_extra r = (if Nat.eqb n 2 then nth_error files 1 else None) /\
     r_out r = (if Nat.eqb (maxOutputs args) 1 then Some (nth n files "") else None)) /\
  (List.length files < n + minOutputs args \/ n + maxOutputs args < List.length files ->
   exitCode (main args) = Some 1).
Proof.
  intros args p K L C files n. subst files n. rewrite (main_listed args p K L).
  pose proof (listed_plan args p K L C) as P. unfold plan in P. cbv zeta in P. rewrite P. clear P. split.
  - intros [H1 H2]. rewrite (proj2 (Nat.ltb_ge _ _) H1), (proj2 (Nat.ltb_ge _ _) H2).
    eexists. split; [reflexivity|]. unfold planRoles. cbn [r_spec r_extra r_out]. split; [reflexivity|].
    split; [reflexivity|]. unfold maxOutputs. destruct (_ || _); reflexivity.
  - destruct (Nat.ltb_spec (List.length (fileNames args)) (inputs args + minOutputs args)) as [H1|H1]; [reflexivity|].
    destruct (Nat.ltb_spec (inputs args + maxOutputs args) (List.length (fileNames args))) as [H2|H2]; [reflexivity|].
    lia.
Qed.
Print Assumptions C42_files.

Example C32_example :
  main ["--sysInitRoboticsSemantics"; "in.slugsin"; "--explicitStrategy"; "out.txt"; "--explicitStrategy"]
  = Execute (PExplicit (PRobotics PBase) false false) (mkRoles (Some "in.slugsin") None (Some "out.txt")) /\
  main ["--explicitStrategy"; "--sysInitRoboticsSemantics"; "in.slugsin"; "out.txt"]
  = Execute (PExplicit (PRobotics PBase) false false) (mkRoles (Some "in.slugsin") None (Some "out.txt")) /\
  main ["in.slugsin"; "--jsonOutput"] = NotPermissible /\
  main ["in.slugsin"; "--help"; "--verbose"] = UnknownParameter "--help" /\
  main ["--twoDimensionalCost"; "--symbolicStrategy"; "a"; "b"; "c"]
  = Execute (PSymbolic (PTwoDim PBase false false) false false) (mkRoles (Some "a") (Some "b") (Some "c")) /\
  main ["--symbolicStrategy"; "a"] = MissingFile NoOutput /\
  main ["a"; "b"] = TooManyFiles.
Proof. vm_compute. repeat split. Qed.
Example C32_example_listed : let args := ["--symbolicStrategy"; "a"; "--twoDimensionalCost"; "b"; "c"] in
  allKnown args /\ listed args (PSymbolic (PTwoDim PBase false false) false false).
Proof.
  cbv zeta. split.
  - intros o [[s ->] H]. cbn in H. decompose [or] H; try contradiction; try discriminate;
      match goal with E : _ = String _ _ |- _ => rewrite <- E end; vm_compute; auto 30.
  - exists ["--symbolicStrategy"; "--twoDimensionalCost"]. split.
    + intros o. unfold given, isOption. cbn. split.
      * intros [<-|[<-|[]]]; eauto 8.
      * intros [[s E] H]. subst o. decompose [or] H; try contradiction; try discriminate; auto.
    + apply (find_some (fun e => String.eqb (fst e) "--symbolicStrategy --twoDimensionalCost")). vm_compute. reflexivity.
Qed.
(** The theorem about file names for these arguments, and without the name of the output file. *)
Example C42_example :
  (exists r, main ["--symbolicStrategy"; "a"; "--twoDimensionalCost"; "b"; "c"] = Execute (PSymbolic (PTwoDim PBase false false) false false) r /\
     r_spec r = Some "a" /\ r_extra r = Some "b" /\ r_out r = Some "c") /\
  exitCode (main ["--symbolicStrategy"; "a"; "--twoDimensionalCost"; "b"]) = Some 1.
Proof.
  split; [|reflexivity]. destruct C32_example_listed as [K L].
  destruct (C42_files _ _ K L ltac:(cbn; intuition discriminate)) as [H _]. exact (H ltac:(vm_compute; auto)).
Qed.

(** ** C26 *)

(** One file name: it is the specification; standard output is used. *)
Theorem C26_one_file : forall args f,
  (forall o, given o args <-> o = "--counterStrategy") \/
  (forall o, given o args <-> o = "--counterStrategy" \/ o = "--sysInitRoboticsSemantics") ->
  fileNames args = [f] ->
  exists p r, main args = Execute p r /\ r_spec r = Some f /\ r_extra r = None /\ r_out r = Some "".
Proof.
  intros args f H F.
  assert (exists p, allKnown args /\ listed args p /\ In "--counterStrategy" args) as (p & K & L & C).
  { destruct H as [H|H]; eexists; (split; [|split; [first [apply counter_listed; exact H|apply counter_listed_robotics; exact H]|]]).
    - intros o Ho. apply H in Ho. subst. cbn. tauto.
    - now apply H.
    - intros o Ho. apply H in Ho. destruct Ho as [->| ->]; cbn; tauto.
    - apply H. now left. }
  destruct (listed_counter args p K L C) as (H1 & _). rewrite (main_listed args p K L), F, H1. eauto 8.
Qed.
Print Assumptions C26_one_file.

(** Two file names: C26 says that the first one is the input file.  It is the output
    file, for all file names: the constructor takes it from the front of the list before
    the specification is read from the next one.  A run
    "slugs --counterStrategy spec.slugsin out.txt" thus reads out.txt as specification and
    writes to spec.slugsin. *)
Theorem C26_two_files_refuted : forall args f g,
  allKnown args -> (exists p, listed args p) -> In "--counterStrategy" args ->
  fileNames args = [f; g] ->
  exists p r, main args = Execute p r /\ r_spec r = Some g /\ r_out r = Some f.
Proof.
  intros args f g K [p L] C F. destruct (listed_counter args p K L C) as (_ & _ & H & _).
  rewrite (main_listed args p K L), F, H. eauto 8.
Qed.
Print Assumptions C26_two_files_refuted.

(** No file name: C26 says that an error is reported.  The constructor calls front() of
    an empty list, which is undefined behaviour. *)
Theorem C26_no_file_refuted : forall args,
  allKnown args -> (exists p, listed args p) -> In "--counterStrategy" args ->
  fileNames args = [] -> main args = Undefined.
Proof.
  intros args K [p L] C F. destruct (listed_counter args p K L C) as (_ & H & _).
  now rewrite (main_listed args p K L), F, H.
Qed.
Print Assumptions C26_no_file_refuted.

(** More than two file names are rejected; and no other combination of options leads to
    the undefined behaviour. *)
Theorem C26_more_files : forall args,
  allKnown args -> (exists p, listed args p) -> In "--counterStrategy" args ->
  2 < List.length (fileNames args) -> main args = TooManyFiles.
Proof.
  intros args K [p L] C F. destruct (listed_counter args p K L C) as (_ & _ & _ & H).
  rewrite (main_listed args p K L). destruct (fileNames args) as [|a [|b [|c fs]]]; cbn in F; try lia. apply H.
Qed.
Print Assumptions C26_more_files.
Theorem C26_undefined : forall args,
  main args = Undefined <->
  allKnown args /\ (exists p, listed args p) /\ In "--counterStrategy" args /\ fileNames args = [].
Proof.
  intros args. split.
  - intros H. destruct (main_cases args) as [(a & E & K)|[(E & K & N)|(p & L & K & E)]]; try congruence.
    split; [exact K|]. split; [eauto|].
    destruct (in_dec String.string_dec "--counterStrategy" args) as [C|C].
    + split; [exact C|]. destruct (listed_counter args p K L C) as (H1 & _ & H2 & H3). rewrite E in H.
      destruct (fileNames args) as [|a [|b [|c fs]]]; [reflexivity| | |]; exfalso.
      * rewrite H1 in H. discriminate.
      * rewrite H2 in H. discriminate.
      * rewrite H3 in H. discriminate.
    + exfalso. pose proof (listed_plan args p K L C) as P. unfold plan in P. cbv zeta in P.
      rewrite E, P in H. destruct (Nat.ltb _ _); [discriminate|]. destruct (Nat.ltb _ _); discriminate.
  - intros (K & [p L] & C & F). apply C26_no_file_refuted; eauto.
Qed.
Print Assumptions C26_undefined.

Example C26_example :
  main ["--counterStrategy"; "spec.slugsin"]
  = Execute (PExplicitCounter (PCounter PBase false)) (mkRoles (Some "spec.slugsin") None (Some "")) /\
  main ["--counterStrategy"; "spec.slugsin"; "out.txt"]
  = Execute (PExplicitCounter (PCounter PBase false)) (mkRoles (Some "out.txt") None (Some "spec.slugsin")) /\
  main ["--sysInitRoboticsSemantics"; "--counterStrategy"] = Undefined /\
  main ["--counterStrategy"; "a"; "b"; "c"] = TooManyFiles.
Proof. vm_compute. repeat split. Qed.
Example C26_example_hypotheses : let args := ["--counterStrategy"; "spec.slugsin"; "out.txt"] in
  allKnown args /\ (exists p, listed args p) /\ forall o, given o args <-> o = "--counterStrategy".
Proof.
  cbv zeta. assert (forall o, given o ["--counterStrategy"; "spec.slugsin"; "out.txt"] <-> o = "--counterStrategy") as H.
  { intros o. unfold given, isOption. cbn. split.
    - intros [[s ->] G]. decompose [or] G; try contradiction; congruence.
    - intros ->. eauto. }
  split; [|split; [|exact H]].
  - intros o Ho. apply H in Ho. subst. vm_compute. auto 30.
  - eexists. apply counter_listed, H.
Qed.
