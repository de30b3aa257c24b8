(** * The command line

    Model of main (/repo/src/main.cpp) and of the way in which the constructors
    and the init functions of the plugins take file names from the list of file
    names.  Not modelled here: opening and reading the files (see Parser.v), and what
    execute() does (see the other model files); texts of messages. *)

From Coq Require Import String Ascii Arith List Bool.
Import ListNotations.
Local Open Scope string_scope.
Local Open Scope list_scope.

(** The class templates that main instantiates, with their parameters in the order
    of the template declarations:
    GR1Context, XRoboticsSemantics<T>, XIROSFS<T>, XBiasForAction<T>,
    XFixedPointRecycling<T>, XCooperativeGR1Strategy<T>,
    XTwoDimensionalCost<T,isSysInitRoboticsSemantics,isSimpleRecovery>,
    XExtractExplicitStrategy<T,oneStepRecovery,jsonOutput>,
    XExtractPermissiveExplicitStrategy<T,oneStepRecovery>,
    XExtractSymbolicStrategy<T,oneStepRecovery,systemGoalEncoded>,
    XInteractiveStrategy<T>, XNonDeterministicMotion<T,initSpecialRoboticsSemantics>,
    XCounterStrategy<T,specialRoboticsSemantics>, XExtractExplicitCounterStrategy<T>,
    XAnalyzeAssumptions<T>, XAnalyzeInitialPositions<T,restrictToReachablePositions>,
    XInterleave<T>, XAnalyzeSafetyLivenessInteraction<T>,
    XAbstractWinningTraceGenerator<T>, XComputeCNFFormOfTheSpecification<T>,
    XIncompleteInformationEstimatorSynthesis<T>, XComputeInterestingRunOfTheSystem<T>,
    XComputeWeakenedSafetyAssumptions<T>. *)
Inductive plugin : Type :=
| PBase
| PRobotics (t : plugin)
| PFastSlow (t : plugin)
| PBias (t : plugin)
| PRecycling (t : plugin)
| PCooperative (t : plugin)
| PTwoDim (t : plugin) (robotics recovery : bool)
| PExplicit (t : plugin) (recovery json : bool)
| PPermissive (t : plugin) (recovery : bool)
| PSymbolic (t : plugin) (recovery encoded : bool)
| PInteractive (t : plugin)
| PMotion (t : plugin) (robotics : bool)
| PCounter (t : plugin) (robotics : bool)
| PExplicitCounter (t : plugin)
| PAssumptions (t : plugin)
| PInitial (t : plugin) (restrict : bool)
| PInterleave (t : plugin)
| PInteraction (t : plugin)
| PTrace (t : plugin)
| PCNF (t : plugin)
| PEstimator (t : plugin)
| PRun (t : plugin)
| PWeaken (t : plugin).

(** commandLineArguments, main.cpp:65-93 (without the descriptions). *)
Definition commandLineArguments : list string :=
  ["--explicitStrategy";
   "--symbolicStrategy";
   "--simpleSymbolicStrategy";
   "--jsonOutput";
   "--sysInitRoboticsSemantics";
   "--computeWeakenedSafetyAssumptions";
   "--biasForAction";
   "--computeCNFFormOfTheSpecification";
   "--counterStrategy";
   "--simpleRecovery";
   "--fixedPointRecycling";
   "--interactiveStrategy";
   "--IROSfastslow";
   "--analyzeInterleaving";
   "--analyzeInitialPositions";
   "--restrictToReachableStates";
   "--analyzeAssumptions";
   "--analyzeSafetyLivenessInteraction";
   "--computeInterestingRunOfTheSystem";
   "--computeAbstractWinningTrace";
   "--extractExplicitPermissiveStrategy";
   "--computeIncompleteInformationEstimator";
   "--nonDeterministicMotion";
   "--twoDimensionalCost";
   "--cooperativeGR1Strategy"].

(** optionCombinations, main.cpp:111-253, entry by entry. *)
Definition optionCombinations : list (string * plugin) :=
  [("", PBase);
   ("--IROSfastslow --explicitStrategy --jsonOutput --simpleRecovery --sysInitRoboticsSemantics", (PExplicit (PRobotics (PFastSlow PBase)) true true));
   ("--IROSfastslow --explicitStrategy --jsonOutput --simpleRecovery", (PExplicit (PFastSlow PBase) true true));
   ("--IROSfastslow --explicitStrategy --jsonOutput --sysInitRoboticsSemantics", (PExplicit (PRobotics (PFastSlow PBase)) false true));
   ("--IROSfastslow --explicitStrategy --jsonOutput", (PExplicit (PFastSlow PBase) false true));
   ("--IROSfastslow --explicitStrategy --simpleRecovery --sysInitRoboticsSemantics", (PExplicit (PRobotics (PFastSlow PBase)) true false));
   ("--IROSfastslow --explicitStrategy --simpleRecovery", (PExplicit (PFastSlow PBase) true false));
   ("--IROSfastslow --explicitStrategy --sysInitRoboticsSemantics", (PExplicit (PRobotics (PFastSlow PBase)) false false));
   ("--IROSfastslow --explicitStrategy", (PExplicit (PFastSlow PBase) false false));
   ("--IROSfastslow --extractExplicitPermissiveStrategy --sysInitRoboticsSemantics", (PPermissive (PRobotics (PFastSlow PBase)) false));
   ("--IROSfastslow --extractExplicitPermissiveStrategy", (PPermissive (PFastSlow PBase) false));
   ("--IROSfastslow --interactiveStrategy", (PInteractive (PFastSlow PBase)));
   ("--IROSfastslow --simpleRecovery --simpleSymbolicStrategy --sysInitRoboticsSemantics", (PSymbolic (PRobotics (PFastSlow PBase)) true true));
   ("--IROSfastslow --simpleRecovery --simpleSymbolicStrategy", (PSymbolic (PFastSlow PBase) true true));
   ("--IROSfastslow --simpleRecovery --symbolicStrategy --sysInitRoboticsSemantics", (PSymbolic (PRobotics (PFastSlow PBase)) true false));
   ("--IROSfastslow --simpleRecovery --symbolicStrategy", (PSymbolic (PFastSlow PBase) true false));
   ("--IROSfastslow --simpleSymbolicStrategy --sysInitRoboticsSemantics", (PSymbolic (PRobotics (PFastSlow PBase)) false true));
   ("--IROSfastslow --simpleSymbolicStrategy", (PSymbolic (PFastSlow PBase) false true));
   ("--IROSfastslow --symbolicStrategy --sysInitRoboticsSemantics", (PSymbolic (PRobotics (PFastSlow PBase)) false false));
   ("--IROSfastslow --symbolicStrategy", (PSymbolic (PFastSlow PBase) false false));
   ("--IROSfastslow --sysInitRoboticsSemantics", (PRobotics (PFastSlow PBase)));
   ("--IROSfastslow", (PFastSlow PBase));
   ("--analyzeAssumptions", (PAssumptions PBase));
   ("--analyzeInitialPositions --restrictToReachableStates", (PInitial PBase true));
   ("--analyzeInitialPositions", (PInitial PBase false));
   ("--analyzeInterleaving", (PInterleave PBase));
   ("--analyzeSafetyLivenessInteraction", (PInteraction PBase));
   ("--biasForAction --explicitStrategy --jsonOutput --simpleRecovery --sysInitRoboticsSemantics", (PExplicit (PRobotics (PBias PBase)) true true));
   ("--biasForAction --explicitStrategy --jsonOutput --simpleRecovery", (PExplicit (PBias PBase) true true));
   ("--biasForAction --explicitStrategy --jsonOutput --sysInitRoboticsSemantics", (PExplicit (PRobotics (PBias PBase)) false true));
   ("--biasForAction --explicitStrategy --jsonOutput", (PExplicit (PBias PBase) false true));
   ("--biasForAction --explicitStrategy --simpleRecovery --sysInitRoboticsSemantics", (PExplicit (PRobotics (PBias PBase)) true false));
   ("--biasForAction --explicitStrategy --simpleRecovery", (PExplicit (PBias PBase) true false));
   ("--biasForAction --explicitStrategy --sysInitRoboticsSemantics", (PExplicit (PRobotics (PBias PBase)) false false));
   ("--biasForAction --explicitStrategy", (PExplicit (PBias PBase) false false));
   ("--biasForAction --extractExplicitPermissiveStrategy --sysInitRoboticsSemantics", (PPermissive (PRobotics (PBias PBase)) false));
   ("--biasForAction --extractExplicitPermissiveStrategy", (PPermissive (PBias PBase) false));
   ("--biasForAction --interactiveStrategy", (PInteractive (PBias PBase)));
   ("--biasForAction --simpleRecovery --simpleSymbolicStrategy --sysInitRoboticsSemantics", (PSymbolic (PRobotics (PBias PBase)) true true));
   ("--biasForAction --simpleRecovery --simpleSymbolicStrategy", (PSymbolic (PBias PBase) true true));
   ("--biasForAction --simpleRecovery --symbolicStrategy --sysInitRoboticsSemantics", (PSymbolic (PRobotics (PBias PBase)) true false));
   ("--biasForAction --simpleRecovery --symbolicStrategy", (PSymbolic (PBias PBase) true false));
   ("--biasForAction --simpleSymbolicStrategy --sysInitRoboticsSemantics", (PSymbolic (PRobotics (PBias PBase)) false true));
   ("--biasForAction --simpleSymbolicStrategy", (PSymbolic (PBias PBase) false true));
   ("--biasForAction --symbolicStrategy --sysInitRoboticsSemantics", (PSymbolic (PRobotics (PBias PBase)) false false));
   ("--biasForAction --symbolicStrategy", (PSymbolic (PBias PBase) false false));
   ("--biasForAction --sysInitRoboticsSemantics", (PRobotics (PBias PBase)));
   ("--biasForAction", (PBias PBase));
   ("--computeAbstractWinningTrace", (PTrace PBase));
   ("--computeCNFFormOfTheSpecification", (PCNF PBase));
   ("--computeIncompleteInformationEstimator", (PEstimator PBase));
   ("--computeInterestingRunOfTheSystem", (PRun PBase));
   ("--computeWeakenedSafetyAssumptions", (PWeaken PBase));
   ("--cooperativeGR1Strategy --explicitStrategy --jsonOutput --simpleRecovery --sysInitRoboticsSemantics", (PExplicit (PRobotics (PCooperative PBase)) true true));
   ("--cooperativeGR1Strategy --explicitStrategy --jsonOutput --simpleRecovery", (PExplicit (PCooperative PBase) true true));
   ("--cooperativeGR1Strategy --explicitStrategy --jsonOutput --sysInitRoboticsSemantics", (PExplicit (PRobotics (PCooperative PBase)) false true));
   ("--cooperativeGR1Strategy --explicitStrategy --jsonOutput", (PExplicit (PCooperative PBase) false true));
   ("--cooperativeGR1Strategy --explicitStrategy --simpleRecovery --sysInitRoboticsSemantics", (PExplicit (PRobotics (PCooperative PBase)) true false));
   ("--cooperativeGR1Strategy --explicitStrategy --simpleRecovery", (PExplicit (PCooperative PBase) true false));
   ("--cooperativeGR1Strategy --explicitStrategy --sysInitRoboticsSemantics", (PExplicit (PRobotics (PCooperative PBase)) false false));
   ("--cooperativeGR1Strategy --explicitStrategy", (PExplicit (PCooperative PBase) false false));
   ("--cooperativeGR1Strategy --interactiveStrategy", (PInteractive (PCooperative PBase)));
   ("--cooperativeGR1Strategy --simpleRecovery --simpleSymbolicStrategy --sysInitRoboticsSemantics", (PSymbolic (PRobotics (PCooperative PBase)) true true));
   ("--cooperativeGR1Strategy --simpleRecovery --simpleSymbolicStrategy", (PSymbolic (PCooperative PBase) true true));
   ("--cooperativeGR1Strategy --simpleRecovery --symbolicStrategy --sysInitRoboticsSemantics", (PSymbolic (PRobotics (PCooperative PBase)) true false));
   ("--cooperativeGR1Strategy --simpleRecovery --symbolicStrategy", (PSymbolic (PCooperative PBase) true false));
   ("--cooperativeGR1Strategy --simpleSymbolicStrategy --sysInitRoboticsSemantics", (PSymbolic (PRobotics (PCooperative PBase)) false true));
   ("--cooperativeGR1Strategy --simpleSymbolicStrategy", (PSymbolic (PCooperative PBase) false true));
   ("--cooperativeGR1Strategy --symbolicStrategy --sysInitRoboticsSemantics", (PSymbolic (PRobotics (PCooperative PBase)) false false));
   ("--cooperativeGR1Strategy --symbolicStrategy", (PSymbolic (PCooperative PBase) false false));
   ("--cooperativeGR1Strategy --sysInitRoboticsSemantics", (PRobotics (PCooperative PBase)));
   ("--cooperativeGR1Strategy", (PCooperative PBase));
   ("--counterStrategy --sysInitRoboticsSemantics", (PExplicitCounter (PCounter PBase true)));
   ("--counterStrategy", (PExplicitCounter (PCounter PBase false)));
   ("--explicitStrategy --fixedPointRecycling --jsonOutput --simpleRecovery --sysInitRoboticsSemantics", (PExplicit (PRobotics (PRecycling PBase)) true true));
   ("--explicitStrategy --fixedPointRecycling --jsonOutput --simpleRecovery", (PExplicit (PRecycling PBase) true true));
   ("--explicitStrategy --fixedPointRecycling --jsonOutput --sysInitRoboticsSemantics", (PExplicit (PRobotics (PRecycling PBase)) false true));
   ("--explicitStrategy --fixedPointRecycling --jsonOutput", (PExplicit (PRecycling PBase) false true));
   ("--explicitStrategy --fixedPointRecycling --simpleRecovery --sysInitRoboticsSemantics", (PExplicit (PRobotics (PRecycling PBase)) true false));
   ("--explicitStrategy --fixedPointRecycling --simpleRecovery", (PExplicit (PRecycling PBase) true false));
   ("--explicitStrategy --fixedPointRecycling --sysInitRoboticsSemantics", (PExplicit (PRobotics (PRecycling PBase)) false false));
   ("--explicitStrategy --fixedPointRecycling", (PExplicit (PRecycling PBase) false false));
   ("--explicitStrategy --jsonOutput --simpleRecovery --sysInitRoboticsSemantics --twoDimensionalCost", (PExplicit (PTwoDim PBase true true) true true));
   ("--explicitStrategy --jsonOutput --simpleRecovery --sysInitRoboticsSemantics", (PExplicit (PRobotics PBase) true true));
   ("--explicitStrategy --jsonOutput --simpleRecovery --twoDimensionalCost", (PExplicit (PTwoDim PBase false true) true true));
   ("--explicitStrategy --jsonOutput --simpleRecovery", (PExplicit PBase true true));
   ("--explicitStrategy --jsonOutput --sysInitRoboticsSemantics --twoDimensionalCost", (PExplicit (PTwoDim PBase true false) false true));
   ("--explicitStrategy --jsonOutput --sysInitRoboticsSemantics", (PExplicit (PRobotics PBase) false true));
   ("--explicitStrategy --jsonOutput --twoDimensionalCost", (PExplicit (PTwoDim PBase false false) false true));
   ("--explicitStrategy --jsonOutput", (PExplicit PBase false true));
   ("--explicitStrategy --simpleRecovery --sysInitRoboticsSemantics --twoDimensionalCost", (PExplicit (PTwoDim PBase true true) true false));
   ("--explicitStrategy --simpleRecovery --sysInitRoboticsSemantics", (PExplicit (PRobotics PBase) true false));
   ("--explicitStrategy --simpleRecovery --twoDimensionalCost", (PExplicit (PTwoDim PBase false true) true false));
   ("--explicitStrategy --simpleRecovery", (PExplicit PBase true false));
   ("--explicitStrategy --sysInitRoboticsSemantics --twoDimensionalCost", (PExplicit (PTwoDim PBase true false) false false));
   ("--explicitStrategy --sysInitRoboticsSemantics", (PExplicit (PRobotics PBase) false false));
   ("--explicitStrategy --twoDimensionalCost", (PExplicit (PTwoDim PBase false false) false false));
   ("--explicitStrategy", (PExplicit PBase false false));
   ("--extractExplicitPermissiveStrategy --fixedPointRecycling --sysInitRoboticsSemantics", (PPermissive (PRobotics (PRecycling PBase)) false));
   ("--extractExplicitPermissiveStrategy --fixedPointRecycling", (PPermissive (PRecycling PBase) false));
   ("--extractExplicitPermissiveStrategy --sysInitRoboticsSemantics --twoDimensionalCost", (PPermissive (PTwoDim PBase true false) false));
   ("--extractExplicitPermissiveStrategy --sysInitRoboticsSemantics", (PPermissive (PRobotics PBase) false));
   ("--extractExplicitPermissiveStrategy --twoDimensionalCost", (PPermissive (PTwoDim PBase false false) false));
   ("--extractExplicitPermissiveStrategy", (PPermissive PBase false));
   ("--fixedPointRecycling --interactiveStrategy", (PInteractive (PRecycling PBase)));
   ("--fixedPointRecycling --simpleRecovery --simpleSymbolicStrategy --sysInitRoboticsSemantics", (PSymbolic (PRobotics (PRecycling PBase)) true true));
   ("--fixedPointRecycling --simpleRecovery --simpleSymbolicStrategy", (PSymbolic (PRecycling PBase) true true));
   ("--fixedPointRecycling --simpleRecovery --symbolicStrategy --sysInitRoboticsSemantics", (PSymbolic (PRobotics (PRecycling PBase)) true false));
   ("--fixedPointRecycling --simpleRecovery --symbolicStrategy", (PSymbolic (PRecycling PBase) true false));
   ("--fixedPointRecycling --simpleSymbolicStrategy --sysInitRoboticsSemantics", (PSymbolic (PRobotics (PRecycling PBase)) false true));
   ("--fixedPointRecycling --simpleSymbolicStrategy", (PSymbolic (PRecycling PBase) false true));
   ("--fixedPointRecycling --symbolicStrategy --sysInitRoboticsSemantics", (PSymbolic (PRobotics (PRecycling PBase)) false false));
   ("--fixedPointRecycling --symbolicStrategy", (PSymbolic (PRecycling PBase) false false));
   ("--fixedPointRecycling --sysInitRoboticsSemantics", (PRobotics (PRecycling PBase)));
   ("--fixedPointRecycling", (PRecycling PBase));
   ("--interactiveStrategy --nonDeterministicMotion", (PInteractive (PMotion PBase false)));
   ("--interactiveStrategy --twoDimensionalCost", (PInteractive (PTwoDim PBase false false)));
   ("--interactiveStrategy", (PInteractive PBase));
   ("--nonDeterministicMotion --sysInitRoboticsSemantics", (PMotion PBase true));
   ("--nonDeterministicMotion", (PMotion PBase false));
   ("--simpleRecovery --simpleSymbolicStrategy --sysInitRoboticsSemantics --twoDimensionalCost", (PSymbolic (PTwoDim PBase true true) true true));
   ("--simpleRecovery --simpleSymbolicStrategy --sysInitRoboticsSemantics", (PSymbolic (PRobotics PBase) true true));
   ("--simpleRecovery --simpleSymbolicStrategy --twoDimensionalCost", (PSymbolic (PTwoDim PBase false true) true true));
   ("--simpleRecovery --simpleSymbolicStrategy", (PSymbolic PBase true true));
   ("--simpleRecovery --symbolicStrategy --sysInitRoboticsSemantics --twoDimensionalCost", (PSymbolic (PTwoDim PBase true true) true false));
   ("--simpleRecovery --symbolicStrategy --sysInitRoboticsSemantics", (PSymbolic (PRobotics PBase) true false));
   ("--simpleRecovery --symbolicStrategy --twoDimensionalCost", (PSymbolic (PTwoDim PBase false true) true false));
   ("--simpleRecovery --symbolicStrategy", (PSymbolic PBase true false));
   ("--simpleSymbolicStrategy --sysInitRoboticsSemantics --twoDimensionalCost", (PSymbolic (PTwoDim PBase true false) false true));
   ("--simpleSymbolicStrategy --sysInitRoboticsSemantics", (PSymbolic (PRobotics PBase) false true));
   ("--simpleSymbolicStrategy --twoDimensionalCost", (PSymbolic (PTwoDim PBase false false) false true));
   ("--simpleSymbolicStrategy", (PSymbolic PBase false true));
   ("--symbolicStrategy --sysInitRoboticsSemantics --twoDimensionalCost", (PSymbolic (PTwoDim PBase true false) false false));
   ("--symbolicStrategy --sysInitRoboticsSemantics", (PSymbolic (PRobotics PBase) false false));
   ("--symbolicStrategy --twoDimensionalCost", (PSymbolic (PTwoDim PBase false false) false false));
   ("--symbolicStrategy", (PSymbolic PBase false false));
   ("--sysInitRoboticsSemantics --twoDimensionalCost", (PTwoDim PBase true false));
   ("--sysInitRoboticsSemantics", (PRobotics PBase));
   ("--twoDimensionalCost", (PTwoDim PBase false false))].

(** ** File names *)

(** The files that a plugin uses: the specification, the second input file (robot
    motion for XNonDeterministicMotion, costs for XTwoDimensionalCost) and the
    output file ([Some ""] and [None] both stand for standard output, as in the
    comparisons outputFilename=="" of the execute functions). *)
Record roles : Type := mkRoles {
  r_spec : option string;
  r_extra : option string;
  r_out : option string
}.
Definition noRoles : roles := mkRoles None None None.

(** Constructors: all of them first call the one of T; only
    XExtractExplicitCounterStrategy uses the file names
    (/repo/src/extensionExtractExplicitCounterstrategy.hpp:44-51).  [None]: front()
    of an empty list, undefined behaviour. *)
Fixpoint construct (p : plugin) (st : list string * roles) : option (list string * roles) :=
  match p with
  | PBase => Some st
  | PExplicitCounter t =>
      match construct t st with
      | None => None
      | Some (files, r) =>
          if Nat.eqb (List.length files) 1 then Some (files, mkRoles (r_spec r) (r_extra r) (Some ""))
          else match files with
               | [] => None
               | f :: files => Some (files, mkRoles (r_spec r) (r_extra r) (Some f))
               end
      end
  | PRobotics t | PFastSlow t | PBias t | PRecycling t | PCooperative t | PTwoDim t _ _ | PExplicit t _ _
  | PPermissive t _ | PSymbolic t _ _ | PInteractive t | PMotion t _ | PCounter t _ | PAssumptions t
  | PInitial t _ | PInterleave t | PInteraction t | PTrace t | PCNF t | PEstimator t | PRun t | PWeaken t =>
      construct t st
  end.

(** Exceptions about missing file names. *)
Inductive missing : Type := NoSpecification | NoSecondFile | NoOutput.

(** GR1Context::init takes the first file name
    (/repo/src/synthesisContextBasics.cpp:118-124); the same code in
    extensionIROSfastslow.hpp:71-77, extensionAnalyzeAssumptions.hpp:47-53,
    extensionAnalyzeInitialPositions.hpp:252-258,
    extensionIncompleteInformationEstimatorSynthesis.hpp:45-51. *)
Definition takeSpec (st : list string * roles) : missing + (list string * roles) :=
  match fst st with
  | [] => inl NoSpecification
  | f :: files => inr (files, mkRoles (Some f) (r_extra (snd st)) (r_out (snd st)))
  end.

(** init of the plugins. *)
Fixpoint initFiles (p : plugin) (st : list string * roles) : missing + (list string * roles) :=
  match p with
  | PBase => takeSpec st
  (* these override init and do not call T::init *)
  | PFastSlow _ | PAssumptions _ | PInitial _ _ | PEstimator _ => takeSpec st
  (* extensionNondeterministicMotion.hpp:154-167 *)
  | PMotion _ _ =>
      match fst st with
      | [] => inl NoSpecification
      | [_] => inl NoSecondFile
      | f :: f' :: files => inr (files, mkRoles (Some f) (Some f') (r_out (snd st)))
      end
  (* extensionTwoDimensionalCost.hpp:145-156 *)
  | PTwoDim t _ _ =>
      match initFiles t st with
      | inl e => inl e
      | inr ([], _) => inl NoSecondFile
      | inr (f :: files, r) => inr (files, mkRoles (r_spec r) (Some f) (r_out r))
      end
  (* extensionExtractExplicitStrategy.hpp:42-50, extensionPermissiveExplicitStrategy.hpp:43-51 *)
  | PExplicit t _ _ | PPermissive t _ =>
      match initFiles t st with
      | inl e => inl e
      | inr ([], r) => inr ([], mkRoles (r_spec r) (r_extra r) (Some ""))
      | inr (f :: files, r) => inr (files, mkRoles (r_spec r) (r_extra r) (Some f))
      end
  (* extensionExtractSymbolicStrategy.hpp:43-52 *)
  | PSymbolic t _ _ =>
      match initFiles t st with
      | inl e => inl e
      | inr ([], r) => inl NoOutput
      | inr (f :: files, r) => inr (files, mkRoles (r_spec r) (r_extra r) (Some f))
      end
  (* the others inherit init *)
  | PRobotics t | PBias t | PRecycling t | PCooperative t | PInteractive t | PCounter t _ | PExplicitCounter t
  | PInterleave t | PInteraction t | PTrace t | PCNF t | PRun t | PWeaken t => initFiles t st
  end.

(** ** main *)

(** std::set<std::string>::insert: sorted lists without duplicates. *)
Fixpoint setInsert (a : string) (l : list string) : list string :=
  match l with
  | [] => [a]
  | b :: l' =>
      match String.compare a b with
      | Lt => a :: l
      | Eq => l
      | Gt => b :: setInsert a l'
      end
  end.

(** arg[0]=='-', main.cpp:300 (arg[0] of an empty string is the null character). *)
Definition startsWithDash (a : string) : bool :=
  match a with
  | String c _ => Ascii.eqb c "-"%char
  | EmptyString => false
  end.
Definition known (a : string) : bool := existsb (fun b => String.eqb b a) commandLineArguments.

(** Parsing, main.cpp:298-317. *)
Fixpoint parseArgs (args : list string) (parameters filenames : list string) : string + (list string * list string) :=
  match args with
  | [] => inr (parameters, filenames)
  | arg :: args =>
      if startsWithDash arg then
        if known arg then parseArgs args (setInsert arg parameters) filenames else inl arg
      else parseArgs args parameters (filenames ++ [arg])
  end.

(** What main does before execute(). *)
Inductive outcome : Type :=
| UnknownParameter (arg : string)
| NotPermissible
| MissingFile (e : missing)
| TooManyFiles
| Undefined
| Execute (p : plugin) (r : roles).

(** main.cpp:331-350 for a combination that is in the list. *)
Definition start (p : plugin) (filenames : list string) : outcome :=
  match construct p (filenames, noRoles) with
  | None => Undefined
  | Some st =>
      match initFiles p st with
      | inl e => MissingFile e
      | inr ([], r) => Execute p r
      | inr (_ :: _, _) => TooManyFiles
      end
  end.
(** main.cpp:291-355.  The options are joined by single spaces. *)
Definition main (args : list string) : outcome :=
  match parseArgs args [] [] with
  | inl arg => UnknownParameter arg
  | inr (parameters, filenames) =>
      match find (fun e => String.eqb (fst e) (String.concat " " parameters)) optionCombinations with
      | None => NotPermissible
      | Some (_, p) => start p filenames
      end
  end.

(** The exit code if main does not reach execute(), main.cpp:310, 345, 355;
    the exceptions that are thrown for missing file names are of type const char*
    (lines 357-359). *)
Definition exitCode (o : outcome) : option nat :=
  match o with
  | UnknownParameter _ | NotPermissible | MissingFile _ | TooManyFiles => Some 1
  | Undefined | Execute _ _ => None
  end.
