(** * Variable types, variable manager and synthesis context *)

From Coq Require Import String Ascii Arith List Bool.
From Verif Require Import BDD.
Import ListNotations.

(** enum VariableType, /repo/src/variableTypes.hpp:60-92. *)
Inductive VariableType : Set :=
| Pre | Post
| PreInput | PreOutput | PostInput | PostOutput
| PreOutputFast | PreOutputSlow | PostOutputFast | PostOutputSlow
| PreOutputBefore | PreOutputAfter | PostOutputBefore | PostOutputAfter
| ObservablePre | ObservablePost | ControllablePre | ControllablePost
| UnobservablePre | UnobservablePost | EstimationPre | EstimationPost
| PreMotionState | PostMotionState | PreOtherOutput | PostOtherOutput
| PreMotionControlOutput | PostMotionControlOutput
| SymbolicStrategyCounterVar
| CurrentLivenessAssumptionCounterPre | CurrentLivenessAssumptionCounterPost
| IsInftyCostPre | IsInftyCostPost | TransitiveClosureIntermediateVariables
| NoneVariableType.

(** REGISTER_VARIABLE_TYPE_HIERARCHY, /repo/src/variableTypes.hpp:134-170. *)
Definition parent (t : VariableType) : VariableType :=
  match t with
  | Pre | Post => NoneVariableType
  | PreInput | PreOutput => Pre
  | PostInput | PostOutput => Post
  | PreOutputFast | PreOutputSlow | PreOutputBefore | PreOutputAfter => PreOutput
  | PostOutputFast | PostOutputSlow | PostOutputBefore | PostOutputAfter => PostOutput
  | ObservablePre | UnobservablePre => PreInput
  | ObservablePost | UnobservablePost => PostInput
  | EstimationPre => PreOutput
  | EstimationPost => PostOutput
  | ControllablePre => ObservablePre
  | ControllablePost => ObservablePost
  | PreMotionState | PreOtherOutput | PreMotionControlOutput => PreOutput
  | PostMotionState | PostOtherOutput | PostMotionControlOutput => PostOutput
  | SymbolicStrategyCounterVar => NoneVariableType
  | CurrentLivenessAssumptionCounterPre | IsInftyCostPre => PreOutput
  | CurrentLivenessAssumptionCounterPost | IsInftyCostPost => PostOutput
  | TransitiveClosureIntermediateVariables => NoneVariableType
  | NoneVariableType => NoneVariableType
  end.

Definition vt_eq_dec (a b : VariableType) : {a = b} + {a <> b}.
Proof. decide equality. Defined.
Definition vt_eqb (a b : VariableType) : bool := if vt_eq_dec a b then true else false.

(** The closure loop, /repo/src/variableManager.cpp:139-143.  The hierarchy has at
    most four levels below NoneVariableType, so four rounds reach it. *)
Fixpoint typeClosure (fuel : nat) (t : VariableType) : list VariableType :=
  match fuel with
  | O => []
  | S n => if vt_eqb t NoneVariableType then [] else t :: typeClosure n (parent t)
  end.

(** doesVariableInheritType, /repo/src/variableManager.hpp (variableTypesAll[i].count(type)>0). *)
Definition inherits (t target : VariableType) : bool :=
  existsb (vt_eqb target) (typeClosure 4 t).

(** Variables (by number) with one of the listed types, in the order in which
    computeVariableInformation collects them for vectors and cubes
    (/repo/src/variableManager.cpp:148-203). *)
Definition varsOf (types : list VariableType) (tys : list VariableType) : list nat :=
  flat_map (fun ty => filter (fun i => inherits (nth i types NoneVariableType) ty)
                             (seq 0 (length types))) tys.

(** The fields of class GR1Context that make up a loaded specification,
    /repo/src/gr1context.hpp:26-31 and the variable tables of class
    SlugsVariableManager (/repo/src/variableManager.hpp).  The i-th variable is
    BDD variable i (variables[i] = mgr.newVariable()). *)
Record ctx : Type := mkCtx {
  varNames : list string;
  varTypes : list VariableType;
  livenessAssumptions : list BF;
  livenessGuarantees : list BF;
  initEnv : BF;
  initSys : BF;
  safetyEnv : BF;
  safetySys : BF
}.

(** The vectors and cubes of class GR1Context, /repo/src/gr1context.hpp:32-43. *)
Definition varVectorPre (c : ctx) : list nat := varsOf (varTypes c) [PreInput; PreOutput].
Definition varVectorPost (c : ctx) : list nat := varsOf (varTypes c) [PostInput; PostOutput].
Definition varCubePostInput (c : ctx) : list nat := varsOf (varTypes c) [PostInput].
Definition varCubePostOutput (c : ctx) : list nat := varsOf (varTypes c) [PostOutput].
Definition varCubePreInput (c : ctx) : list nat := varsOf (varTypes c) [PreInput].
Definition varCubePreOutput (c : ctx) : list nat := varsOf (varTypes c) [PreOutput].
Definition varCubePre (c : ctx) : list nat := varsOf (varTypes c) [PreOutput; PreInput].
Definition varCubePost (c : ctx) : list nat := varsOf (varTypes c) [PostOutput; PostInput].
Definition preVars (c : ctx) : list nat := varsOf (varTypes c) [Pre].
Definition postVars (c : ctx) : list nat := varsOf (varTypes c) [Post].
Definition postInputVars (c : ctx) : list nat := varsOf (varTypes c) [PostInput].
Definition postOutputVars (c : ctx) : list nat := varsOf (varTypes c) [PostOutput].

(** x.SwapVariables(varVectorPre,varVectorPost). *)
Definition swapPrePost (c : ctx) (f : BF) : BF := bswap (varVectorPre c) (varVectorPost c) f.

(** Fuel for fixed-point loops: enough for 2^(number of variables + 1) iterations. *)
Definition fpFuel (c : ctx) : nat := S (length (varTypes c)).
