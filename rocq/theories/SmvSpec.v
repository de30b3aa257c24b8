(** * Specification: checking an automaton with a model checker

    Independent of the model of makeNuSMVInstanceToTestAutomatonFileAgainstSlugsSpecification.py.  The
    first part describes the fragment of the input language of NuSMV that the tool uses, and what it means
    that such a file has no violated specification; the second part says what is checked for an automaton. *)

From Coq Require Import String Ascii List Bool Arith.
From Verif Require Import FormulaSpec FileSpec Spec AutSpec GraphSpec.
Import ListNotations.
Local Open Scope string_scope.

(** ** NuSMV *)

(** Conditions: comparisons of the variable state, and literals. *)
Inductive cond : Type :=
| CTrue
| CState (k : nat)
| CLess (k : nat)
| CLit (positive : bool) (x : string)
| CAnd (c d : cond).
Inductive ltl : Type :=
| LTrue
| LFalse
| LVar (x : string)
| LStateNot (k : nat)
| LNot (f : ltl)
| LAnd (f g : ltl)
| LOr (f g : ltl)
| LImp (f g : ltl)
| LNext (f : ltl)
| LAlways (f : ltl)
| LEventually (f : ltl)
| LRelease (f g : ltl).
(** A module with Boolean variables and the variable state with the values 0 to m_last. *)
Record smv : Type := mkSmv {
  m_inputs : list string;
  m_vars : list string;
  m_last : nat;
  m_init : nat;
  m_state : list (cond * list nat);
  m_next : list (string * list (cond * list bool));
  m_specs : list ltl
}.

(** A sequence of values of the variables. *)
Record trace : Type := mkTrace { t_state : nat -> nat; t_var : nat -> string -> bool }.
Fixpoint condHolds (r : trace) (n : nat) (c : cond) : bool :=
  match c with
  | CTrue => true
  | CState k => Nat.eqb (t_state r n) k
  | CLess k => Nat.ltb (t_state r n) k
  | CLit b x => Bool.eqb (t_var r n x) b
  | CAnd c d => condHolds r n c && condHolds r n d
  end.
(** The values after the first condition that holds. *)
Fixpoint selected {V} (r : trace) (n : nat) (cases : list (cond * list V)) : list V :=
  match cases with
  | [] => []
  | (c, vs) :: cases => if condHolds r n c then vs else selected r n cases
  end.
Definition runs (M : smv) (r : trace) : Prop :=
  t_state r 0 = m_init M /\
  forall n, t_state r n <= m_last M /\ In (t_state r (S n)) (selected r n (m_state M)) /\
    forall x cases, In (x, cases) (m_next M) -> In (t_var r (S n) x) (selected r n cases).
Fixpoint satisfies (r : trace) (n : nat) (f : ltl) : Prop :=
  match f with
  | LTrue => True
  | LFalse => False
  | LVar x => t_var r n x = true
  | LStateNot k => t_state r n <> k
  | LNot f => ~ satisfies r n f
  | LAnd f g => satisfies r n f /\ satisfies r n g
  | LOr f g => satisfies r n f \/ satisfies r n g
  | LImp f g => satisfies r n f -> satisfies r n g
  | LNext f => satisfies r (S n) f
  | LAlways f => forall m, n <= m -> satisfies r m f
  | LEventually f => exists m, n <= m /\ satisfies r m f
  | LRelease f g => forall m, n <= m -> satisfies r m g \/ exists k, n <= k /\ k < m /\ satisfies r k f
  end.
(** The model checker reports no violation. *)
Definition passes (M : smv) : Prop := forall r, runs M r -> forall f, In f (m_specs M) -> satisfies r 0 f.

(** ** Automata *)

(** The input of a position is the one of a state. *)
Definition inputMatches (out : nat -> bool) (N : nat) (s : state) (v : node) : bool :=
  forallb (fun k => out k || Bool.eqb (s k) (val v k)) (seq 0 N).
(** The first successor for an input. *)
Definition successorFor (out : nat -> bool) (N : nat) (A : list node) (v : node) (s : state) : option node :=
  find (inputMatches out N s) (map (fun n => nth n A (mkNode 0 0 [] [])) (n_succ v)).
(** A sequence of positions is a behaviour of the automaton: it starts in any state, and follows the first
    successors for its inputs.  If there is no successor for the input, then the output is
    arbitrary and the automaton continues in any state. *)
Definition behaves (out : nat -> bool) (N : nat) (A : list node) (pi : nat -> state) : Prop :=
  exists q : nat -> node, (forall n, In (q n) A) /\ same N (pi 0) (val (q 0)) /\
    forall n u, successorFor out N A (q n) (pi (S n)) = Some u -> q (S n) = u /\ same N (pi (S n)) (val u).
(** What is checked: behaviours with an initial position that is permitted by ENV_INIT and SYS_INIT satisfy
    the safety and liveness obligation. *)
Definition approved (g : game) (N : nat) (A : list node) : Prop :=
  forall pi, behaves (g_out g) N A pi -> g_initE g (pi 0) = true -> g_initS g (pi 0) = true -> safe_and_live g pi.

(** No state has two successors with the same input. *)
Definition deterministic (g : game) (N : nat) (A : list node) : Prop :=
  forall v u u', edge A v u -> edge A v u' -> same_in g N (val u) (val u') -> u = u'.

(** ** Files *)

(** Formulas with only the operators and, or and not. *)
Fixpoint basic (f : fml) : bool :=
  match f with
  | FTrue | FFalse | FVar _ => true
  | FNot f => basic f
  | FAnd f g | FOr f g => basic f && basic g
  | _ => false
  end.
(** The words of the line are separated by single blanks. *)
Definition singleBlanks (line : string) : Prop := line = String.concat " " (words line).
(** A name without the characters that separate names and values in a strategy. *)
Definition cleanName (x : string) : Prop := forall a, In a (list_ascii_of_string x) -> ~ In a [" "; "<"; ":"; ">"; "010"]%char.
(** A file that the tool can read, with the formulas [fs] of its sections. *)
Definition checkable (text : string) (L : items) (fs : section -> list fml) : Prop :=
  layout None (file_lines text) = Some L /\ NoDup (declared L) /\ formulas_of true L fs /\
  (forall s f, formulaSection s = true -> In f (fs s) -> basic f = true) /\
  (forall s line, formulaSection s = true -> In (s, line) L -> singleBlanks line) /\
  variableNames L <> [] /\ (forall x, In x (variableNames L) -> cleanName x).
(** States that are numbered from 0 in the order of the list, with values for [N] variables. *)
Definition numbered (N : nat) (A : list node) : Prop :=
  map n_num A = seq 0 (length A) /\
  forall v, In v A -> length (n_vals v) = N /\ forall n, In n (n_succ v) -> n < length A.
