(** * Specification: replacing integer variables by differences

    Independent of the model of integerVariableSubstitutor.py.  Lines and their meaning as in StructGrammar.v and
    StructuredSpec.v. *)

From Coq Require Import String Ascii List Bool Arith NArith ZArith.
From Verif Require Import FormulaSpec StructuredSpec StructGrammar.
Import ListNotations.
Local Open Scope list_scope.

(** A text is read as a number. *)
Definition readsNumber (bools : list string) (text : string) (e : num) : Prop :=
  exists ts, lexes bools text ts /\ number 3 ts e.

(** The words for integers in a formula (with the quote for a next value). *)
Fixpoint numWords (a : num) : list string :=
  match a with
  | NumID x => [x]
  | Numeral _ => []
  | Add a b | Mul a b | Overwrite a b => numWords a ++ numWords b
  | NumBrackets a => numWords a
  end.
Fixpoint integerWords (f : sfml) : list string :=
  match f with
  | SBiimp f g | SImp f g | SXor f g | SOr f g | SAnd f g | STemporal _ f g => integerWords f ++ integerWords g
  | SUnary _ f | SBrackets f => integerWords f
  | SFalse | STrue | SAssign _ => []
  | SCalc a _ b => numWords a ++ numWords b
  end.
(** The words for Boolean values, also with the quote for a next value if below an operator for the next step. *)
Fixpoint boolWords (next : bool) (f : sfml) : list string :=
  match f with
  | SBiimp f g | SImp f g | SXor f g | SOr f g | SAnd f g | STemporal _ f g => boolWords next f ++ boolWords next g
  | SUnary ONext f => boolWords true f
  | SUnary _ f | SBrackets f => boolWords next f
  | SFalse | STrue => []
  | SAssign x => [x; prime next x]
  | SCalc _ _ _ => []
  end.

(** Formulas in which integers can be replaced: no exclusive disjunction and operators F, G, U and W, sums of integer
    variables and numbers without brackets, operators for the next step not nested and not above integer variables. *)
Fixpoint sumOnly (next : bool) (a : num) : Prop :=
  match a with
  | NumID _ => next = false
  | Numeral _ => True
  | Add a b => sumOnly next a /\ sumOnly next b
  | Mul _ _ | NumBrackets _ | Overwrite _ _ => False
  end.
Fixpoint substitutable (next : bool) (f : sfml) : Prop :=
  match f with
  | SBiimp f g | SImp f g | SOr f g | SAnd f g => substitutable next f /\ substitutable next g
  | SXor _ _ | STemporal _ _ _ => False
  | SUnary ONot f | SBrackets f => substitutable next f
  | SUnary ONext f => next = false /\ substitutable true f
  | SUnary _ _ => False
  | SFalse | STrue => True
  | SAssign x => next = true -> ~ In quoteChar (list_ascii_of_string x)
  | SCalc a _ b => sumOnly next a /\ sumOnly next b
  end.
(** The value of the word for an integer. *)
Definition wordValue (nv : bool -> string -> Z) (x : string) : Z := let (y, p) := unprime x in nv p y.
