(** * Specification: structured slugs files and the games over integers that they describe

    Independent of the model of the translator.  Follows /repo/doc/input_formats.md, section
    "structuredslugs".  The sections of a file and its lines are those of FileSpec.v. *)

From Coq Require Import String Ascii List Bool Arith NArith ZArith.
From Verif Require Import FormulaSpec Spec FileSpec StructuredSpec StructGrammar.
Import ListNotations.
Local Open Scope list_scope.

(** ** Declarations *)

Inductive declaration : Type :=
| DBool (x : string)
| DInt (x : string) (mn mx : Z).

(** [text] is an integer: a sequence of digits, maybe with a sign; underscores between digits are
    ignored. *)
Definition withoutUnderscores (w : string) : string :=
  string_of_list_ascii (filter (fun a => negb (Ascii.eqb a "_"%char)) (list_ascii_of_string w)).
Definition integer (text : string) (z : Z) : Prop :=
  exists sign w n, strip text = (sign ++ w)%string /\ numeral (withoutUnderscores w) n /\
    ((sign = ""%string \/ sign = "+"%string) /\ z = Z.of_N n \/ sign = "-"%string /\ z = (- Z.of_N n)%Z).

(** The line is a name, or a name with a range: name:min...max; white space around the parts is
    ignored. *)
Definition occursIn (a : ascii) (s : string) : Prop := In a (list_ascii_of_string s).
Inductive declares (line : string) : declaration -> Prop :=
| d_bool : ~ occursIn ":" line -> declares line (DBool line)
| d_int x range a b mn mx : line = (x ++ ":" ++ range)%string -> ~ occursIn ":" x -> strip range = (a ++ "..." ++ b)%string ->
    integer a mn -> integer b mx -> (mn <= mx)%Z -> declares line (DInt (strip x) mn mx).

(** ** Positions *)

Inductive value : Type :=
| VBool (b : bool)
| VInt (z : Z).
(** The value is one of the variable. *)
Definition fits (d : declaration) (v : value) : Prop :=
  match d, v with
  | DBool _, VBool _ => True
  | DInt _ mn mx, VInt z => (mn <= z <= mx)%Z
  | _, _ => False
  end.
(** The values of the inputs and those of the outputs, in the order of their declarations. *)
Definition position : Type := list value * list value.

(** ** Bits: the Boolean variables and the bits of the integer variables *)

Definition bitsOf (d : declaration) (v : value) : list bool :=
  match d, v with
  | DBool _, VBool b => [b]
  | DInt _ mn mx, VInt z => map (fun i => Z.testbit (z - mn) (Z.of_nat i)) (seq 0 (bitsFor (mx - mn)))
  | _, _ => []
  end.
Definition namesOfBits (d : declaration) : list string :=
  match d with DBool x => [x] | DInt x mn mx => bitNames x mn mx end.
Definition integers (ds : list declaration) : limits :=
  flat_map (fun d => match d with DBool _ => [] | DInt x mn mx => [(x, (mn, mx))] end) ds.

Section MEANING.
  (** The declared inputs and outputs. *)
  Variables ins outs : list declaration.
  Let ds := ins ++ outs.

  (** All names for bits, each one followed by the name of its next value. *)
  Definition allNames : list string := flat_map (fun w => [w; (w ++ "'")%string]) (flat_map namesOfBits ds).
  (** The values of the bits. *)
  Definition bitState (p : position) : state :=
    fun k => nth k (flat_map (fun dv => bitsOf (fst dv) (snd dv)) (combine ds (fst p ++ snd p))) false.
  (** The value of an integer variable. *)
  Definition integerAt (p : position) (x : string) : Z :=
    match find (fun dv => match fst dv with DInt y _ _ => String.eqb y x | DBool _ => false end) (combine ds (fst p ++ snd p)) with
    | Some (_, VInt z) => z
    | _ => 0
    end%Z.

  (** The words that stand for Boolean values in formulas with integers: the Boolean variables, their
      next values, and the bits. *)
  Definition booleanWords : list string :=
    flat_map (fun d => match d with DBool x => [x; (x ++ "'")%string] | DInt x mn mx => bitNames x mn mx end) ds.

  (** A line is a formula in the prefix notation of slugs over the bits, or else a formula over
      the Boolean variables, the bits and the integers. *)
  Definition prefixLine (line : string) (f : fml) : Prop :=
    gram (fun w i => nth_error allNames i = Some w) maxNumber true 0 f (words line).
  Inductive line_means (line : string) : (position -> position -> bool) -> Prop :=
  | lm_prefix f : prefixLine line f ->
      line_means line (fun p q => holds f (valuation (bitState p) (bitState q)))
  | lm_infix f : (forall g, ~ prefixLine line g) -> reads booleanWords line f ->
      line_means line (fun p q => truth (integers ds)
        (fun next x => lookup allNames (valuation (bitState p) (bitState q)) (prime next x))
        (fun next x => integerAt (if next then q else p) x) false f).
End MEANING.

(** There is no white space but blanks. *)
Definition blanksOnly (line : string) : Prop := forall a, occursIn a line -> isWs a = true -> a = " "%char.

(** ** Games *)

Section GAME.
  Variables ins outs : list declaration.
  (** The meaning of the lines of every section. *)
  Variable m : section -> list (position -> position -> bool).

  Definition allOf (s : section) (p q : position) : bool := forallb (fun c => c p q) (m s).

  (** Strategies of the system: from the positions visited so far (latest first) and the next values of
      the inputs to the next values of the outputs. *)
  Definition intStrategy : Type := list position -> list value -> list value.
  Definition fitting (f : intStrategy) : Prop := forall h x, Forall2 fits outs (f h x).
  Definition fittingInputs (x : nat -> list value) : Prop := forall n, Forall2 fits ins (x n).
  Fixpoint intHistory (f : intStrategy) (x : nat -> list value) (n : nat) : list position :=
    match n with
    | O => [(x 0, f [] (x 0))]
    | S k => let h := intHistory f x k in (x n, f h (x n)) :: h
    end.
  Definition intPlay (f : intStrategy) (x : nat -> list value) (n : nat) : position := hd ([], []) (intHistory f x n).

  (** The objective, as in Spec.v. *)
  Definition infinitelyOften (c : position -> position -> bool) (pi : nat -> position) : Prop :=
    forall n, exists k, n <= k /\ c (pi k) (pi (S k)) = true.
  Definition intObjective (pi : nat -> position) : Prop :=
    allOf SEnvInit (pi 0) (pi 0) = true ->
    allOf SSysInit (pi 0) (pi 0) = true /\
    (forall n, (forall k, k <= n -> allOf SEnvTrans (pi k) (pi (S k)) = true) -> allOf SSysTrans (pi n) (pi (S n)) = true) /\
    ((forall n, allOf SEnvTrans (pi n) (pi (S n)) = true) ->
     (forall c, In c (m SEnvLive) -> infinitelyOften c pi) -> forall c, In c (m SSysLive) -> infinitelyOften c pi).

  Definition intRealizable : Prop :=
    exists f, fitting f /\ forall x, fittingInputs x -> intObjective (intPlay f x).
  Definition intUnrealizable : Prop :=
    forall f, fitting f -> exists x, fittingInputs x /\ ~ intObjective (intPlay f x).
End GAME.
