(** * Specification: structured slugs formulas and their meaning

    Independent of the model of the translator.  Follows /repo/doc/input_formats.md,
    section "structuredslugs", and grammar.wi. *)

From Coq Require Import String Ascii List Bool Arith NArith ZArith.
From Coq Require Import DecimalString.
From Verif Require Import FormulaSpec.
Import ListNotations.
Local Open Scope list_scope.

(** ** Syntax (NumberExpression and Formula in grammar.wi) *)
Inductive num : Type :=
| NumID (x : string) (* name of an integer variable, followed by a quote for its next value *)
| Numeral (n : Z)
| Add (a b : num)
| Mul (a b : num)
| NumBrackets (a : num)
| Overwrite (a b : num). (* a LEASTSIGNIFICANTBITOVERWRITES b *)

Inductive comparator : Set := CGt | CGe | CLt | CLe | CEq | CNe.
Inductive unop : Set := ONot | ONext | OFinally | OGlobally.

Inductive sfml : Type :=
| SBiimp (f g : sfml)
| SImp (f g : sfml)
| SXor (f g : sfml)
| SOr (f g : sfml)
| SAnd (f g : sfml)
| STemporal (weak : bool) (f g : sfml) (* U, W *)
| SUnary (o : unop) (f : sfml)
| SFalse
| STrue
| SBrackets (f : sfml)
| SAssign (x : string) (* name of a Boolean variable, followed by a quote for its next value *)
| SCalc (a : num) (c : comparator) (b : num).

(** A name without the quote at its end, and if there was one. *)
Definition quoteChar : ascii := "'"%char.
Fixpoint unprime (x : string) : string * bool :=
  match x with
  | EmptyString => (EmptyString, false)
  | String a EmptyString => if Ascii.eqb a quoteChar then (EmptyString, true) else (x, false)
  | String a x => let (y, p) := unprime x in (String a y, p)
  end.
Definition prime (p : bool) (w : string) : string := if p then (w ++ "'")%string else w.

(** ** Declared integer variables: name, minimum and maximum *)
Definition limits := list (string * (Z * Z)).
Definition limitsOf (D : limits) (x : string) : option (Z * Z) :=
  match find (fun d => String.eqb (fst d) x) D with Some d => Some (snd d) | None => None end.

(** The number of bits for the values 0 ... d. *)
Definition bitsFor (d : Z) : nat := N.size_nat (Z.to_N d).
Definition showZ (z : Z) : string := NilEmpty.string_of_int (Z.to_int z).
(** The names of the bits of a variable, least significant bit first. *)
Definition bitName (x : string) (mn mx : Z) (i : nat) : string :=
  (x ++ "@" ++ NilEmpty.string_of_uint (Nat.to_uint i) ++ (if Nat.eqb i 0 then "." ++ showZ mn ++ "." ++ showZ mx else ""))%string.
Definition bitNames (x : string) (mn mx : Z) : list string := map (bitName x mn mx) (seq 0 (bitsFor (mx - mn))).

(** The number given by bits. *)
Fixpoint bitsValue (bs : list bool) : Z :=
  match bs with [] => 0 | b :: bs => Z.b2z b + 2 * bitsValue bs end%Z.

(** ** Meaning *)

(** Truth value of a name in a valuation of a list of names. *)
Fixpoint lookup (names : list string) (e : nat -> bool) (w : string) : bool :=
  match names with
  | [] => false
  | n :: names => if String.eqb n w then e 0 else lookup names (fun i => e (S i)) w
  end.
(** Value of an integer variable, or of its next value. *)
Definition intValue (D : limits) (names : list string) (e : nat -> bool) (next : bool) (x : string) : Z :=
  match limitsOf D x with
  | Some (mn, mx) => mn + bitsValue (map (fun w => lookup names e (prime next w)) (bitNames x mn mx))
  | None => 0
  end%Z.

Section MEANING.
  Variable D : limits.
  Variable bv : bool -> string -> bool. (* Boolean variables; [true]: next values *)
  Variable nv : bool -> string -> Z.    (* integer variables *)

  (** The number of bits of an expression; only the meaning of Overwrite depends on it. *)
  Definition widthAdd (a b : nat) : nat :=
    match a, b with O, _ => b | _, O => a | _, _ => S (Nat.max a b) end.
  Fixpoint width (a : num) : nat :=
    match a with
    | NumID x => match limitsOf D (fst (unprime x)) with Some (mn, mx) => widthAdd (bitsFor (mx - mn)) (bitsFor mn) | None => 0 end
    | Numeral n => bitsFor n
    | Add a b => widthAdd (width a) (width b)
    | Mul a b => width a + width b
    | NumBrackets a => width a
    | Overwrite a b => width b
    end.

  (** [next]: the expression is below an operator for the next step. *)
  Fixpoint numValue (next : bool) (a : num) : Z :=
    match a with
    | NumID x => let (y, p) := unprime x in nv (p || next) y
    | Numeral n => n
    | Add a b => numValue next a + numValue next b
    | Mul a b => numValue next a * numValue next b
    | NumBrackets a => numValue next a
    | Overwrite a b => numValue next a + 2 ^ Z.of_nat (width a) * (numValue next b / 2 ^ Z.of_nat (width a))
    end%Z.

  Definition compareZ (c : comparator) (a b : Z) : bool :=
    match c with
    | CGt => b <? a
    | CGe => b <=? a
    | CLt => a <? b
    | CLe => a <=? b
    | CEq => a =? b
    | CNe => negb (a =? b)
    end%Z.

  (** For formulas without F, G, U and W. *)
  Fixpoint truth (next : bool) (f : sfml) : bool :=
    match f with
    | SBiimp f g => Bool.eqb (truth next f) (truth next g)
    | SImp f g => implb (truth next f) (truth next g)
    | SXor f g => xorb (truth next f) (truth next g)
    | SOr f g => truth next f || truth next g
    | SAnd f g => truth next f && truth next g
    | STemporal _ f g => false
    | SUnary ONot f => negb (truth next f)
    | SUnary ONext f => truth true f
    | SUnary _ f => false
    | SFalse => false
    | STrue => true
    | SBrackets f => truth next f
    | SAssign x => let (y, p) := unprime x in bv (p || next) y
    | SCalc a c b => compareZ c (numValue next a) (numValue next b)
    end.
End MEANING.

(** ** The names that a formula refers to *)
Section SIGNALS.
  Variable D : limits.
  Fixpoint numSignals (next : bool) (a : num) : list string :=
    match a with
    | NumID x => let (y, p) := unprime x in
        match limitsOf D y with Some (mn, mx) => map (prime (p || next)) (bitNames y mn mx) | None => [] end
    | Numeral n => []
    | Add a b | Mul a b | Overwrite a b => numSignals next a ++ numSignals next b
    | NumBrackets a => numSignals next a
    end.
  Fixpoint signals (next : bool) (f : sfml) : list string :=
    match f with
    | SBiimp f g | SImp f g | SXor f g | SOr f g | SAnd f g | STemporal _ f g => signals next f ++ signals next g
    | SUnary ONext f => signals true f
    | SUnary _ f | SBrackets f => signals next f
    | SFalse | STrue => []
    | SAssign x => let (y, p) := unprime x in [prime (p || next) y]
    | SCalc a _ b => numSignals next a ++ numSignals next b
    end.
End SIGNALS.

(** ** Supported formulas *)

(** A name as found by the tokenizer: it starts with a letter or one of _ . @ and a quote, and
    continues with these or digits. *)
Definition isWordStart (a : ascii) : bool :=
  let n := nat_of_ascii a in
  ((Nat.leb 65 n && Nat.leb n 90) || (Nat.leb 97 n && Nat.leb n 122)) || existsb (Ascii.eqb a) ["_"; "."; "'"; "@"]%char.
Fixpoint allChars (P : ascii -> bool) (s : string) : bool :=
  match s with EmptyString => true | String a s => P a && allChars P s end.
Definition isWordToken (x : string) : bool :=
  match x with EmptyString => false | String a y => isWordStart a && allChars (fun b => isWordStart b || isDigit b) y end.
Fixpoint numTokens (a : num) : bool :=
  match a with
  | NumID x => isWordToken x
  | Numeral n => (0 <=? n)%Z
  | Add a b | Mul a b | Overwrite a b => numTokens a && numTokens b
  | NumBrackets a => numTokens a
  end.
(** All names and numbers are tokens. *)
Fixpoint tokens (f : sfml) : bool :=
  match f with
  | SBiimp f g | SImp f g | SXor f g | SOr f g | SAnd f g | STemporal _ f g => tokens f && tokens g
  | SUnary _ f | SBrackets f => tokens f
  | SFalse | STrue => true
  | SAssign x => isWordToken x
  | SCalc a _ b => numTokens a && numTokens b
  end.

(** Formulas that can be translated: all integer variables are declared with a minimum of at least
    0, there is no next value of a next value, no multiplication, F, G, U, W and exclusive disjunction,
    and a number is overwritten by one with less bits. *)
Section SUPPORTED.
  Variable D : limits.
  Fixpoint numSupported (next : bool) (a : num) : Prop :=
    match a with
    | NumID x => let (y, p) := unprime x in p && next = false /\ exists mn mx, limitsOf D y = Some (mn, mx) /\ (0 <= mn)%Z
    | Numeral n => (0 <= n)%Z
    | Add a b => numSupported next a /\ numSupported next b
    | Mul a b => False
    | NumBrackets a => numSupported next a
    | Overwrite a b => numSupported next a /\ numSupported next b /\ width D a < width D b
    end.
  Fixpoint supported (next : bool) (f : sfml) : Prop :=
    match f with
    | SBiimp f g | SImp f g | SOr f g | SAnd f g => supported next f /\ supported next g
    | SXor _ _ | STemporal _ _ _ => False
    | SUnary ONot f | SBrackets f => supported next f
    | SUnary ONext f => next = false /\ supported true f
    | SUnary _ f => False
    | SFalse | STrue => True
    | SAssign x => existsb (Ascii.eqb quoteChar) (list_ascii_of_string x) && next = false
    | SCalc a _ b => numSupported next a /\ numSupported next b
    end.
End SUPPORTED.
