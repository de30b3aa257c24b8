(** * Specification: state labels with values of variables

    Independent of the model of the tool explicitImplementationIntegerDecoder.py. *)

From Coq Require Import DecimalString String Ascii List Bool ZArith.
From Verif Require Import StructuredSpec StructFileSpec.
Import ListNotations.
Local Open Scope list_scope.

Definition newline : string := String "010"%char ""%string.
Definition showNumber (n : nat) : string := NilEmpty.string_of_uint (Nat.to_uint n).

(** The variables with their bits. *)
Fixpoint perVariable (ds : list declaration) (bits : list bool) : list (declaration * list bool) :=
  match ds with
  | [] => []
  | d :: ds => let n := length (namesOfBits d) in (d, firstn n bits) :: perVariable ds (skipn n bits)
  end.
(** How the value of a variable is shown: Boolean variables with their bit, integer variables with the
    number that their bits stand for.  A variable without bits is not shown. *)
Definition shown (p : declaration * list bool) : list string :=
  match p with
  | (DBool x, [b]) => [(x ++ ":" ++ if b then "1" else "0")%string]
  | (DInt x mn mx, _ :: _) => [(x ++ "=" ++ showZ (mn + bitsValue (snd p)))%string]
  | _ => []
  end.
Definition label (ds : list declaration) (bits : list bool) : string := String.concat ", " (flat_map shown (perVariable ds bits)).

(** The two lines about a state in the output of slugs. *)
Definition stateText (number rank : nat) (lab : string) (succs : list nat) : string :=
  ("State " ++ showNumber number ++ " with rank " ++ showNumber rank ++ " -> <" ++ lab ++ ">" ++ newline
   ++ String "009"%char "" ++ "With successors : " ++ String.concat ", " (map showNumber succs) ++ newline)%string.

(** How values are shown in a position; a variable with only one possible value is not shown. *)
Definition shownValue (p : declaration * value) : list string :=
  match p with
  | (DBool x, VBool b) => [(x ++ ":" ++ if b then "1" else "0")%string]
  | (DInt x mn mx, VInt z) => if (mn <? mx)%Z then [(x ++ "=" ++ showZ z)%string] else []
  | _ => []
  end.
