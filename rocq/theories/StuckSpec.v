(** * Specification: games in which a variable is fixed to a value

    Independent of the model of the tool analyzeStuckAtConstant.py. *)

From Coq Require Import String List Bool Arith ZArith.
From Verif Require Import FileSpec StructuredSpec StructFileSpec.
Import ListNotations.
Local Open Scope list_scope.

Definition nameOfDecl (d : declaration) : string := match d with DBool x => x | DInt x _ _ => x end.
(** The text of a value in Python. *)
Definition showValue (v : value) : string :=
  match v with VBool true => "True" | VBool false => "False" | VInt z => showZ z end.

Definition valueEqb (v w : value) : bool :=
  match v, w with
  | VBool a, VBool b => Bool.eqb a b
  | VInt a, VInt b => Z.eqb a b
  | _, _ => false
  end.
(** Variable number k (inputs first) has value v. *)
Definition hasValue (k : nat) (v : value) (p : position) : bool :=
  match nth_error (fst p ++ snd p) k with Some w => valueEqb w v | None => false end.

(** The game in which the system (or else the environment) must give variable number k the value v
    at all times. *)
Definition fixedGame (bySystem : bool) (k : nat) (v : value) (m : section -> list (position -> position -> bool)) : section -> list (position -> position -> bool) :=
  fun s =>
    match s, bySystem with
    | SSysInit, true | SEnvInit, false => m s ++ [fun p _ => hasValue k v p]
    | SSysTrans, true | SEnvTrans, false => m s ++ [fun _ q => hasValue k v q]
    | _, _ => m s
    end.

(** The lines for value [v] of variable [x]: for the transitions and for the initial positions. *)
Definition lineFor (next : bool) (x : string) (v : value) : string :=
  match v with
  | VBool true => prime next x
  | VBool false => ("! " ++ prime next x)%string
  | VInt z => (prime next x ++ "=" ++ showZ z)%string
  end.
