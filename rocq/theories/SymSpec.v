(** * Specification side: symbolic strategies

    How a reader of the written file interprets the Boolean function: the file
    header lists a name for every variable number.  Independent of the model of
    the code. *)

From Coq Require Import String DecimalString Arith List Bool.
From Verif Require Import Spec.
Import ListNotations.
Open Scope string_scope.

(** The k-th bit of the goal counter (bit 0 is the least significant one), and
    the same bit of the next value of the counter. *)
Definition counterBit (k : nat) : string := "_jx_b" ++ NilEmpty.string_of_uint (Nat.to_uint k).
Definition counterBit' (k : nat) : string := counterBit k ++ "'".

(** The value of an added variable, for counter value [i], next counter value [i']
    and transition type [b]. *)
Definition addedVal (bound : nat) (name : string) (i i' : nat) (b : bool) : bool :=
  existsb (fun k => (String.eqb name (counterBit k) && Nat.testbit i k) ||
                    (String.eqb name (counterBit' k) && Nat.testbit i' k)) (seq 0 bound) ||
  (String.eqb name "strat_type" && b).

(** The valuation of the variables: the numbers below [2 * N] belong to the [N]
    declared variables (the current value followed by the next value), all other
    numbers to added variables, told apart by their names. *)
Definition symVal (N : nat) (names : list string) (s t : state) (i i' : nat) (b : bool) (v : nat) : bool :=
  if Nat.ltb v (2 * N) then (if Nat.even v then s (Nat.div2 v) else t (Nat.div2 v))
  else addedVal (length names) (nth v names "") i i' b.

(** Names of the variables added with --simpleSymbolicStrategy ([encoded]) and
    with --symbolicStrategy, for [k] counter bits. *)
Definition addedNames (encoded : bool) (k : nat) : list string :=
  if encoded then flat_map (fun j => [counterBit j; counterBit' j]) (seq 0 k)
  else (map counterBit (seq 0 k) ++ ["strat_type"])%list.
