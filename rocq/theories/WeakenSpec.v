(** * Specification: clauses over the variables of two positions *)

From Coq Require Import ZArith Arith List Bool.
From Verif Require Import Spec.
Import ListNotations.

(** The values of the variables: the variable with number 2k is the k-th one in the
    current position [s], and the one with number 2k+1 is the k-th one in the next
    position [t]. *)
Definition value (s t : state) (i : nat) : bool := if Nat.even i then s (Nat.div2 i) else t (Nat.div2 i).
(** The entry 1 stands for the variable, -1 for its negation, and 0 means that the variable
    does not occur. *)
Definition entry_holds (z : Z) (b : bool) : bool := (Z.eqb z 1 && b) || (Z.eqb z (-1) && negb b).
Definition clause_holds (v : list Z) (s t : state) : bool :=
  existsb (fun i => entry_holds (nth i v 0%Z) (value s t i)) (seq 0 (length v)).

(** [v] results from [v'] by removing literals. *)
Definition literals_of (v v' : list Z) : Prop :=
  length v = length v' /\ forall i, nth i v 0%Z = 0%Z \/ nth i v 0%Z = nth i v' 0%Z.

(** The order in which clauses are listed: lexicographic. *)
Fixpoint before (a b : list Z) : Prop :=
  match a, b with
  | _, [] => False
  | [], _ :: _ => True
  | x :: a, y :: b => (x < y)%Z \/ (x = y /\ before a b)
  end.

(** An assumption relies on a variable if changing only this variable can make a difference. *)
Definition relies (A : state -> state -> bool) (i : nat) : Prop :=
  exists s t s' t', (forall j, j <> i -> value s t j = value s' t' j) /\ A s t <> A s' t'.
