(** * Specification side: lists of literals

    Variables are numbered from 1; a literal is a number or its negation.  Independent
    of the model of the code. *)

From Coq Require Import String ZArith Arith List Bool.
From Verif Require Import Spec.
Import ListNotations.

(** A literal holds for a valuation of the numbers. *)
Definition litSat (v : Z -> bool) (l : Z) : bool := if (0 <? l)%Z then v l else negb (v (- l)%Z).
(** Clauses are disjunctions, cubes conjunctions. *)
Definition clauseSat (v : Z -> bool) (cl : list Z) : bool := existsb (litSat v) cl.
Definition cubeSat (v : Z -> bool) (cu : list Z) : bool := forallb (litSat v) cu.
Definition cnfSat (v : Z -> bool) (cls : list (list Z)) : bool := forallb (clauseSat v) cls.
Definition dnfSat (v : Z -> bool) (cus : list (list Z)) : bool := existsb (cubeSat v) cus.

(** The numbers 2k+1 and 2k+2 stand for the current and the next value of the k-th
    declared variable (k = 0, 1, ...). *)
Definition numberVal (s t : state) (z : Z) : bool :=
  let v := Z.to_nat (z - 1) in if Nat.even v then s (Nat.div2 v) else t (Nat.div2 v).
