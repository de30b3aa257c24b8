(** * Specification: outputs that have to be set before the input is read *)

From Coq Require Import Arith List Bool.
From Verif Require Import Spec.
Import ListNotations.

(** After the initial position, the values of the outputs in [B] do not depend on the next input. *)
Definition before (B : nat -> bool) (f : strategy) : Prop :=
  forall h x x' k, h <> [] -> B k = true -> f h x k = f h x' k.
Definition realizable_before (g : game) (B : nat -> bool) : Prop :=
  exists f : strategy, before B f /\ forall x : nat -> state, objective g (play g f x).

(** The same also for the initial position. *)
Definition realizable_always_before (g : game) (B : nat -> bool) : Prop :=
  exists f : strategy, (forall h x x' k, B k = true -> f h x k = f h x' k) /\ forall x : nat -> state, objective g (play g f x).

(** [B] with one more output. *)
Definition add (k : nat) (B : nat -> bool) : nat -> bool := fun i => Nat.eqb i k || B i.
