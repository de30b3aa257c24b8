(** * Specification: ways back to winning positions *)

From Coq Require Import Arith List Bool.
From Verif Require Import Spec.
Import ListNotations.

(** Without violating its safety guarantees, the system can reach a winning position
    from [s], with the help of the environment. *)
Inductive can_return (g : game) : state -> Prop :=
| cr_here s : winning g s -> can_return g s
| cr_step s t : g_safeS g s t = true -> can_return g t -> can_return g s.
