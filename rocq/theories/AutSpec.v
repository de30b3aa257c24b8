(** * Specification side: printed strategy automata

    What a reader of the printed strategy sees: a list of numbered states, each
    with the number of the goal that is pursued, a value for every declared
    variable and the numbers of its successors.  Independent of the model of the
    code. *)

From Coq Require Import Arith List Bool.
From Verif Require Import Spec.
Import ListNotations.

Record node : Type := mkNode {
  n_num : nat;
  n_rank : nat;
  n_vals : list bool;
  n_succ : list nat
}.

(** The position of a state: the i-th printed value belongs to the i-th declared
    variable. *)
Definition val (v : node) : state := fun k => nth k (n_vals v) false.

(** There is an edge from one printed state to another one. *)
Definition edge (A : list node) (v u : node) : Prop :=
  In v A /\ In u A /\ In (n_num u) (n_succ v).

(** Two positions agree on the input variables / on all of the N declared variables. *)
Definition same_in (g : game) (N : nat) (s t : state) : Prop :=
  forall k, k < N -> g_out g k = false -> s k = t k.
Definition same (N : nat) (s t : state) : Prop := forall k, k < N -> s k = t k.

(** An infinite path through the automaton and the sequence of its positions. *)
Definition path (A : list node) (p : nat -> node) : Prop := forall n, edge A (p n) (p (S n)).
Definition positions (p : nat -> node) : nat -> state := fun n => val (p n).

(** States that can be reached from a state with property [P]. *)
Inductive reach (A : list node) (P : node -> Prop) : node -> Prop :=
| reach_init v : In v A -> P v -> reach A P v
| reach_step v u : reach A P v -> edge A v u -> reach A P u.
