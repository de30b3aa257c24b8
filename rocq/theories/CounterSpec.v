(** * Specification side: printed counterstrategies

    What a reader of the output of --counterStrategy sees: a list of numbered
    states, each with a pair of numbers (an assumption and a guarantee), values of
    variables, and either the numbers of its successors or the remark that it has
    none.  Independent of the model of the code. *)

From Coq Require Import Arith List Bool.
From Verif Require Import Spec.
Import ListNotations.

Record cnode : Type := mkCNode {
  c_num : nat;
  c_rank : nat * nat;
  c_vals : list bool;
  (** [None]: "With no successors." *)
  c_succ : option (list nat)
}.

(** The position of a state: the i-th printed value belongs to the i-th declared
    variable.  (For states without successors only the inputs are printed.) *)
Definition cval (v : cnode) : state := fun k => nth k (c_vals v) false.

Definition cedge (A : list cnode) (v u : cnode) : Prop :=
  In v A /\ In u A /\ exists l, c_succ v = Some l /\ In (c_num u) l.

(** An infinite path through the counterstrategy. *)
Definition cpath (A : list cnode) (p : nat -> cnode) : Prop := forall n, cedge A (p n) (p (S n)).
Definition cpositions (p : nat -> cnode) : nat -> state := fun n => cval (p n).

(** An infinite sequence of positions is lost by the system: the safety
    assumptions hold all the time, all liveness assumptions are satisfied
    infinitely often, and some liveness guarantee is satisfied only a bounded
    number of times. *)
Definition lost (g : game) (pi : nat -> state) : Prop :=
  (forall n, g_safeE g (pi n) (pi (S n)) = true) /\
  (forall p, In p (g_liveA g) -> inf_often p pi) /\
  exists p B, In p (g_liveG g) /\ forall n, length (filter (fun m => p (pi m) (pi (S m))) (seq 0 n)) <= B.

(** States that can be reached from states with property [P]. *)
Inductive creach (A : list cnode) (P : cnode -> Prop) : cnode -> Prop :=
| creach_init v : In v A -> P v -> creach A P v
| creach_step v u : creach A P v -> cedge A v u -> creach A P u.

(** The values of the inputs among the first [N] variables, in order. *)
Definition inputs_of (g : game) (N : nat) (s : state) : list bool :=
  map s (filter (fun k => negb (g_out g k)) (seq 0 N)).

(** After the input [x] the system is stuck. *)
Definition deadlock (g : game) (s x : state) : Prop :=
  g_safeE g s x = true /\ forall y, g_safeS g s (merge g x y) = false.
