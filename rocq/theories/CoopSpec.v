(** * Specification side: cooperative strategies

    Independent of the model of the code.  A strategy is cooperative if, whatever
    the environment has done so far, the environment can still satisfy all of its
    assumptions (cf. the comments in /repo/src/extensionCooperativeGR1Strategy.hpp,
    lines 7-12 and 171-173). *)

From Coq Require Import Arith List Bool.
From Verif Require Import Spec.
Import ListNotations.

(** The environment keeps to its safety assumptions for the first n steps. *)
Definition safe_until (g : game) (pi : nat -> state) (n : nat) : Prop :=
  forall m, m < n -> g_safeE g (pi m) (pi (S m)) = true.

(** The environment satisfies all of its assumptions on transitions. *)
Definition env_satisfied (g : game) (pi : nat -> state) : Prop :=
  (forall m, g_safeE g (pi m) (pi (S m)) = true) /\
  (forall p, In p (g_liveA g) -> inf_often p pi).

(** [pl x] is the play for the sequence of inputs [x].  [way] provides, for every
    sequence of inputs and every point in time up to which the environment has kept
    to its safety assumptions, a sequence of inputs that is the same up to this
    point and with which the environment satisfies all of its assumptions. *)
Definition leaves_way (g : game) (pl : (nat -> state) -> nat -> state) (permitted : (nat -> state) -> Prop) : Prop :=
  exists way : (nat -> state) -> nat -> nat -> state,
    forall x n, permitted x -> safe_until g (pl x) n ->
      (forall m, m <= n -> way x n m = x m) /\ env_satisfied g (pl (way x n)).

(** A position from which some winning strategy is cooperative. *)
Definition coop_winning (g : game) (s : state) : Prop :=
  exists f : strategy,
    (forall x, safe_and_live g (play_from g f s x)) /\
    leaves_way g (play_from g f s) (fun _ => True).

(** Realizability by a cooperative strategy. *)
Definition coop_realizable (g : game) : Prop :=
  exists f : strategy,
    (forall x, objective g (play g f x)) /\
    leaves_way g (play g f) (fun x => g_initE g (play g f x 0) = true).

(** The same in the robotics semantics. *)
Definition coop_realizable_robotics (g : game) : Prop :=
  exists f : strategy, forall s, g_initE g s = true -> g_initS g s = true ->
    (forall x, safe_and_live g (play_from g f s x)) /\
    leaves_way g (play_from g f s) (fun _ => True).
