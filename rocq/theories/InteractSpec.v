(** * Specification: games with deactivated parts, non-strict implication, deadlocks *)

From Coq Require Import Arith List Bool.
From Verif Require Import Spec.
Import ListNotations.

(** Only some of the safety assumptions, liveness assumptions, safety guarantees and
    liveness guarantees have to be satisfied. *)
Definition only (g : game) (safeA liveA safeG liveG : bool) : game :=
  mkGame (g_out g) (g_initE g) (g_initS g)
    (if safeA then g_safeE g else fun _ _ => true)
    (if safeG then g_safeS g else fun _ _ => true)
    (if liveA then g_liveA g else [])
    (if liveG then g_liveG g else []).

(** Non-strict implication: the guarantees have to hold if all assumptions hold during
    the whole run. *)
Definition implication (g : game) (pi : nat -> state) : Prop :=
  (forall n, g_safeE g (pi n) (pi (S n)) = true) ->
  (forall p, In p (g_liveA g) -> inf_often p pi) ->
  (forall n, g_safeS g (pi n) (pi (S n)) = true) /\
  (forall p, In p (g_liveG g) -> inf_often p pi).
Definition realizable_nonstrict (g : game) : Prop :=
  exists f : strategy, forall x, let pi := play g f x in
    g_initE g (pi 0) = true -> g_initS g (pi 0) = true /\ implication g pi.
Definition realizable_nonstrict_robotics (g : game) : Prop :=
  exists f : strategy, forall s x, g_initE g s = true -> g_initS g s = true -> implication g (play_from g f s x).

(** Within [k] steps from [s], the environment can force the system to violate its
    safety guarantees: whatever the system does, there are inputs after which it has done
    so while the environment has satisfied its assumptions. *)
Definition env_falsifies (g : game) (k : nat) (s : state) : Prop :=
  forall f : strategy, exists x m, m < k /\
    (forall j, j <= m -> g_safeE g (play_from g f s x j) (play_from g f s x (S j)) = true) /\
    g_safeS g (play_from g f s x m) (play_from g f s x (S m)) = false.
(** Within [k] steps from [s], the system can force the environment to violate its
    safety assumptions, without violating its own guarantees before. *)
Definition sys_falsifies (g : game) (k : nat) (s : state) : Prop :=
  exists f : strategy, forall x, exists m, m < k /\
    g_safeE g (play_from g f s x m) (play_from g f s x (S m)) = false /\
    (forall j, j < m -> g_safeS g (play_from g f s x j) (play_from g f s x (S j)) = true).

(** The environment has an initial input permitted by its initialization constraint such
    that whatever permitted initial output the system picks, it can force the violation
    within [k] steps. *)
Definition env_wins_within (g : game) (k : nat) : Prop :=
  exists x, (forall y, g_initE g (merge g x y) = true) /\
    forall y, g_initS g (merge g x y) = true -> env_falsifies g k (merge g x y).
(** The system has for every permitted initial input a permitted initial output from
    which it can force the violation within [k] steps. *)
Definition sys_wins_within (g : game) (k : nat) : Prop :=
  forall x, exists y, g_initE g (merge g x y) = true -> g_initS g (merge g x y) = true /\ sys_falsifies g k (merge g x y).

(** [k] is the least positive number for which [P] holds. *)
Definition least (P : nat -> Prop) (k : nat) : Prop := 1 <= k /\ P k /\ forall j, 1 <= j < k -> ~ P j.
