(** * Specification side: GR(1) games, strategies and plays

    This file is independent of the model of the code.  It states what it means
    for a GR(1) specification to be realizable (cf. /repo/doc/input_formats.md and
    /repo/README.md; Bloem, Jobstmann, Piterman, Pnueli, Sa'ar: Synthesis of
    Reactive(1) Designs). *)

From Coq Require Import Arith List Bool.
Import ListNotations.

(** A position assigns a value to every declared variable (identified by its
    number); the values of numbers that are not declared do not matter. *)
Definition state := nat -> bool.

(** A GR(1) game.  [g_out k] tells if variable [k] is an output; all other
    variables are inputs.  Safety and liveness properties are properties of
    transitions, i.e. of the current and the next position. *)
Record game : Type := mkGame {
  g_out : nat -> bool;
  g_initE : state -> bool;
  g_initS : state -> bool;
  g_safeE : state -> state -> bool;
  g_safeS : state -> state -> bool;
  g_liveA : list (state -> state -> bool);
  g_liveG : list (state -> state -> bool)
}.

(** The position with the inputs of [x] and the outputs of [y]. *)
Definition merge (g : game) (x y : state) : state :=
  fun k => if g_out g k then y k else x k.

(** A strategy of the system: from the positions visited so far (latest first)
    and the next input to the next output. *)
Definition strategy := list state -> state -> state.

(** The play (latest position first) of length n+1 of a strategy on a sequence
    of inputs. *)
Fixpoint history (g : game) (f : strategy) (x : nat -> state) (n : nat) : list state :=
  match n with
  | O => [merge g (x 0) (f [] (x 0))]
  | S m => let h := history g f x m in merge g (x n) (f h (x n)) :: h
  end.

Definition play (g : game) (f : strategy) (x : nat -> state) (n : nat) : state :=
  hd (fun _ => false) (history g f x n).

(** A property of transitions holds infinitely often along a sequence. *)
Definition inf_often (p : state -> state -> bool) (pi : nat -> state) : Prop :=
  forall n, exists m, n <= m /\ p (pi m) (pi (S m)) = true.

(** Safety and liveness obligation on an infinite sequence of positions. *)
Definition safe_and_live (g : game) (pi : nat -> state) : Prop :=
  (forall n, (forall m, m <= n -> g_safeE g (pi m) (pi (S m)) = true) ->
             g_safeS g (pi n) (pi (S n)) = true) /\
  ((forall n, g_safeE g (pi n) (pi (S n)) = true) ->
   (forall p, In p (g_liveA g) -> inf_often p pi) ->
   (forall p, In p (g_liveG g) -> inf_often p pi)).

(** The complete objective: if the initial position is permitted by the
    environment assumptions, it must be a permitted one for the system, and the
    safety and liveness obligation must hold. *)
Definition objective (g : game) (pi : nat -> state) : Prop :=
  g_initE g (pi 0) = true ->
  g_initS g (pi 0) = true /\ safe_and_live g pi.

(** Realizability: the system has a strategy that enforces the objective. *)
Definition realizable (g : game) : Prop :=
  exists f : strategy, forall x : nat -> state, objective g (play g f x).

(** Plays that start in a given position. *)
Fixpoint history_from (g : game) (f : strategy) (s : state) (x : nat -> state) (n : nat) : list state :=
  match n with
  | O => [s]
  | S m => let h := history_from g f s x m in merge g (x n) (f h (x n)) :: h
  end.

Definition play_from (g : game) (f : strategy) (s : state) (x : nat -> state) (n : nat) : state :=
  hd (fun _ => false) (history_from g f s x n).

(** A position is winning for the system if some strategy enforces the safety
    and liveness obligation from there. *)
Definition winning (g : game) (s : state) : Prop :=
  exists f : strategy, forall x : nat -> state, safe_and_live g (play_from g f s x).

(** Realizability in the robotics semantics: the environment picks the whole
    initial position among those permitted for both players. *)
Definition realizable_robotics (g : game) : Prop :=
  exists f : strategy, forall (s : state) (x : nat -> state),
    g_initE g s = true -> g_initS g s = true -> safe_and_live g (play_from g f s x).
