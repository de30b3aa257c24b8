(** * Specification side: robots with uncertain motion

    Independent of the model of the code. *)

From Coq Require Import Arith List Bool.
From Verif Require Import Spec.
Import ListNotations.

Section MOTION.
  Variable g : game.
  (** The outputs that describe the motion state; the other outputs are set by the system. *)
  Variable mot : nat -> bool.
  (** The steps that the robot can take. *)
  Variable robot : state -> state -> bool.

  (** The next position: the environment picks the inputs [x], the system the controls [y], and the
      robot the motion state [r]. *)
  Definition m_next (x r y : state) : state := fun k => if mot k then r k else if g_out g k then y k else x k.
  (** A strategy sees the input and the past, but not how the robot is going to react. *)
  Fixpoint m_history_from (f : strategy) (s : state) (x r : nat -> state) (n : nat) : list state :=
    match n with
    | O => [s]
    | S m => let h := m_history_from f s x r m in m_next (x n) (r n) (f h (x n)) :: h
    end.
  Definition m_play_from (f : strategy) (s : state) (x r : nat -> state) (n : nat) : state :=
    hd (fun _ => false) (m_history_from f s x r n).

  (** The robot can execute the action of the step from [s] to [t], whatever the motion state of [t]. *)
  Definition same_action (t t' : state) : Prop := forall k, mot k = false -> t' k = t k.
  Definition possible (s t : state) : Prop := exists t', same_action t t' /\ robot s t' = true.
  (** The motion state changes; the action can change it. *)
  Definition moved (s t : state) : Prop := exists k, mot k = true /\ s k <> t k.
  Definition can_move (s t : state) : Prop := exists t', same_action t t' /\ robot s t' = true /\ moved s t'.

  (** The system only takes possible actions and keeps its safety guarantees as long as the environment
      keeps its assumptions and the robot reacts as described.  If this is so forever, if the liveness
      assumptions hold, and if the robot does not stay forever where it is although the actions can move
      it, then all goals are reached again and again. *)
  Definition m_safe_and_live (pi : nat -> state) : Prop :=
    (forall n, (forall i, i < n -> g_safeE g (pi i) (pi (S i)) = true /\ robot (pi i) (pi (S i)) = true) ->
       g_safeE g (pi n) (pi (S n)) = true ->
       possible (pi n) (pi (S n)) /\ (robot (pi n) (pi (S n)) = true -> g_safeS g (pi n) (pi (S n)) = true)) /\
    ((forall n, g_safeE g (pi n) (pi (S n)) = true /\ robot (pi n) (pi (S n)) = true) ->
     (forall p, In p (g_liveA g) -> inf_often p pi) ->
     (forall n, exists m, n <= m /\ (moved (pi m) (pi (S m)) \/ ~ can_move (pi m) (pi (S m)))) ->
     (forall p, In p (g_liveG g) -> inf_often p pi)).
  Definition m_winning_from (f : strategy) (s : state) : Prop := forall x r, m_safe_and_live (m_play_from f s x r).

  (** The system picks the initial values of all outputs. *)
  Definition m_realizable : Prop :=
    exists f : strategy, forall x0, let s := merge g x0 (f [] x0) in
      g_initE g s = true -> g_initS g s = true /\ m_winning_from f s.
  (** The environment picks the initial position. *)
  Definition m_realizable_robotics : Prop :=
    exists f : strategy, forall s, g_initE g s = true -> m_winning_from f s.
End MOTION.
