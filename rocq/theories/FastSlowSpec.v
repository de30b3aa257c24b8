(** * Specification side: fast and slow actions

    Independent of the model of the code. *)

From Coq Require Import String Ascii Arith List Bool.
From Verif Require Import Spec FileSpec.
Import ListNotations.

(** A step from [s] to [t] passes through the position in which the inputs and the fast outputs
    have already changed and the slow outputs have not. *)
Definition between (slow : nat -> bool) (s t : state) : state := fun k => if slow k then s k else t k.

(** A position that occurs in steps that the system may take: there is a permitted step from it and
    a permitted step into it. *)
Definition admissible (g : game) (q : state) : Prop :=
  (exists t, g_safeS g q t = true) /\ (exists s, g_safeS g s q = true).

(** The safety and liveness obligation, where every step of the system must be permitted and pass
    through an admissible position. *)
Definition fs_step (g : game) (slow : nat -> bool) (s t : state) : Prop :=
  g_safeS g s t = true /\ admissible g (between slow s t).
Definition fs_safe_and_live (g : game) (slow : nat -> bool) (pi : nat -> state) : Prop :=
  (forall n, (forall m, m <= n -> g_safeE g (pi m) (pi (S m)) = true) -> fs_step g slow (pi n) (pi (S n))) /\
  ((forall n, g_safeE g (pi n) (pi (S n)) = true) ->
   (forall p, In p (g_liveA g) -> inf_often p pi) ->
   (forall p, In p (g_liveG g) -> inf_often p pi)).
Definition fs_objective (g : game) (slow : nat -> bool) (pi : nat -> state) : Prop :=
  g_initE g (pi 0) = true -> g_initS g (pi 0) = true /\ fs_safe_and_live g slow pi.

Definition fs_realizable (g : game) (slow : nat -> bool) : Prop :=
  exists f : strategy, forall x : nat -> state, fs_objective g slow (play g f x).
Definition fs_realizable_robotics (g : game) (slow : nat -> bool) : Prop :=
  exists f : strategy, forall (s : state) (x : nat -> state),
    g_initE g s = true -> g_initS g s = true -> fs_safe_and_live g slow (play_from g f s x).
Definition fs_winning (g : game) (slow : nat -> bool) (s : state) : Prop :=
  exists f : strategy, forall x : nat -> state, fs_safe_and_live g slow (play_from g f s x).

(** ** Files

    The sections [OUTPUT_F] and [OUTPUT_S] take the place of [OUTPUT]. *)
Local Open Scope string_scope.

(** The ordinary specification in which nothing is said about the speed of the outputs. *)
Definition plainLine (l : string) : string :=
  if String.eqb (strip l) "[OUTPUT_F]" || String.eqb (strip l) "[OUTPUT_S]" then "[OUTPUT]" else l.
Definition plainFile (content : string) : string :=
  String.concat "" (map (fun l => plainLine l ++ String "010" "") (file_lines content)).

(** For every declared variable whether it is slow; [sec] is the header of the section. *)
Fixpoint slowVars (sec : string) (lines : list string) : list bool :=
  match lines with
  | [] => []
  | l :: ls =>
      match strip l with
      | EmptyString => slowVars sec ls
      | String a _ =>
          if (a =? "#")%char then slowVars sec ls
          else if (a =? "[")%char then slowVars (strip l) ls
          else if String.eqb sec "[OUTPUT_S]" then true :: slowVars sec ls
          else if String.eqb sec "[OUTPUT_F]" || String.eqb sec "[INPUT]" then false :: slowVars sec ls
          else slowVars sec ls
      end
  end.
