(** * Specification: abstract traces

    What a reader of the table printed by --computeAbstractWinningTrace sees: a row for
    every variable and a column for every round.  Independent of the model of the code. *)

From Coq Require Import Arith List Bool.
From Verif Require Import Spec.
Import ListNotations.

(** The entries "X", "0", "1" and "*". *)
Inductive cell : Type := Never | Zero | One | Any.
Definition fitsCell (a : cell) (b : bool) : Prop :=
  match a with
  | Never => False
  | Zero => b = false
  | One => b = true
  | Any => True
  end.
(** The entries of a column fit to a position; the rows belong to the variables [vars]. *)
Definition describes (vars : list nat) (column : list cell) (s : state) : Prop :=
  Forall2 (fun v a => fitsCell a (s v)) vars column.
(** Column number [j] of a table. *)
Definition columnOf (columns : list (list cell)) (j : nat) : list cell := nth j columns [].

(** The play in which the environment chooses its inputs by [e] from the positions so far (latest
    first), and the outputs are those of [y]. *)
Fixpoint env_history (g : game) (e : list state -> state) (s : state) (y : nat -> state) (n : nat) : list state :=
  match n with
  | O => [s]
  | S m => let h := env_history g e s y m in merge g (e h) (y n) :: h
  end.
Definition env_play (g : game) (e : list state -> state) (s : state) (y : nat -> state) (n : nat) : state :=
  hd (fun _ => false) (env_history g e s y n).

(** The first column describes a single position that is permitted initially. *)
Definition starts (g : game) (vars : list nat) (columns : list (list cell)) (s : state) : Prop :=
  g_initE g s = true /\ g_initS g s = true /\
  columnOf columns 0 = map (fun v => if s v then One else Zero) vars.

(** The environment can play such that the system violates its safety guarantees in one
    of the first [K] steps, and until then the positions are described by the columns.  If the violation occurs
    in the last of the steps, the position reached is described by column [K], unless this one contains "X". *)
Definition countertrace (g : game) (vars : list nat) (K : nat) (columns : list (list cell)) : Prop :=
  exists s e, starts g vars columns s /\
    forall y, let pi := env_play g e s y in exists m, m < K /\
      (forall j, j <= m -> g_safeE g (pi j) (pi (S j)) = true) /\
      (forall j, j < m -> g_safeS g (pi j) (pi (S j)) = true) /\
      g_safeS g (pi m) (pi (S m)) = false /\
      (forall j, j <= m -> describes vars (columnOf columns j) (pi j)) /\
      (S m = K -> ~ In Never (columnOf columns K) -> describes vars (columnOf columns K) (pi K)).

(** The system can play such that the environment violates its safety assumptions in one
    of the first [K] steps, and until then the positions are described by the columns. *)
Definition systemtrace (g : game) (vars : list nat) (K : nat) (columns : list (list cell)) : Prop :=
  exists s (f : strategy), starts g vars columns s /\
    forall x, let pi := play_from g f s x in exists m, m < K /\
      (forall j, j < m -> g_safeE g (pi j) (pi (S j)) = true) /\
      (forall j, j < m -> g_safeS g (pi j) (pi (S j)) = true) /\
      g_safeE g (pi m) (pi (S m)) = false /\
      (forall j, j <= m -> describes vars (columnOf columns j) (pi j)).

(** In one step from [s], the environment can make the system violate its safety guarantees or
    move to a position with [P]. *)
Definition env_forces (g : game) (P : state -> Prop) (s : state) : Prop :=
  exists x, forall y, g_safeE g s (merge g x y) = true /\ (g_safeS g s (merge g x y) = false \/ P (merge g x y)).
(** In one step from [s], the system can make the environment violate its safety assumptions or
    move to a position with [P] while satisfying its safety guarantees. *)
Definition sys_forces (g : game) (P : state -> Prop) (s : state) : Prop :=
  forall x, exists y, g_safeE g s (merge g x y) = false \/ (g_safeS g s (merge g x y) = true /\ P (merge g x y)).

(** The entry of a column for variable [k]. *)
Definition entry (vars : list nat) (column : list cell) (k : nat) (a : cell) : Prop :=
  exists r, nth_error vars r = Some k /\ nth_error column r = Some a.
