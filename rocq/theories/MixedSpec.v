(** * Specification: games in which assumptions may be violated a limited number of times

    Independent of the model of the tool kResilientRealizabilityChecker.py.  Every safety assumption has
    a level: an assumption of level 0 must hold, violations of an assumption of level 2 are not
    restricted, and violations of assumptions of level 1 are counted.  The system keeps the count (a
    natural number): it starts with 0, grows by at most the number of violated assumptions of level 1 in
    every step, and may be lowered by the system at any time.  The environment must not violate more
    assumptions of level 1 in a step than the bound k minus the count.  While the count is not 0, the
    liveness assumptions count as satisfied, so that the system should only lower the count when it has
    recovered.  The system must reach its goals, and the count 0, infinitely often, where every
    transition that violates an assumption of level 1 or 2 counts as a transition that reaches them. *)

From Coq Require Import String Ascii List Bool Arith.
From Verif Require Import FormulaSpec Spec FileSpec.
Import ListNotations.
Local Open Scope list_scope.

(** Every assumption with its level; [levels] has an entry for every assumption that is not marked. *)
Fixpoint withLevels {A} (marks : list bool) (levels : list nat) (fs : list A) : list (A * nat) :=
  match marks, fs with
  | true :: marks, f :: fs => (f, 0) :: withLevels marks levels fs
  | false :: marks, f :: fs => (f, hd 0 levels) :: withLevels marks (tl levels) fs
  | _, _ => []
  end.

(** Positions with a count, and strategies and plays as for games. *)
Definition countedState : Type := state * nat.
Definition countedStrategy : Type := list countedState -> state -> countedState.
Fixpoint countedHistory (g : game) (f : countedStrategy) (x : nat -> state) (n : nat) : list countedState :=
  match n with
  | O => let y := f [] (x 0) in [(merge g (x 0) (fst y), snd y)]
  | S m => let h := countedHistory g f x m in let y := f h (x n) in (merge g (x n) (fst y), snd y) :: h
  end.
Definition countedPlay (g : game) (f : countedStrategy) (x : nat -> state) (n : nat) : countedState :=
  hd (fun _ => false, 0) (countedHistory g f x n).

Section MIXED.
  (** The game (its safety assumptions are not used), the safety assumptions with their levels, and the
      bound. *)
  Variable G : game.
  Variable assumptions : list ((state -> state -> bool) * nat).
  Variable k : nat.

  (** The number of violated assumptions of level 1. *)
  Definition violations (st st' : state) : nat :=
    length (filter (fun a => (snd a =? 1)%nat && negb (fst a st st')) assumptions).
  (** Some assumption of level 1 or 2 is violated. *)
  Definition disturbed (st st' : state) : Prop :=
    exists a, In a assumptions /\ snd a <> 0 /\ fst a st st' = false.

  (** The steps that are allowed for the environment and for the system. *)
  Definition stepE (p q : countedState) : Prop :=
    (forall a, In a assumptions -> snd a = 0 -> fst a (fst p) (fst q) = true) /\
    snd p + violations (fst p) (fst q) <= k.
  Definition stepS (p q : countedState) : Prop :=
    g_safeS G (fst p) (fst q) = true /\ snd q <= snd p + violations (fst p) (fst q).

  Definition often (R : countedState -> countedState -> Prop) (pi : nat -> countedState) : Prop :=
    forall n, exists m, n <= m /\ R (pi m) (pi (S m)).

  Definition mixedObjective (pi : nat -> countedState) : Prop :=
    g_initE G (fst (pi 0)) = true ->
    (g_initS G (fst (pi 0)) = true /\ snd (pi 0) = 0) /\
    (forall n, (forall m, m <= n -> stepE (pi m) (pi (S m))) -> stepS (pi n) (pi (S n))) /\
    ((forall n, stepE (pi n) (pi (S n))) ->
     (forall a, In a (g_liveA G) -> often (fun p q => snd p <> 0 \/ a (fst p) (fst q) = true) pi) ->
     (forall goal, In goal (g_liveG G) -> often (fun p q => disturbed (fst p) (fst q) \/ goal (fst p) (fst q) = true) pi) /\
     often (fun p q => disturbed (fst p) (fst q) \/ snd q = 0) pi).

  Definition mixedRealizable : Prop :=
    exists f : countedStrategy, forall x : nat -> state, mixedObjective (countedPlay G f x).
End MIXED.

(** The system described by the file is resilient with the levels and the bound. *)
Definition resilient (L : items) (fs : section -> list fml) (marks : list bool) (levels : list nat) (k : nat) : Prop :=
  mixedRealizable (file_game L fs)
    (map (fun p => (fun st st' => holds (fst p) (valuation st st'), snd p)) (withLevels marks levels (fs SEnvTrans))) k.

(** Componentwise order. *)
Definition levelsBelow (x y : list nat) : Prop := Forall2 le x y.
(** The assumptions of level 1 or 2. *)
Definition violable (levels : list nat) : list bool := map (fun l => negb (l =? 0)%nat) levels.
