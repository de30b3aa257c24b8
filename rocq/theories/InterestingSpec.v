(** * Specification: the table printed by --computeInterestingRunOfTheSystem *)

From Coq Require Import Arith List Bool.
From Verif Require Import Spec VarTypes Sem AutSpec ShellSpec InterestingRun.
Import ListNotations.

(** The first row for the position [s], guarantee number [g] and assumption number [a]. *)
Definition heading (c : ctx) (s : state) (g a : nat) (r : row) : Prop :=
  r_content r = Values (valuesOf c s) /\ r_sys r = Some g /\ r_env r = Some a.

(** [printed c T n s g a rows]: the rows from the one for position [s] on, if at most [n] steps are
    still to be printed and the system uses the strategies [T].

    - Last row: nothing is known about the marks of the environment, as they are not initialised.
    - The next row is for a position [t] the strategy for [g] permits.  The marks are not for
      the transition to [t], but for some transition to [v] that the strategy permits:
      the property is marked as satisfied if it is satisfied and this is not the only transition that does.
    - The run ends before: a property is marked if some transition satisfies it. *)
Inductive printed (c : ctx) (T : nat -> state -> state -> bool) : nat -> state -> nat -> nat -> list row -> Prop :=
| printed_last s g a r :
    heading c s g a r -> r_sysSat r = Some false -> r_envSat r = None -> r_envViolation r = None ->
    printed c T 0 s g a [r]
| printed_step n s t v g g' a a' sat esat viol r rows :
    let G := game_of c in
    heading c s g a r -> r_sysSat r = Some sat -> r_envSat r = Some esat -> r_envViolation r = Some viol ->
    g_safeE G s t = true -> T g s t = true ->
    g_safeE G s v = true -> T g s v = true ->
    (sat = true <-> advances (nvars c) (nth g (g_liveG G) (fun _ _ => false)) s v) ->
    (esat = true <-> advances (nvars c) (nth a (g_liveA G) (fun _ _ => false)) s v) ->
    (viol = false <-> advances (nvars c) (g_safeE G) s v) ->
    g' = (if sat then (g + 1) mod length (g_liveG G) else g) ->
    a' = (if esat then (a + 1) mod length (g_liveA G) else a) ->
    printed c T n t g' a' rows ->
    printed c T (S n) s g a (r :: rows)
| printed_lost n s g a sat esat viol r r' :
    let G := game_of c in
    heading c s g a r -> r_sysSat r = Some sat -> r_envSat r = Some esat -> r_envViolation r = Some viol ->
    (sat = true <-> exists s' t', nth g (g_liveG G) (fun _ _ => false) s' t' = true) ->
    (esat = true <-> exists s' t', nth a (g_liveA G) (fun _ _ => false) s' t' = true) ->
    r_sysSat r' = Some false -> r_envSat r' = None -> r_envViolation r' = None ->
    (r_content r' = EnvLoses <-> ~ exists t, g_safeE G s t = true) ->
    (r_content r' = SysLoses <-> exists t, g_safeE G s t = true) ->
    ((forall x, exists y, g_safeS G s (merge G x y) = true) -> ~ exists t, g_safeE G s t = true) ->
    printed c T (S n) s g a [r; r'].
