(** * Properties of realizability checking (C01-C04, C18) *)

From Coq Require Import String Arith List Bool Lia.
From Verif Require Import BDD Loop Spec VarTypes Synth Sem SynthProofs Verdict.
Import ListNotations.
Open Scope string_scope.

(** ** Concrete specifications for the examples

    One input [a] (BDD variables 0 and 1) and one output [b] (2 and 3). *)
Definition exTypes : list VariableType := [PreInput; PostInput; PreOutput; PostOutput].
Definition exNames : list string := ["a"; "a'"; "b"; "b'"].

(** Requests are answered at once, b is infinitely often true and infinitely often
    false provided that a is infinitely often true and infinitely often false. *)
Definition exR : ctx := mkCtx exNames exTypes
  [bvar 0; bnot (bvar 0)] [bvar 2; bnot (bvar 3)]
  (bnot (bvar 0)) (bnot (bvar 2))
  (bimp (bvar 2) (bnot (bvar 1)))
  (bimp (bvar 1) (bvar 3)).

(** The same without assumptions about a, and with b only if a is given. *)
Definition exU : ctx := mkCtx exNames exTypes
  [btrue] [bvar 2]
  btrue (bnot (bvar 2))
  (bor (bvar 0) (bnot (bvar 1)))
  (bxor (bvar 1) (bnot (bvar 3))).

Ltac dep_ex := repeat (first [ apply dep_true | apply dep_false | apply dep_and | apply dep_or | apply dep_not
  | apply dep_imp | apply dep_xor | apply dep_var; unfold isPreInV, isPrePostInV, isPreV, isAnyV; cbn; repeat split; try lia; auto ]).

Lemma exR_wf : wf exR.
Proof.
  constructor; cbn [varTypes livenessAssumptions livenessGuarantees initEnv initSys safetyEnv safetySys exR exU].
  - exists [PreInput; PreOutput]. split; reflexivity.
  - dep_ex.
  - dep_ex.
  - dep_ex.
  - dep_ex.
  - repeat constructor; dep_ex.
  - repeat constructor; dep_ex.
  - discriminate.
  - discriminate.
Qed.

Lemma exU_wf : wf exU.
Proof.
  constructor; cbn [varTypes livenessAssumptions livenessGuarantees initEnv initSys safetyEnv safetySys exR exU].
  - exists [PreInput; PreOutput]. split; reflexivity.
  - dep_ex.
  - dep_ex.
  - dep_ex.
  - dep_ex.
  - repeat constructor; dep_ex.
  - repeat constructor; dep_ex.
  - discriminate.
  - discriminate.
Qed.

(** ** C01 *)

(** If slugs reports "Specification is realizable", then there is a strategy for
    the system that satisfies the specification on every sequence of inputs. *)
Theorem C01_realizable_sound : forall c, wf c ->
  checkRealizability c = Realizable -> realizable (game_of c).
Proof.
  intros c Hwf H. destruct (check_cases c Hwf) as [[_ R]|[E _]]; auto. congruence.
Qed.
Print Assumptions C01_realizable_sound.

Example C01_example : wf exR /\ checkRealizability exR = Realizable.
Proof. split; [exact exR_wf|vm_compute; reflexivity]. Qed.

(** ** C02 *)

(** If slugs reports "Specification is unrealizable", then for every strategy of
    the system there are inputs on which the specification is violated. *)
Theorem C02_unrealizable_sound : forall c, wf c ->
  checkRealizability c = Unrealizable ->
  forall f : strategy, exists x, ~ objective (game_of c) (play (game_of c) f x).
Proof.
  intros c Hwf H. destruct (check_cases c Hwf) as [[E _]|[_ R]]; auto. congruence.
Qed.
Print Assumptions C02_unrealizable_sound.

Example C02_example : wf exU /\ checkRealizability exU = Unrealizable.
Proof. split; [exact exU_wf|vm_compute; reflexivity]. Qed.

(** ** C03 *)

(** The check always ends with one of the two verdicts: no loop exceeds its
    number of iterations and the internal error is never raised. *)
Theorem C03_check_terminates : forall c, wf c ->
  checkRealizability c = Realizable \/ checkRealizability c = Unrealizable.
Proof.
  intros c Hwf. destruct (check_cases c Hwf) as [[E _]|[E _]]; auto.
Qed.
Print Assumptions C03_check_terminates.

(** The verdict decides realizability. *)
Theorem C03_verdict_decides : forall c, wf c ->
  (checkRealizability c = Realizable <-> realizable (game_of c)).
Proof.
  intros c Hwf. split; [now apply C01_realizable_sound|].
  intros (f & Hf). destruct (C03_check_terminates c Hwf) as [E|E]; auto.
  destruct (C02_unrealizable_sound c Hwf E f) as (x & Hx). elim Hx. apply Hf.
Qed.
Print Assumptions C03_verdict_decides.

Example C03_example : wf exR /\ wf exU /\ checkRealizability exR <> checkRealizability exU.
Proof. split; [exact exR_wf|]. split; [exact exU_wf|]. vm_compute. discriminate. Qed.

(** ** C04 *)

(** The computed set of winning positions contains exactly the positions from
    which the system can enforce its obligations, and no position depends on
    the values of the next position. *)
Theorem C04_winning_exact : forall c, wf c -> exists w data,
  computeWinningPositions c = Some (w, data) /\
  (forall s, pos w s = true <-> winning (game_of c) s) /\
  (forall s t, trans w s t = pos w s).
Proof.
  intros c Hwf. destruct (compute_spec c Hwf) as (w & d & E & S).
  exists w, d. split; auto. split.
  - apply exact_winning. eapply solved_exact; eauto.
  - intros s t. apply (pos_trans c). eapply solved_pre; eauto.
Qed.
Print Assumptions C04_winning_exact.

(** A losing position is lost against every strategy. *)
Theorem C04_losing : forall c, wf c -> forall w data,
  computeWinningPositions c = Some (w, data) ->
  forall s, pos w s = false -> forall f, exists x,
    ~ safe_and_live (game_of c) (play_from (game_of c) f s x).
Proof.
  intros c Hwf w data E. destruct (compute_spec c Hwf) as (w' & d & E' & S).
  rewrite E in E'. injection E' as <- <-.
  destruct (solved_exact c w data Hwf S) as (_ & _ & H). exact H.
Qed.
Print Assumptions C04_losing.

Example C04_example : wf exU /\
  match computeWinningPositions exU with
  | Some (w, _) => isFalse w = true
  | None => False
  end.
Proof. split; [exact exU_wf|vm_compute; reflexivity]. Qed.
Example C04_example2 : wf exR /\
  match computeWinningPositions exR with
  | Some (w, _) => negb (isFalse w) && isTrue w = true
  | None => False
  end.
Proof. split; [exact exR_wf|vm_compute; reflexivity]. Qed.

(** ** C18 *)

(** With --sysInitRoboticsSemantics, the verdict tells if the system wins from
    every initial position permitted for both players. *)
Theorem C18_robotics_sound : forall c, wf c ->
  checkRealizabilityRobotics c = Realizable -> realizable_robotics (game_of c).
Proof.
  intros c Hwf H. destruct (check_robotics_cases c Hwf) as [[_ R]|[E _]]; auto. congruence.
Qed.
Print Assumptions C18_robotics_sound.

Theorem C18_robotics_complete : forall c, wf c ->
  checkRealizabilityRobotics c = Unrealizable ->
  exists s, g_initE (game_of c) s = true /\ g_initS (game_of c) s = true /\
    forall f, exists x, ~ safe_and_live (game_of c) (play_from (game_of c) f s x).
Proof.
  intros c Hwf H. destruct (check_robotics_cases c Hwf) as [[E _]|[_ R]]; auto. congruence.
Qed.
Print Assumptions C18_robotics_complete.

Theorem C18_robotics_terminates : forall c, wf c ->
  checkRealizabilityRobotics c = Realizable \/ checkRealizabilityRobotics c = Unrealizable.
Proof.
  intros c Hwf. destruct (check_robotics_cases c Hwf) as [[E _]|[E _]]; auto.
Qed.
Print Assumptions C18_robotics_terminates.

Example C18_example : wf exR /\ wf exU /\
  checkRealizabilityRobotics exR = Realizable /\ checkRealizabilityRobotics exU = Unrealizable.
Proof. split; [exact exR_wf|]. split; [exact exU_wf|]. vm_compute. auto. Qed.
