(** * Properties of the variants of the computation (C22, C23) *)

From Coq Require Import String Arith List Bool Lia.
From Verif Require Import BDD Loop Spec VarTypes Synth Sem SynthProofs Verdict Solvers SolversProofs PropsSynth.
Import ListNotations.
Open Scope string_scope.

(** ** C22 *)

(** --fixedPointRecycling: the computation ends, never reads an element of the
    recycling table that has not been set, and returns the same winning positions
    and the same sets for strategy extraction. *)
Theorem C22_recycling_exact : forall c, wf c ->
  computeRecycling c = computeWinningPositions c /\ computeRecycling c <> None.
Proof.
  intros c Hwf. destruct (solve_spec c Hwf Recycling) as (w & d & E & _). cbn [solve] in E.
  split; [now apply recycling_same|]. now rewrite E.
Qed.
Print Assumptions C22_recycling_exact.

Theorem C22_verdict : forall robotics c, wf c ->
  verdictWith Recycling robotics c = if robotics then checkRealizabilityRobotics c else checkRealizability c.
Proof. intros. now apply verdict_same. Qed.
Print Assumptions C22_verdict.

(** On this specification the table is used: there is more than one outer round,
    and started from an empty table a second round is undefined. *)
Example C22_example : wf exU /\ (exists w, nu2BodyR exU (btrue, (true, (fun _ _ => None, []))) = Cont w) /\
  verdictWith Recycling false exU = Unrealizable /\
  nu2BodyR exU (btrue, (false, (fun _ _ => None, []))) = Abort.
Proof.
  split; [exact exU_wf|]. split; [|split].
  - destruct (nu2BodyR exU (btrue, (true, (fun _ _ => None, [])))) as [w| |] eqn:E; [eauto| |];
      exfalso; apply (f_equal (fun st => match st with Cont _ => true | _ => false end)) in E; vm_compute in E; discriminate.
  - vm_compute. reflexivity.
  - vm_compute. reflexivity.
Qed.

(** ** C23 *)

(** --biasForAction: the computation ends and returns the positions from which
    the system can enforce its obligations. *)
Theorem C23_winning_exact : forall c, wf c -> exists w data,
  computeBias c = Some (w, data) /\
  (forall s, pos w s = true <-> winning (game_of c) s) /\
  (forall s t, trans w s t = pos w s).
Proof.
  intros c Hwf. destruct (bias_spec c Hwf) as (w & d & E & S).
  exists w, d. split; auto. split.
  - apply exact_winning. eapply solved_exact; eauto.
  - intros s t. apply (pos_trans c). eapply solved_pre; eauto.
Qed.
Print Assumptions C23_winning_exact.

Theorem C23_verdict : forall robotics c, wf c ->
  verdictWith Bias robotics c = (if robotics then checkRealizabilityRobotics c else checkRealizability c).
Proof. intros. now apply verdict_same. Qed.
Print Assumptions C23_verdict.

(** Here the recorded sets are different, the winning positions are not. *)
Example C23_example : wf exR /\ verdictWith Bias false exR = Realizable /\ verdictWith Bias true exU = Unrealizable /\
  match computeBias exR, computeWinningPositions exR with
  | Some (w, data), Some (w', data') => bf_eqb w w' && Nat.ltb (List.length data') (List.length data) = true
  | _, _ => False
  end.
Proof. split; [exact exR_wf|]. vm_compute. auto. Qed.
