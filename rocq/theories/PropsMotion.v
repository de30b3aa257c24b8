(** * Properties C57-C59: --nonDeterministicMotion

    [readM] and [executeM] model the reading of the two files and the verdict for them, see Motion.v.
    [readBDD] stands for the BDD library's reader; [honest] says that what it returns is a function of
    the variables that it was given. *)

From Coq Require Import String Ascii Arith NArith List Bool Lia Sorted.
From Verif Require Import BDD Loop Spec VarTypes Synth Sem FormulaSpec Parser ParserProofs Motion MotionSpec MotionProofs MotionFile MotionScope.
Import ListNotations.
Local Open Scope string_scope.

(** ** C57: the verdict

    Missing: files with variables in [OTHER OUTPUT], initial assumptions that mention the motion state, and
    assumptions that mention the next motion state; see the refutations below. *)
Section C57.
  Variables (ord : nat -> bool) (readBDD : string -> list nat -> option BF) (content robotFile : string) (c : ctx) (robot : BF).
  Definition plainM : Prop :=
    honest readBDD /\ readM ord readBDD content robotFile = inl (c, robot) /\
    ~ In PreOtherOutput (varTypes c) /\
    dep (isPreInV c) (initEnv c) /\ dep (isPreV c) (initSys c) /\ dep (isPrePostInV c) (safetyEnv c).
End C57.

Lemma plainM_wf ord readBDD content robotFile c robot : plainM ord readBDD content robotFile c robot -> wfM c robot.
Proof. intros (H & E & NO & H1 & H2 & H3). eapply readM_wf; eauto. Qed.

(** The verdict is positive iff there is a strategy, and it is always a verdict. *)
Theorem C57_verdict_partial : forall ord readBDD content robotFile c robot, plainM ord readBDD content robotFile c robot ->
  (executeM false ord readBDD content robotFile = inl Realizable <-> m_realizable (game_of c) (isMot c) (trans robot)) /\
  (executeM false ord readBDD content robotFile = inl Unrealizable <-> ~ m_realizable (game_of c) (isMot c) (trans robot)) /\
  (executeM false ord readBDD content robotFile = inl Realizable \/ executeM false ord readBDD content robotFile = inl Unrealizable).
Proof.
  intros ord readBDD content robotFile c robot H. pose proof (plainM_wf _ _ _ _ _ _ H) as W. destruct H as (_ & E & _).
  unfold executeM. rewrite E. cbn [mbind]. destruct (checkM_spec c robot W) as [[V R]|[V (x0 & U)]]; rewrite V.
  - split; [split; auto|]. split; [split; [discriminate|contradiction]|auto].
  - assert (N : ~ m_realizable (game_of c) (isMot c) (trans robot)).
    { intros (f & Hf). specialize (Hf x0). cbv zeta in Hf. destruct (U f) as [U1 U2]. destruct (Hf U1) as [F1 F2]. destruct (U2 F1) as (x & r & X). apply X, F2. }
    split; [split; [discriminate|contradiction]|]. split; [split; auto|auto].
Qed.
Print Assumptions C57_verdict_partial.

(** After a negative verdict, there is one initial input against which every strategy fails: initially, or for some
    inputs and some reactions of the robot. *)
Theorem C57_unrealizable_partial : forall ord readBDD content robotFile c robot, plainM ord readBDD content robotFile c robot ->
  executeM false ord readBDD content robotFile = inl Unrealizable ->
  exists x0, forall f : strategy, let s := merge (game_of c) x0 (f [] x0) in
    g_initE (game_of c) s = true /\
    (g_initS (game_of c) s = true ->
     exists x r, ~ m_safe_and_live (game_of c) (isMot c) (trans robot) (m_play_from (game_of c) (isMot c) f s x r)).
Proof.
  intros ord readBDD content robotFile c robot H. pose proof (plainM_wf _ _ _ _ _ _ H) as W. destruct H as (_ & E & _).
  unfold executeM. rewrite E. cbn [mbind]. destruct (checkM_spec c robot W) as [[V R]|[V U]]; rewrite V; [discriminate|auto].
Qed.
Print Assumptions C57_unrealizable_partial.

(** ** C58: the verdict with --sysInitRoboticsSemantics *)
Theorem C58_verdict_partial : forall ord readBDD content robotFile c robot, plainM ord readBDD content robotFile c robot ->
  (executeM true ord readBDD content robotFile = inl Realizable <-> m_realizable_robotics (game_of c) (isMot c) (trans robot)) /\
  (executeM true ord readBDD content robotFile = inl Unrealizable <-> ~ m_realizable_robotics (game_of c) (isMot c) (trans robot)) /\
  (executeM true ord readBDD content robotFile = inl Realizable \/ executeM true ord readBDD content robotFile = inl Unrealizable).
Proof.
  intros ord readBDD content robotFile c robot H. pose proof (plainM_wf _ _ _ _ _ _ H) as W. destruct H as (_ & E & _).
  unfold executeM. rewrite E. cbn [mbind]. destruct (checkM_robotics c robot W) as [[V R]|[V (s & Hs & U)]]; rewrite V.
  - split; [split; auto|]. split; [split; [discriminate|contradiction]|auto].
  - assert (N : ~ m_realizable_robotics (game_of c) (isMot c) (trans robot)).
    { intros (f & Hf). destruct (U f) as (x & r & X). apply X, (Hf s Hs). }
    split; [split; [discriminate|contradiction]|]. split; [split; auto|auto].
Qed.
Print Assumptions C58_verdict_partial.

(** After a negative verdict, there is one initial position from which every strategy fails. *)
Theorem C58_unrealizable_partial : forall ord readBDD content robotFile c robot, plainM ord readBDD content robotFile c robot ->
  executeM true ord readBDD content robotFile = inl Unrealizable ->
  exists s, g_initE (game_of c) s = true /\
    forall f : strategy, exists x r, ~ m_safe_and_live (game_of c) (isMot c) (trans robot) (m_play_from (game_of c) (isMot c) f s x r).
Proof.
  intros ord readBDD content robotFile c robot H. pose proof (plainM_wf _ _ _ _ _ _ H) as W. destruct H as (_ & E & _).
  unfold executeM. rewrite E. cbn [mbind]. destruct (checkM_robotics c robot W) as [[V R]|[V U]]; rewrite V; [discriminate|auto].
Qed.
Print Assumptions C58_unrealizable_partial.

(** ** Examples

    A robot with one bit of motion state.  With the control off it stays; with the control on, the motion
    state after the step is arbitrary. *)
Definition nl : string := String (ascii_of_nat 10) EmptyString.
Definition exOrdM : nat -> bool := fun _ => true.
Definition exRobot (file : string) (vars : list nat) : option BF :=
  match vars with
  | [m; u; m'] => Some (bor (bvar u) (bnot (bxor (bvar m) (bvar m'))))
  | _ => None
  end.
Lemma exRobot_honest : honest exRobot.
Proof.
  intros file vars b E. destruct vars as [|m [|u [|m' [|]]]]; try discriminate. injection E as <-.
  apply dep_or; [apply dep_var; cbn; auto|apply dep_not, dep_xor; apply dep_var; cbn; auto].
Qed.

Definition motBase : string :=
  "[INPUT]" ++ nl ++ "x" ++ nl ++ "[MOTION STATE OUTPUT]" ++ nl ++ "m" ++ nl ++ "[MOTION CONTROLLER OUTPUT]" ++ nl ++ "u" ++ nl ++
  "[SYS_INIT]" ++ nl ++ "! m" ++ nl ++ "[SYS_LIVENESS]" ++ nl ++ "m" ++ nl ++ "! m" ++ nl.
(** The robot has to move back and forth, and may not start moving when [x] holds.  It can if
    [x] is false from some time on.  It is not enough that [x] is false again and again: the robot may
    then stay where it is, because the assumption on its motion holds whenever the control is off. *)
Definition motFileR : string := motBase ++ "[ENV_TRANS]" ++ nl ++ "| x ! x'" ++ nl ++ "[ENV_LIVENESS]" ++ nl ++ "! x" ++ nl ++ "[SYS_TRANS]" ++ nl ++ "| ! x' ! u'" ++ nl.
Definition motFileU : string := motBase ++ "[ENV_TRANS]" ++ nl ++ "| ! x ! x'" ++ nl ++ "[SYS_TRANS]" ++ nl ++ "| ! x' ! u'" ++ nl.

Definition isInl {A} (x : mres A) : bool := match x with inl _ => true | inr _ => false end.
Lemma isInl_ex {A} (x : mres A) : isInl x = true -> exists a, x = inl a.
Proof. destruct x as [a|]; [eauto|discriminate]. Qed.

(** Dependencies, decided. *)
Definition depB (p : nat -> bool) (n : nat) (b : BF) : bool :=
  forallb (fun v => p v || bf_eqb (bexists [v] b) b) (seq 0 n).
Lemma depB_dep p n b (P : nat -> Prop) : dep (fun v => v < n) b -> depB p n b = true -> (forall v, v < n -> p v = true -> P v) -> dep P b.
Proof.
  intros D H HP. unfold depB in H. rewrite forallb_forall in H.
  assert (G : forall k, k <= n -> dep (fun v => v < n /\ (p v = true \/ k <= v)) b).
  { induction k as [|k IH]; intros L.
    - eapply dep_weaken; [|exact D]. intros v Hv. split; auto. right. lia.
    - specialize (H k). rewrite in_seq in H. specialize (H ltac:(lia)). apply orb_true_iff in H. destruct H as [H|H].
      + eapply dep_weaken; [|apply IH; lia]. intros v [Hv [E|E]]; split; auto. destruct (Nat.eq_dec v k) as [->|N]; auto. right. lia.
      + apply bf_eqb_eq in H. rewrite <- H. eapply dep_exists; [apply IH; lia|]. cbn [In]. intros v [Hv [E|E]] N; split; auto. right. lia. }
  eapply dep_weaken; [|apply (G n (le_n n))]. intros v [Hv [E|E]]; [auto|lia].
Qed.

Definition plainB (c : ctx) : bool :=
  let n := length (varTypes c) in
  negb (existsb (vt_eqb PreOtherOutput) (varTypes c)) &&
  depB (fun v => Nat.even v && negb (isOut c (Nat.div2 v))) n (initEnv c) && depB Nat.even n (initSys c) &&
  depB (fun v => Nat.even v || negb (isOut c (Nat.div2 v))) n (safetyEnv c).
Lemma plainB_plainM ord readBDD content robotFile c robot : honest readBDD -> readM ord readBDD content robotFile = inl (c, robot) -> plainB c = true ->
  plainM ord readBDD content robotFile c robot.
Proof.
  intros H E P. unfold plainB in P. repeat (apply andb_true_iff in P; destruct P as [P ?]).
  pose proof (readM_accepted ord readBDD H _ _ _ _ E) as [(_ & _ & D1 & D2 & D3 & _) _].
  split; [exact H|]. split; [exact E|]. split; [|split; [|split]].
  - intros I. apply negb_true_iff in P. rewrite <- not_true_iff_false in P. apply P. apply existsb_exists. exists PreOtherOutput. split; auto.
  - eapply depB_dep; [exact D1|eassumption|]. intros v Hv Pv. apply andb_true_iff in Pv. destruct Pv as [A B]. apply negb_true_iff in B. split; [split|]; auto.
  - eapply depB_dep; [exact D2|eassumption|]. intros v Hv Pv. split; auto.
  - eapply depB_dep; [exact D3|eassumption|]. intros v Hv Pv. split; auto. apply orb_true_iff in Pv. destruct Pv as [A|A]; auto. right. now apply negb_true_iff.
Qed.

Definition onRead (file : string) (k : ctx -> BF -> bool) : bool :=
  match readM exOrdM exRobot file "robot.bdd" with inl (c, robot) => k c robot | inr _ => false end.
Lemma onRead_ex file k : onRead file k = true -> exists c robot, readM exOrdM exRobot file "robot.bdd" = inl (c, robot) /\ k c robot = true.
Proof. unfold onRead. destruct (readM _ _ _ _) as [[c robot]|]; [eauto|discriminate]. Qed.

Example C57_example : exists c robot, plainM exOrdM exRobot motFileR "robot.bdd" c robot /\
  executeM false exOrdM exRobot motFileR "robot.bdd" = inl Realizable /\ length (livenessGuarantees c) = 2.
Proof.
  assert (X : onRead motFileR (fun c _ => plainB c && Nat.eqb (length (livenessGuarantees c)) 2) = true) by (vm_compute; reflexivity).
  apply onRead_ex in X. destruct X as (c & robot & E & X).
  apply andb_true_iff in X. destruct X as [X1 X2]. exists c, robot. split; [exact (plainB_plainM _ _ _ _ _ _ exRobot_honest E X1)|].
  split; [vm_compute; reflexivity|]. now apply Nat.eqb_eq.
Qed.
Example C57_unrealizable_example : exists c robot, plainM exOrdM exRobot motFileU "robot.bdd" c robot /\
  executeM false exOrdM exRobot motFileU "robot.bdd" = inl Unrealizable.
Proof.
  assert (X : onRead motFileU (fun c _ => plainB c) = true) by (vm_compute; reflexivity).
  apply onRead_ex in X. destruct X as (c & robot & E & X).
  exists c, robot. split; [exact (plainB_plainM _ _ _ _ _ _ exRobot_honest E X)|]. vm_compute; reflexivity.
Qed.
Example C58_example : exists c robot, plainM exOrdM exRobot motFileU "robot.bdd" c robot /\
  executeM true exOrdM exRobot motFileU "robot.bdd" = inl Unrealizable /\
  exists c' robot', plainM exOrdM exRobot motFileR "robot.bdd" c' robot' /\ executeM true exOrdM exRobot motFileR "robot.bdd" = inl Realizable.
Proof.
  destruct C57_unrealizable_example as (c & robot & H & _). exists c, robot. split; [exact H|]. split; [vm_compute; reflexivity|].
  destruct C57_example as (c' & robot' & H' & _). exists c', robot'. split; [exact H'|]. vm_compute; reflexivity.
Qed.

(** ** Where the verdict is wrong or missing *)

(** The initial assumptions may mention the motion state.  The verdict can then be negative although there
    is a strategy: the motion state that violates them is chosen before the input is known. *)
Definition motInit1 : string :=
  "[INPUT]" ++ nl ++ "x" ++ nl ++ "[MOTION STATE OUTPUT]" ++ nl ++ "m" ++ nl ++ "[MOTION CONTROLLER OUTPUT]" ++ nl ++ "u" ++ nl ++
  "[ENV_INIT]" ++ nl ++ "^ x m" ++ nl ++ "[SYS_TRANS]" ++ nl ++ "0" ++ nl.
Theorem C57_initial_refuted : exists content c robot,
  readM exOrdM exRobot content "robot.bdd" = inl (c, robot) /\ ~ In PreOtherOutput (varTypes c) /\
  executeM false exOrdM exRobot content "robot.bdd" = inl Unrealizable /\ m_realizable (game_of c) (isMot c) (trans robot).
Proof.
  assert (X : onRead motInit1 (fun c _ => negb (existsb (vt_eqb PreOtherOutput) (varTypes c)) && bf_eqb (initEnv c) (bxor (bvar 0) (bvar 2)) &&
    isOut c 1 && negb (isOut c 0)) = true) by (vm_compute; reflexivity).
  apply onRead_ex in X. destruct X as (c & robot & E & X). repeat (apply andb_true_iff in X; destruct X as [X ?]).
  exists motInit1, c, robot. split; [exact E|]. split; [|split].
  - intros I. apply negb_true_iff in X. rewrite <- not_true_iff_false in X. apply X. apply existsb_exists. exists PreOtherOutput. split; auto.
  - vm_compute. reflexivity.
  - exists (fun _ x _ => x 0). intros x0 s Hi. exfalso. unfold s in Hi. cbn [g_initE game_of] in Hi.
    apply bf_eqb_eq in H1. rewrite H1 in Hi. unfold pos in Hi. rewrite eval_xor, !eval_var in Hi. unfold merge, tv in Hi. cbn [Nat.even Nat.div2 g_out game_of] in Hi.
    apply negb_true_iff in H. rewrite H0, H, xorb_nilpotent in Hi. discriminate.
Qed.
Print Assumptions C57_initial_refuted.

(** With --sysInitRoboticsSemantics, the verdict can be positive although there are initial positions from
    which every strategy fails. *)
Definition motInit2 : string :=
  "[MOTION STATE OUTPUT]" ++ nl ++ "m" ++ nl ++ "[MOTION CONTROLLER OUTPUT]" ++ nl ++ "u" ++ nl ++
  "[ENV_INIT]" ++ nl ++ "m" ++ nl ++ "[SYS_TRANS]" ++ nl ++ "0" ++ nl.
Theorem C58_initial_refuted : exists content c robot,
  readM exOrdM exRobot content "robot.bdd" = inl (c, robot) /\ ~ In PreOtherOutput (varTypes c) /\
  executeM true exOrdM exRobot content "robot.bdd" = inl Realizable /\
  exists s, g_initE (game_of c) s = true /\
    forall f : strategy, exists x r, ~ m_safe_and_live (game_of c) (isMot c) (trans robot) (m_play_from (game_of c) (isMot c) f s x r).
Proof.
  assert (X : onRead motInit2 (fun c robot => negb (existsb (vt_eqb PreOtherOutput) (varTypes c)) && bf_eqb (initEnv c) (bvar 0) &&
    bf_eqb (safetySys c) bfalse && bf_eqb (safetyEnv c) btrue && bf_eqb robot (bor (bvar 3) (bnot (bxor (bvar 0) (bvar 1)))) && isMot c 0) = true) by (vm_compute; reflexivity).
  apply onRead_ex in X. destruct X as (c & robot & E & X). repeat (apply andb_true_iff in X; destruct X as [X ?]).
  apply bf_eqb_eq in H0, H1, H2, H3.
  exists motInit2, c, robot. split; [exact E|]. split; [|split].
  - intros I. apply negb_true_iff in X. rewrite <- not_true_iff_false in X. apply X. apply existsb_exists. exists PreOtherOutput. split; auto.
  - vm_compute. reflexivity.
  - exists (fun _ => true). split; [cbn [g_initE game_of]; rewrite H3; reflexivity|]. intros f. exists (fun _ _ => true), (fun _ _ => true).
    intros [HS _]. destruct (HS 0) as [_ HS0].
    + intros i Hi. lia.
    + cbn [g_safeE game_of]. rewrite H1. reflexivity.
    + cbn [g_safeS game_of] in HS0. rewrite H2 in HS0. discriminate HS0.
      rewrite H0. unfold trans. rewrite eval_or, eval_not, eval_xor, !eval_var. unfold tv, m_play_from. cbn [m_history_from hd Nat.even Nat.div2].
      unfold m_next. rewrite H. cbn [xorb negb]. apply orb_true_r.
Qed.
Print Assumptions C58_initial_refuted.

(** The initial guarantees do not restrict the initial positions with --sysInitRoboticsSemantics, unlike without
    --nonDeterministicMotion: a negative verdict although one strategy wins from all positions that satisfy both. *)
Definition motSysInit : string :=
  "[MOTION STATE OUTPUT]" ++ nl ++ "m" ++ nl ++ "[MOTION CONTROLLER OUTPUT]" ++ nl ++ "u" ++ nl ++
  "[SYS_INIT]" ++ nl ++ "! m" ++ nl ++ "[SYS_TRANS]" ++ nl ++ "! m'" ++ nl.
Theorem C58_sys_init_refuted : exists content c robot,
  plainM exOrdM exRobot content "robot.bdd" c robot /\
  executeM true exOrdM exRobot content "robot.bdd" = inl Unrealizable /\
  exists f : strategy, forall s, g_initE (game_of c) s = true -> g_initS (game_of c) s = true ->
    m_winning_from (game_of c) (isMot c) (trans robot) f s.
Proof.
  assert (X : onRead motSysInit (fun c robot => plainB c && bf_eqb (initSys c) (bnot (bvar 0)) &&
    bf_eqb (safetySys c) (bnot (bvar 1)) && bf_eqb robot (bor (bvar 3) (bnot (bxor (bvar 0) (bvar 1)))) && isMot c 0 && negb (isMot c 1) && isOut c 1 &&
    Nat.eqb (length (livenessGuarantees c)) 0) = true) by (vm_compute; reflexivity).
  apply onRead_ex in X. destruct X as (c & robot & E & X). do 7 (apply andb_true_iff in X; destruct X as [X ?]).
  apply bf_eqb_eq in H3, H4, H5. apply negb_true_iff in H1.
  exists motSysInit, c, robot. split; [exact (plainB_plainM _ _ _ _ _ _ exRobot_honest E X)|]. split; [vm_compute; reflexivity|].
  exists (fun _ _ _ => false). intros s _ Hs x r. cbn [g_initS game_of] in Hs. rewrite H5 in Hs. unfold pos in Hs. rewrite eval_not, eval_var in Hs. unfold tv in Hs. cbn in Hs.
  set (pi := m_play_from _ _ _ _ _ _).
  assert (N : forall n, pi (S n) 1 = false).
  { intros n. unfold pi, m_play_from. cbn [m_history_from hd]. unfold m_next. rewrite H1. cbn [g_out game_of]. now rewrite H0. }
  assert (R : forall n, trans robot (pi n) (pi (S n)) = true -> pi (S n) 0 = pi n 0).
  { intros n. rewrite H3. unfold trans. rewrite eval_or, eval_not, eval_xor, !eval_var. unfold tv. cbn [Nat.even Nat.div2]. rewrite N. cbn [orb].
    destruct (pi n 0), (pi (S n) 0); auto; discriminate. }
  assert (P0 : pi 0 0 = false) by (change (pi 0) with s; now destruct (s 0)).
  split.
  - intros n Hn _. assert (I : pi n 0 = false).
    { clear - Hn R P0. induction n as [|n IH]; [exact P0|]. rewrite R by (apply Hn; lia). apply IH. intros i Hi. apply Hn. lia. }
    split.
    + exists (fun k => if isMot c k then pi n k else pi (S n) k). split; [intros k Ek; now rewrite Ek|].
      rewrite H3. unfold trans. rewrite eval_or, eval_not, eval_xor, !eval_var. unfold tv. cbn [Nat.even Nat.div2]. rewrite H2, xorb_nilpotent. apply orb_true_r.
    + intros HR. cbn [g_safeS game_of]. rewrite H4. unfold trans. rewrite eval_not, eval_var. unfold tv. cbn [Nat.even Nat.div2]. rewrite (R n HR), I. reflexivity.
  - intros _ _ _ p Hp. cbn [g_liveG game_of] in Hp. apply Nat.eqb_eq in H. destruct (livenessGuarantees c); [destruct Hp|discriminate].
Qed.
Print Assumptions C58_sys_init_refuted.

(** There are accepted files without a verdict ("Internal error"): with a variable in [OTHER OUTPUT] (its next value is
    not quantified), with an assumption on the next motion state, and with the next value of a region in the initial
    assumptions (regions are not checked for the permitted variables). *)
Definition motOther : string :=
  "[MOTION STATE OUTPUT]" ++ nl ++ "m" ++ nl ++ "[MOTION CONTROLLER OUTPUT]" ++ nl ++ "u" ++ nl ++ "[OTHER OUTPUT]" ++ nl ++ "o" ++ nl ++
  "[SYS_TRANS]" ++ nl ++ "o'" ++ nl.
Definition motNext : string :=
  "[MOTION STATE OUTPUT]" ++ nl ++ "m" ++ nl ++ "[MOTION CONTROLLER OUTPUT]" ++ nl ++ "u" ++ nl ++
  "[ENV_TRANS]" ++ nl ++ "m'" ++ nl ++ "[SYS_TRANS]" ++ nl ++ "0" ++ nl.
Definition motRegion : string :=
  "[MOTION STATE OUTPUT]" ++ nl ++ "m" ++ nl ++ "[MOTION CONTROLLER OUTPUT]" ++ nl ++ "u" ++ nl ++
  "[ABSTRACTION_REGION_BDDS]" ++ nl ++ "r file.bdd" ++ nl ++ "[ENV_INIT]" ++ nl ++ "r'" ++ nl ++ "[SYS_TRANS]" ++ nl ++ "0" ++ nl.
Definition exRobot2 (file : string) (vars : list nat) : option BF :=
  match vars with [m] => Some (bvar m) | _ => exRobot file vars end.
Theorem C57_verdict_refuted :
  executeM false exOrdM exRobot motOther "robot.bdd" = inl InternalError /\
  executeM false exOrdM exRobot motNext "robot.bdd" = inl InternalError /\
  executeM false exOrdM exRobot2 motRegion "robot.bdd" = inl InternalError.
Proof. vm_compute. auto. Qed.
Print Assumptions C57_verdict_refuted.

(** ** C59: reading the files *)

(** A line without named regions is accepted, rejected and understood like the same line of an ordinary input file. *)
Theorem C59_formulas : forall names types allowed ord line,
  parseFormulaEx names types allowed [] ord line = parseFormula names types allowed ord line.
Proof. intros. unfold parseFormulaEx, parseFormula. now rewrite parseRecEx_nil. Qed.
Print Assumptions C59_formulas.

(** Accepted files only constrain declared variables.  The robot's steps only depend on the current and the next motion
    state and on the next controls. *)
Theorem C59_accepted : forall ord readBDD content robotFile c robot, honest readBDD ->
  readM ord readBDD content robotFile = inl (c, robot) ->
  (exists kinds, varTypes c = typesOf kinds /\ forall t, In t kinds -> In t [PreInput; PreMotionState; PreMotionControlOutput; PreOtherOutput]) /\
  length (varNames c) = length (varTypes c) /\
  (forall f, In f ([initEnv c; initSys c; safetyEnv c; safetySys c] ++ livenessAssumptions c ++ livenessGuarantees c) ->
     dep (fun v => v < length (varTypes c)) f) /\
  dep (fun v => v < length (varTypes c) /\ In (nth v (varTypes c) NoneVariableType) [PreMotionState; PostMotionControlOutput; PostMotionState]) robot.
Proof.
  intros ord readBDD content robotFile c robot H E. pose proof (readM_accepted ord readBDD H _ _ _ _ E) as [((kinds & EK & F) & HL & D1 & D2 & D3 & D4 & D5 & D6) _].
  split; [|split; [exact HL|split]].
  - exists kinds. split; auto. intros t Ht. rewrite forallb_forall in F. specialize (F t Ht). destruct t; try discriminate F; cbn; auto.
  - rewrite Forall_forall in D5, D6. intros f Hf. apply in_app_iff in Hf. destruct Hf as [Hf|Hf]; [|apply in_app_iff in Hf; destruct Hf; auto].
    destruct Hf as [<-|[<-|[<-|[<-|[]]]]]; auto.
  - unfold readM in E. destruct (processLinesM ord readBDD _ _) as [[[m c'] bs]|]; cbn [mbind] in E; [|discriminate].
    destruct (readBDD robotFile (robotVars c')) as [r|] eqn:ER; [|discriminate]. injection E as -> ->.
    eapply dep_weaken; [|exact (H _ _ _ ER)]. intros v. unfold robotVars. rewrite !in_app_iff. unfold exactly. rewrite <- !in_rev, !filter_In, !in_seq.
    assert (G : forall t, vt_eqb (nth v (varTypes c) NoneVariableType) t = true -> t = nth v (varTypes c) NoneVariableType) by (intros t Ht; apply vt_eqb_eq in Ht; auto).
    intros [[L T]|[[L T]|[L T]]]; (split; [lia|]); rewrite <- (G _ T); cbn; auto.
Qed.
Print Assumptions C59_accepted.

(** Apart from regions, which refer to the motion state, formulas only refer to variables that their section permits.  In
    particular, no assumption refers to the controls. *)
Theorem C59_scopes : forall ord readBDD content robotFile c robot, honest readBDD ->
  readM ord readBDD content robotFile = inl (c, robot) ->
  let refers ts f := dep (fun v => v < length (varTypes c) /\ In (nth v (varTypes c) NoneVariableType) (PreMotionState :: PostMotionState :: ts)) f in
  refers [PreInput; PreOtherOutput] (initEnv c) /\
  refers [PreInput; PreOtherOutput] (initSys c) /\
  refers [PreInput; PreOtherOutput; PostInput; PostOtherOutput] (safetyEnv c) /\
  refers [PreInput; PreOtherOutput; PostInput; PostOtherOutput; PostMotionControlOutput] (safetySys c) /\
  (forall f, In f (livenessAssumptions c) -> refers [PreInput; PreOtherOutput; PostInput] f) /\
  (forall f, In f (livenessGuarantees c) -> refers [PreInput; PreOtherOutput; PostInput; PostOtherOutput; PostMotionControlOutput] f).
Proof.
  intros ord readBDD content robotFile c robot H E refers. apply (readM_scoped ord readBDD H) in E. destruct E as (D1 & D2 & D3 & D4 & D5 & D6).
  rewrite Forall_forall in D5, D6.
  assert (W : forall ts ts' f, (forall t, In t ts -> In t (PreMotionState :: PostMotionState :: ts')) -> dep (typed c ts) f -> refers ts' f).
  { intros ts ts' f HT. apply dep_weaken. intros v [V1 V2]. split; auto. }
  repeat split; try (intros f Hf; match type of Hf with In _ (livenessAssumptions _) => apply D5 in Hf | _ => apply D6 in Hf end; revert Hf);
    try (eapply W; [|eassumption]; cbn; tauto); apply W; cbn; tauto.
Qed.
Print Assumptions C59_scopes.

(** The file for the robot is read with the variables of the motion state, then those of the next controls and then those of the
    next motion state, each in the order opposite to that of their declaration. *)
Theorem C59_robot_file : forall ord readBDD content robotFile c robot,
  readM ord readBDD content robotFile = inl (c, robot) ->
  exists ms us ns : list nat, readBDD robotFile (app ms (app us ns)) = Some robot /\
    (forall i, In i ms <-> nth_error (varTypes c) i = Some PreMotionState) /\ StronglySorted gt ms /\
    (forall i, In i us <-> nth_error (varTypes c) i = Some PostMotionControlOutput) /\ StronglySorted gt us /\
    (forall i, In i ns <-> nth_error (varTypes c) i = Some PostMotionState) /\ StronglySorted gt ns.
Proof.
  intros ord readBDD content robotFile c robot E. unfold readM in E. destruct (processLinesM ord readBDD _ _) as [[[m c'] bs]|]; cbn [mbind] in E; [|discriminate].
  destruct (readBDD robotFile (robotVars c')) as [r|] eqn:ER; [|discriminate]. injection E as -> ->.
  exists (exactly c PreMotionState), (exactly c PostMotionControlOutput), (exactly c PostMotionState). split; [exact ER|].
  destruct (exactly_spec c PreMotionState ltac:(discriminate)), (exactly_spec c PostMotionControlOutput ltac:(discriminate)), (exactly_spec c PostMotionState ltac:(discriminate)).
  repeat (split; [assumption|]). assumption.
Qed.
Print Assumptions C59_robot_file.

(** Reading always ends. *)
Theorem C59_ends : forall ord readBDD content robotFile, readM ord readBDD content robotFile <> inr MOutOfFuel.
Proof. intros. apply readM_fuel. Qed.
Print Assumptions C59_ends.

(** A file with a region, whose name stands for its BDD. *)
Definition motRegion2 : string :=
  "[MOTION STATE OUTPUT]" ++ nl ++ "m" ++ nl ++ "[MOTION CONTROLLER OUTPUT]" ++ nl ++ "u" ++ nl ++
  "[ABSTRACTION_REGION_BDDS]" ++ nl ++ "home file.bdd" ++ nl ++ "[SYS_TRANS]" ++ nl ++ "| home home'" ++ nl.
Example C59_example : exists c robot, readM exOrdM exRobot2 motRegion2 "robot.bdd" = inl (c, robot) /\
  safetySys c = bor (bvar 0) (bvar 1) /\ length (varNames c) = 4.
Proof.
  assert (X : match readM exOrdM exRobot2 motRegion2 "robot.bdd" with
              | inl (c, _) => bf_eqb (safetySys c) (bor (bvar 0) (bvar 1)) && Nat.eqb (length (varNames c)) 4 | inr _ => false end = true)
    by (vm_compute; reflexivity).
  assert (G : forall x : mres (ctx * BF), match x with inl (c, _) => bf_eqb (safetySys c) (bor (bvar 0) (bvar 1)) && Nat.eqb (length (varNames c)) 4 | inr _ => false end = true ->
    exists c robot, x = inl (c, robot) /\ safetySys c = bor (bvar 0) (bvar 1) /\ length (varNames c) = 4).
  { intros [[c robot]|] Y; [|discriminate]. apply andb_true_iff in Y. destruct Y as [Y1 Y2]. exists c, robot. split; auto. split; [now apply bf_eqb_eq|now apply Nat.eqb_eq]. }
  exact (G (readM exOrdM exRobot2 motRegion2 "robot.bdd") X).
Qed.
