(** * C30: interaction of safety and liveness properties *)

From Coq Require Import String Arith List Bool Lia.
From Verif Require Import BDD Loop Spec VarTypes Synth Sem FixBase SynthProofs Verdict Parser FileSpec FileProofs
  Interact InteractSpec InteractProofs PropsSynth PropsParser.
Import ListNotations.
Local Open Scope list_scope.

(** Example: the system has to answer every request r with g one step later, unless
    c is set, which happens only finitely often in a row. *)
Definition iaFile : string :=
  ("[INPUT]" ++ nl ++ "r" ++ nl ++ "c" ++ nl ++ "[OUTPUT]" ++ nl ++ "g" ++ nl ++
   "[ENV_INIT]" ++ nl ++ "! r" ++ nl ++ "[ENV_TRANS]" ++ nl ++ "| ! c c'" ++ nl ++ "[ENV_LIVENESS]" ++ nl ++ "! c" ++ nl ++
   "[SYS_TRANS]" ++ nl ++ "| c' ! ^ r g'" ++ nl ++ "[SYS_LIVENESS]" ++ nl ++ "g" ++ nl)%string.
Definition iaCtx : option ctx := match initContext exOrd iaFile with POk c => Some c | _ => None end.
Example iaCtx_wf : exists c, iaCtx = Some c /\ wf c.
Proof.
  unfold iaCtx. destruct (initContext exOrd iaFile) as [c|e| |] eqn:E; try (vm_compute in E; discriminate).
  exists c. split; auto. eapply C41_accepted_wf; eauto.
Qed.

(** ** The table *)

(** The analysis is completed.  The table has sixteen rows, and the row with number [i]
    is about the specification in which the safety assumptions, liveness assumptions,
    safety guarantees and liveness guarantees are active as given by the bits 3, 2, 1 and
    0 of [i]: the first result is positive iff the specification is realizable, the second
    iff it is in the robotics semantics. *)
Theorem C30_matrix : forall c, wf c -> exists ia, interactionOf c = Some ia /\ List.length (ia_rows ia) = 16 /\
  forall i r, nth_error (ia_rows ia) i = Some r ->
    let g := only (game_of c) (Nat.testbit i 3) (Nat.testbit i 2) (Nat.testbit i 1) (Nat.testbit i 0) in
    (fst r = true <-> realizable g) /\ (snd r = true <-> realizable_robotics g).
Proof. intros c W. destruct (interaction_spec c W) as (ia & E & (L & H) & _). exists ia. auto. Qed.
Print Assumptions C30_matrix.

Definition rowsOf (c : option ctx) : option (list (bool * bool)) :=
  match c with Some c => option_map ia_rows (interactionOf c) | None => None end.
Example C30_matrix_example : rowsOf iaCtx =
  Some [(true, true); (true, true); (true, true); (false, false); (true, true); (true, true); (true, true); (false, false);
        (true, true); (true, true); (true, true); (false, false); (true, true); (true, true); (true, true); (false, false)].
Proof. vm_compute. reflexivity. Qed.

(** ** The non-strict implication *)

(** The remark on the non-strict implication is printed iff the specification is
    unrealizable in one of the semantics.  It says that the specification becomes
    realizable in the usual semantics iff this is the case.  If it says so about the
    robotics semantics, then this is the case. *)
Theorem C30_nonstrict_partial : forall c ia, wf c -> interactionOf c = Some ia ->
  match ia_nonStrict ia with
  | None => realizable (game_of c) /\ realizable_robotics (game_of c)
  | Some (classical, robotics) =>
      (~ realizable (game_of c) \/ ~ realizable_robotics (game_of c)) /\
      (classical = true <-> realizable_nonstrict (game_of c) /\ ~ realizable (game_of c)) /\
      (robotics = true -> realizable_nonstrict_robotics (game_of c) /\ ~ realizable_robotics (game_of c))
  end.
Proof. intros c ia W E. destruct (interaction_spec c W) as (ia' & E' & _ & H & _). rewrite E' in E. injection E as <-. exact H. Qed.
Print Assumptions C30_nonstrict_partial.

(** For the robotics semantics, the answer may be wrong: the initial value of the
    additional variable is not fixed, and the environment can choose that a guarantee
    has already failed.  In the example, the guarantee can be satisfied iff the assumption
    can. *)
Definition nsFile : string :=
  ("[INPUT]" ++ nl ++ "a" ++ nl ++ "[OUTPUT]" ++ nl ++ "b" ++ nl ++
   "[ENV_TRANS]" ++ nl ++ "! ^ a a'" ++ nl ++ "[ENV_LIVENESS]" ++ nl ++ "! a" ++ nl ++ "[SYS_TRANS]" ++ nl ++ "! a'" ++ nl)%string.
Fixpoint eqbs (l l' : list BF) : bool :=
  match l, l' with [], [] => true | a :: l, b :: l' => bf_eqb a b && eqbs l l' | _, _ => false end.
Lemma eqbs_eq l l' : eqbs l l' = true -> l = l'.
Proof.
  revert l'. induction l as [|a l IH]; intros [|b l']; cbn; try discriminate; auto. intros H. apply andb_true_iff in H. destruct H as [H1 H2].
  apply bf_eqb_eq in H1. subst. f_equal. auto.
Qed.

Theorem C30_nonstrict_robotics_refuted : exists ord content c ia classical,
  initContext ord content = POk c /\ interactionOf c = Some ia /\ ia_nonStrict ia = Some (classical, false) /\
  ~ realizable_robotics (game_of c) /\ realizable_nonstrict_robotics (game_of c).
Proof.
  exists exOrd, nsFile. destruct (initContext exOrd nsFile) as [c|e| |] eqn:E; try (vm_compute in E; discriminate).
  pose proof (C41_accepted_wf _ _ _ E) as W. destruct (interaction_spec c W) as (ia & Ei & (L & HR) & _).
  assert (match initContext exOrd nsFile with
          | POk c => match interactionOf c with
                     | Some ia => ia_nonStrict ia = Some (true, false) /\ nth_error (ia_rows ia) 15 = Some (false, false)
                     | None => False
                     end
          | _ => True end) as X by (vm_compute; split; reflexivity).
  rewrite E, Ei in X. destruct X as [X1 X2].
  assert (match initContext exOrd nsFile with
          | POk c => eqbs [safetyEnv c; safetySys c] [bnot (bxor (bvar 0) (bvar 1)); bnot (bvar 1)] = true /\
                     eqbs (livenessAssumptions c) [bnot (bvar 0)] = true /\ eqbs (livenessGuarantees c) [btrue] = true
          | _ => True end) as Y by (vm_compute; repeat split).
  rewrite E in Y. destruct Y as (Y1 & Y3 & Y4). apply eqbs_eq in Y1, Y3, Y4. injection Y1 as Y1 Y2.
  exists c, ia, true. split; auto. split; auto. split; auto. split.
  - intros R. destruct (HR 15 _ X2) as [_ H]. apply H in R. discriminate.
  - exists (fun _ _ _ => false). intros s x _ _ HE HA. set (pi := play_from (game_of c) (fun _ _ _ => false) s x) in *.
    assert (A : forall n, pi (S n) 0 = pi n 0).
    { intros n. specialize (HE n). cbn [game_of g_safeE] in HE. rewrite Y1 in HE. unfold trans in HE. rewrite eval_not, eval_xor, !eval_var in HE.
      change (negb (xorb (pi n 0) (pi (S n) 0)) = true) in HE. destruct (pi n 0), (pi (S n) 0); auto; discriminate. }
    assert (A0 : forall n, pi n 0 = pi 0 0) by (induction n; auto; now rewrite A).
    destruct (HA (trans (bnot (bvar 0)))) with (n := 0) as (m & _ & Hm).
    { cbn [game_of g_liveA]. rewrite Y3. now left. }
    unfold trans in Hm. rewrite eval_not, eval_var in Hm. change (negb (pi m 0) = true) in Hm. apply negb_true_iff in Hm. rewrite A0 in Hm.
    split.
    + intros n. cbn [game_of g_safeS]. rewrite Y2. unfold trans. rewrite eval_not, eval_var. change (negb (pi (S n) 0) = true). now rewrite A0, Hm.
    + cbn [game_of g_liveG]. rewrite Y4. intros p [<-|[]] n. exists n. split; auto.
Qed.
Print Assumptions C30_nonstrict_robotics_refuted.

(** ** Driving the other player into a deadlock *)

(** It is printed that the environment can falsify the specification iff it can,
    starting with an initial input that is permitted. *)
Theorem C30_environment : forall c ia, wf c -> interactionOf c = Some ia ->
  match ia_falsify ia with
  | EnvCan _ _ => ~ realizable (only (game_of c) true false true false) /\ exists k, env_wins_within (game_of c) k
  | EnvCannot => False
  | _ => realizable (only (game_of c) true false true false) /\ forall k, ~ env_wins_within (game_of c) k
  end.
Proof.
  intros c ia W E. destruct (interaction_spec c W) as (ia' & E' & _ & _ & H). rewrite E' in E. injection E as <-.
  destruct (ia_falsify ia'); tauto.
Qed.
Print Assumptions C30_environment.

(** The number of steps printed for the environment is the least one if all initial
    inputs that are not permitted leave a permitted initial output to the system.  The
    remark on initial positions is printed iff from none of the positions permitted
    initially, the environment can force the violation within the number of steps. *)
Theorem C30_env_steps_partial : forall c ia k remark, wf c -> interactionOf c = Some ia -> ia_falsify ia = EnvCan k remark ->
  let g := game_of c in
  ((forall x, (forall y, g_initE g (merge g x y) = false) -> exists y, g_initS g (merge g x y) = true) ->
   least (env_wins_within g) k) /\
  (remark = true <-> forall s, g_initE g s = true -> g_initS g s = true -> ~ env_falsifies g k s).
Proof.
  intros c ia k remark W E EF g. destruct (interaction_spec c W) as (ia' & E' & _ & _ & H). rewrite E' in E. injection E as <-.
  rewrite EF in H. destruct H as (_ & _ & HL & HB). split; [|exact HB]. intros HX.
  assert (IE : forall x y y', g_initE g (merge g x y) = g_initE g (merge g x y')).
  { intros x y y'. assert (Z : forall y, g_initE g (merge g x y) = g_initE g x); [|now rewrite !Z].
    intros y0. cbn [g game_of g_initE]. change (pos (initEnv c) (mrg c x y0) = pos (initEnv c) x).
    rewrite (preIn_merge c (initEnv c) x y0 x) by apply (wf_initEnv c W). apply eval_ext. intros v.
    unfold tv, mrg. destruct (Nat.even v); now destruct (isOut c _). }
  assert (EQ : forall j, codeEnv g j <-> env_wins_within g j).
  { intros j. split.
    - intros (x & Hx). exists x. split; [|intros y HS; now apply Hx].
      intros y. destruct (g_initE g (merge g x y)) eqn:E; auto. exfalso.
      destruct (HX x) as (y' & Hy'); [intros y'; rewrite <- E; apply IE|].
      destruct (Hx y' Hy') as [HE _]. rewrite (IE x y' y) in HE. congruence.
    - intros (x & HE & Hx). exists x. intros y HS. split; auto. }
  destruct HL as (H1 & H2 & H3). split; auto. split; [now apply EQ|]. intros j Hj F. apply (H3 j Hj). now apply EQ.
Qed.
Print Assumptions C30_env_steps_partial.

(** Otherwise the number may be too small: an initial input that is not permitted but
    leaves no permitted initial output to the system is counted. *)
Definition stepsFile : string :=
  ("[INPUT]" ++ nl ++ "a" ++ nl ++ "[OUTPUT]" ++ nl ++ "b" ++ nl ++
   "[ENV_INIT]" ++ nl ++ "! a" ++ nl ++ "[SYS_INIT]" ++ nl ++ "! a" ++ nl ++ "[SYS_TRANS]" ++ nl ++ "! a" ++ nl)%string.
Theorem C30_env_steps_refuted : exists ord content c ia remark,
  initContext ord content = POk c /\ interactionOf c = Some ia /\ ia_falsify ia = EnvCan 1 remark /\
  least (env_wins_within (game_of c)) 2.
Proof.
  exists exOrd, stepsFile. destruct (initContext exOrd stepsFile) as [c|e| |] eqn:E; try (vm_compute in E; discriminate).
  pose proof (C41_accepted_wf _ _ _ E) as W. destruct (interaction_spec c W) as (ia & Ei & _).
  assert (match initContext exOrd stepsFile with
          | POk c => option_map ia_falsify (interactionOf c) = Some (EnvCan 1 true)
          | _ => True end) as X by (vm_compute; reflexivity).
  rewrite E, Ei in X. cbn [option_map] in X. injection X as X1.
  assert (match initContext exOrd stepsFile with
          | POk c => eqbs [initEnv c; initSys c; safetyEnv c; safetySys c] [bnot (bvar 0); bnot (bvar 0); btrue; bnot (bvar 0)] = true /\
                     isOut c 0 = false
          | _ => True end) as Y by (vm_compute; repeat split).
  rewrite E in Y. destruct Y as [Y Y5]. apply eqbs_eq in Y. injection Y as Y1 Y2 Y3 Y4.
  assert (IE : forall s, g_initE (game_of c) s = negb (s 0)).
  { intros s. cbn [game_of g_initE]. rewrite Y1. unfold pos. rewrite eval_not, eval_var. reflexivity. }
  assert (IS : forall s, g_initS (game_of c) s = negb (s 0)).
  { intros s. cbn [game_of g_initS]. rewrite Y2. unfold pos. rewrite eval_not, eval_var. reflexivity. }
  assert (SS : forall s t, g_safeS (game_of c) s t = negb (s 0)).
  { intros s t. cbn [game_of g_safeS]. rewrite Y4. unfold trans. rewrite eval_not, eval_var. reflexivity. }
  assert (SE : forall s t, g_safeE (game_of c) s t = true).
  { intros s t. cbn [game_of g_safeE]. rewrite Y3. unfold trans. apply eval_true. }
  assert (MG : forall x y, merge (game_of c) x y 0 = x 0).
  { intros x y. unfold merge. cbn [g_out game_of]. now rewrite Y5. }
  exists c, ia, true. split; auto. split; auto. split; auto. split; [lia|]. split.
  - exists (fun _ => false). split; [intros y; now rewrite IE, MG|]. intros y _ f. exists (fun _ _ => true), 1. split; [lia|]. split; auto.
    rewrite SS, play_from_S, MG. reflexivity.
  - intros j Hj (x & HE & HF). replace j with 1 in HF by lia. specialize (HE (fun _ => false)). rewrite IE in HE.
    destruct (HF (fun _ => false)) with (f := (fun _ _ _ => false) : strategy) as (xs & m & Hm & _ & H).
    + now rewrite IS.
    + replace m with 0 in H by lia. rewrite SS, play_from_0 in H. congruence.
Qed.
Print Assumptions C30_env_steps_refuted.

(** If the safety part is realizable, it is printed that the system can falsify the
    environment's specification iff it can, and the number of steps is the least one. *)
Theorem C30_system : forall c ia, wf c -> interactionOf c = Some ia ->
  (realizable (only (game_of c) true false true false) <-> (exists k, ia_falsify ia = SysCan k) \/ ia_falsify ia = SysCannot) /\
  (forall k, ia_falsify ia = SysCan k -> least (sys_wins_within (game_of c)) k) /\
  (ia_falsify ia = SysCannot -> forall k, 1 <= k -> ~ sys_wins_within (game_of c) k).
Proof.
  intros c ia W E. destruct (interaction_spec c W) as (ia' & E' & _ & _ & H). rewrite E' in E. injection E as <-.
  destruct (ia_falsify ia') as [k b| |k|]; split.
  - split; [intros R; exfalso; tauto|]. intros [[k' F]|F]; discriminate.
  - split; [intros k' F|intros F]; discriminate.
  - contradiction.
  - contradiction.
  - split; [intros _; left; eauto|tauto].
  - split; [|discriminate]. intros k' F. injection F as <-. tauto.
  - split; [intros _; now right|tauto].
  - split; [discriminate|]. tauto.
Qed.
Print Assumptions C30_system.

(** ** Examples *)
Definition answersOf (content : string) : option (option (bool * bool) * falsification) :=
  match initContext exOrd content with
  | POk c => option_map (fun ia => (ia_nonStrict ia, ia_falsify ia)) (interactionOf c)
  | _ => None
  end.
Example C30_example : answersOf iaFile = Some (Some (false, false), SysCannot).
Proof. vm_compute. reflexivity. Qed.
(** Within four steps, the environment can force a violation: a has to be given twice. *)
Definition envFile : string :=
  ("[INPUT]" ++ nl ++ "a" ++ nl ++ "[OUTPUT]" ++ nl ++ "b" ++ nl ++ "c" ++ nl ++
   "[ENV_INIT]" ++ nl ++ "! a" ++ nl ++ "[SYS_INIT]" ++ nl ++ "& ! b ! c" ++ nl ++
   "[SYS_TRANS]" ++ nl ++ "! ^ b' | a b" ++ nl ++ "! ^ c' & a | b c" ++ nl ++ "! c" ++ nl)%string.
Example C30_env_example : answersOf envFile = Some (Some (false, false), EnvCan 4 false).
Proof. vm_compute. reflexivity. Qed.
(** Within three steps, the system leaves no next input to the environment. *)
Definition sysFile : string :=
  ("[INPUT]" ++ nl ++ "a" ++ nl ++ "[OUTPUT]" ++ nl ++ "b" ++ nl ++ "c" ++ nl ++
   "[SYS_INIT]" ++ nl ++ "& ! b ! c" ++ nl ++ "[ENV_TRANS]" ++ nl ++ "| ! b a'" ++ nl ++ "| ! c ! a'" ++ nl ++
   "[SYS_TRANS]" ++ nl ++ "| ! c' b" ++ nl)%string.
Example C30_sys_example : answersOf sysFile = Some (None, SysCan 3).
Proof. vm_compute. reflexivity. Qed.
(** Non-strict: only violating the guarantee first prevents the environment from
    satisfying its assumptions. *)
Example C30_nonstrict_example : answersOf nsFile = Some (Some (true, false), EnvCan 1 false).
Proof. vm_compute. reflexivity. Qed.
