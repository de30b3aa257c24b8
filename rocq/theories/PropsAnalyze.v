(** * C31 and C43: analysis of the initial positions *)

From Coq Require Import String ZArith NArith Arith List Bool Lia.
From Verif Require Import BDD Loop Spec VarTypes Synth Sem FixBase SynthProofs Verdict Parser FileSpec FileProofs
  AnalyzeSpec Analyze AnalyzeProofs CubeProofs PropsSynth PropsParser.
Import ListNotations.
Local Open Scope list_scope.

(** ** C31 *)

(** The file is read as by the other modes; only the set given by lines marked as
    "variable limits" is new.  It is described by exactly the marked lines about initial
    positions, and contains all initial positions. *)
Theorem C31_file : forall ord content c lim, initLimits ord content = POk (c, lim) ->
  initContext ord content = POk c /\ wf c /\ dep (isPreV c) lim /\
  (forall s, g_initE (game_of c) s = true -> g_initS (game_of c) s = true -> pos lim s = true) /\
  exists bs, Forall2 (fun p b => parseFormula (varNames c) (varTypes c) (allowedF (fst p)) ord (snd p) = POk (Some b))
                     (limitLines content) bs /\
    forall e, eval lim e = forallb (fun b => eval b e) bs.
Proof. intros ord content c lim H. pose proof (initLimits_spec ord content c lim H). intuition. Qed.
Print Assumptions C31_file.

(** Exactly the files are accepted that the other modes accept and in which no line about
    liveness is marked. *)
Theorem C31_accepted : forall ord content c,
  (exists lim, initLimits ord content = POk (c, lim)) <->
  initContext ord content = POk c /\
  forall s line, In (s, line) (markedLines None false (file_lines content)) -> s <> SEnvLive /\ s <> SSysLive.
Proof.
  intros ord content c. split.
  - intros (lim & H). pose proof (initLimits_spec ord content c lim H). intuition; edestruct H6; eauto.
  - intros [H1 H2]. now apply initLimits_accepts.
Qed.
Print Assumptions C31_accepted.

Definition limFile : string :=
  ("[INPUT]" ++ nl ++ "a" ++ nl ++ "[OUTPUT]" ++ nl ++ "b" ++ nl ++ "c" ++ nl ++
   "[SYS_INIT]" ++ nl ++ "## Variable limits: 0<=bc<=2" ++ nl ++ "| ! b ! c" ++ nl ++
   "[SYS_TRANS]" ++ nl ++ "| ! b' a" ++ nl)%string.
Example C31_file_example : match initLimits exOrd limFile with
  | POk (c, lim) => (nvars c, bf_eqb lim btrue, bf_eqb lim (bor (bnot (bvar 2)) (bnot (bvar 4))))
  | _ => (0, true, false)
  end = (3, false, true) /\ limitLines limFile = [(SSysInit, "| ! b ! c"%string)].
Proof. vm_compute. split; reflexivity. Qed.

(** A comment before a section header does not mark the line after it; a comment before another
    comment or a blank line does. *)
Definition limFile2 : string :=
  ("[INPUT]" ++ nl ++ "a" ++ nl ++ "[OUTPUT]" ++ nl ++ "b" ++ nl ++
   "## Variable limits: 0<=b<=0" ++ nl ++ "[SYS_INIT]" ++ nl ++ "! b" ++ nl ++
   "[ENV_INIT]" ++ nl ++ "## Variable limits: 0<=a<=0" ++ nl ++ "# more" ++ nl ++ nl ++ "! a" ++ nl ++ "1" ++ nl)%string.
Example C31_marked_example : limitLines limFile2 = [(SEnvInit, "! a"%string)] /\
  match initLimits exOrd limFile2 with POk (c, lim) => bf_eqb lim (bnot (bvar 0)) | _ => false end = true /\
  markedLines None false (file_lines ("[SYS_LIVENESS]" ++ nl ++ "## Variable limits: x" ++ nl ++ "1")) = [(SSysLive, "1"%string)].
Proof. vm_compute. repeat split; reflexivity. Qed.

(** The considered positions: the limits, and with the option to restrict to reachable
    positions additionally reachability. *)
Definition considered (restrict : bool) (c : ctx) (lim : BF) (s : state) : Prop :=
  pos lim s = true /\ (restrict = true -> reach (game_of c) s).

Section NUMBERS.
  Variables (restrict : bool) (c : ctx) (lim : BF).
  Hypothesis Hwf : wf c.
  Hypothesis Hlim : dep (isPreV c) lim.
  Let Hk := wf_kinds c Hwf.

  Lemma analyze_spec : exists an, analyze restrict c lim = Some an /\
    an_counts an = countsOf c (an_winning an) (an_limits an) /\
    dep (isPreV c) (an_limits an) /\ dep (isPreV c) (an_winning an) /\
    (forall s, pos (an_limits an) s = true <-> considered restrict c lim s) /\
    (forall s, pos (an_winning an) s = true <-> winning (game_of c) s).
  Proof.
    destruct (compute_spec c Hwf) as (w & d & E & S). pose proof (solved_exact c w d Hwf S) as HX.
    unfold analyze. rewrite E. destruct (reachable_spec c Hwf) as (r & Er & Dr & Hr).
    assert (dep (isPreV c) w) as Dw by apply HX.
    destruct restrict.
    - rewrite Er. eexists. split; [reflexivity|]. cbn [an_counts an_limits an_winning].
      refine (conj eq_refl (conj _ (conj Dw (conj _ (exact_winning c w HX))))); [now apply dep_and|].
      intros s. unfold considered. rewrite pos_and, andb_true_iff, Hr. tauto.
    - eexists. split; [reflexivity|]. cbn [an_counts an_limits an_winning].
      refine (conj eq_refl (conj Hlim (conj Dw (conj _ (exact_winning c w HX))))).
      intros s. unfold considered. intuition discriminate.
  Qed.

  Lemma initE_pre : dep (isPreV c) (initEnv c).
  Proof. apply dep_weaken with (2 := wf_initEnv c Hwf). now intros v [H _]. Qed.
End NUMBERS.

(** The eight numbers of positions are the numbers of valuations of all variables that
    belong to the described sets; none of them is "nan". *)
Theorem C31_positions : forall restrict c lim, wf c -> dep (isPreV c) lim ->
  exists an, analyze restrict c lim = Some an /\
  let g := game_of c in
  let shows (x : option N) (P : state -> Prop) :=
    exists n, x = Some n /\ numberOf (seq 0 (nvars c)) (fun s => considered restrict c lim s /\ P s) n in
  shows (nofPos (an_counts an)) (fun _ => True) /\
  shows (nofPosA (an_counts an)) (fun s => g_initE g s = true) /\
  shows (nofPosG (an_counts an)) (fun s => g_initS g s = true) /\
  shows (nofPosAG (an_counts an)) (fun s => g_initE g s = true /\ g_initS g s = true) /\
  shows (nofWPos (an_counts an)) (winning g) /\
  shows (nofWPosA (an_counts an)) (fun s => g_initE g s = true /\ winning g s) /\
  shows (nofWPosG (an_counts an)) (fun s => g_initS g s = true /\ winning g s) /\
  shows (nofWPosAG (an_counts an)) (fun s => g_initE g s = true /\ g_initS g s = true /\ winning g s).
Proof.
  intros restrict c lim Hwf Hlim. destruct (analyze_spec restrict c lim Hwf Hlim) as (an & E & EC & D1 & D2 & H1 & H2).
  exists an. split; [exact E|]. rewrite EC. cbn zeta. unfold countsOf. cbn [nofPos nofPosA nofPosG nofPosAG nofWPos nofWPosA nofWPosG nofWPosAG].
  pose proof (initE_pre c Hwf) as De. pose proof (wf_initSys c Hwf) as Ds.
  refine (conj _ (conj _ (conj _ (conj _ (conj _ (conj _ (conj _ _)))))));
    (apply (count_pre c Hwf); [repeat apply dep_and; assumption|]; intros s; rewrite ?pos_and, ?andb_true_iff, ?H1, ?H2; cbn [g_initE g_initS game_of]; tauto).
Qed.
Print Assumptions C31_positions.

Example C31_positions_example :
  match initLimits exOrd limFile with
  | POk (c, lim) => match analyze false c lim, analyze true c lim with
                    | Some an, Some an' => Some (nofPos (an_counts an), nofPosG (an_counts an), nofWPosAG (an_counts an), nofPos (an_counts an'))
                    | _, _ => None
                    end
  | _ => None
  end = Some (Some 6%N, Some 6%N, Some 6%N, Some 6%N).
Proof. vm_compute. reflexivity. Qed.

(** Numbers of input valuations. *)
Theorem C31_inputs : forall restrict c lim, wf c -> dep (isPreV c) lim ->
  exists an, analyze restrict c lim = Some an /\
  let g := game_of c in
  let possible (s : state) := exists y, considered restrict c lim (merge g s y) in
  let shows (x : option N) (P : state -> Prop) := exists n, x = Some n /\ numberOf (inputsOf c) P n in
  shows (nofInputs (an_counts an)) possible /\
  shows (nofAllowedInitialInputs (an_counts an)) (fun s => g_initE g s = true /\ possible s).
Proof.
  intros restrict c lim Hwf Hlim. destruct (analyze_spec restrict c lim Hwf Hlim) as (an & E & EC & D1 & D2 & H1 & H2).
  exists an. split; [exact E|]. rewrite EC. cbn zeta. unfold countsOf. cbn [nofInputs nofAllowedInitialInputs].
  pose proof (dep_exPreOut c Hwf _ D1) as D3.
  assert (forall s, pos (bexists (varCubePreOutput c) (an_limits an)) s = true <->
    exists y, considered restrict c lim (merge (game_of c) s y)) as H3.
  { intros s. rewrite (exPreOut_pos c (wf_kinds c Hwf)) by exact D1. split; intros (y & Hy); exists y; now apply H1. }
  split; (apply (count_in c Hwf); [|intros s; rewrite ?pos_and, ?andb_true_iff, H3; cbn; tauto]); [exact D3|].
  apply dep_and; [apply (wf_initEnv c Hwf)|exact D3].
Qed.
Print Assumptions C31_inputs.

(** The number of inputs that force the system to a losing position: it is right if the
    considered inputs are described by inputs only (as without limits and without the
    restriction to reachable positions), and "nan" exactly if the
    counted set also depends on outputs. *)
Definition losingSet (an : analysis) (c : ctx) (lim : BF) : BF :=
  band (band (initEnv c) (an_limits an)) (bnot (bexists (varCubePreOutput c) (band (an_winning an) (initSys c)))).

Theorem C31_losing_inputs_partial : forall restrict c lim, wf c -> dep (isPreV c) lim ->
  exists an, analyze restrict c lim = Some an /\
  let g := game_of c in
  let bad (s : state) := considered restrict c lim s /\ g_initE g s = true /\
    forall y, let s' := merge g s y in g_initS g s' = true -> ~ winning g s' in
  ((forall s y, considered restrict c lim s <-> considered restrict c lim (merge g s y)) ->
     exists n, nofInputsSystemLosing (an_counts an) = Some n /\ numberOf (inputsOf c) bad n) /\
  (nofInputsSystemLosing (an_counts an) = None <->
     exists s y, bad s /\ ~ considered restrict c lim (merge g s y)).
Proof.
  intros restrict c lim Hwf Hlim. destruct (analyze_spec restrict c lim Hwf Hlim) as (an & E & EC & D1 & D2 & H1 & H2).
  exists an. split; [exact E|]. rewrite EC. cbn zeta. unfold countsOf. cbn [nofInputsSystemLosing].
  pose proof (wf_kinds c Hwf) as Hk.
  set (out := bexists (varCubePreOutput c) (band (an_winning an) (initSys c))).
  assert (dep (isPreInV c) out) as Do by (apply (dep_exPreOut c Hwf), dep_and; [exact D2|apply (wf_initSys c Hwf)]).
  set (F := band (band (initEnv c) (an_limits an)) (bnot out)).
  assert (dep (isPreV c) F) as DF.
  { apply dep_and; [apply dep_and; [apply (initE_pre c Hwf)|exact D1]|apply dep_not, dep_weaken with (2 := Do); now intros v [H _]]. }
  assert (forall s, pos F s = true <-> considered restrict c lim s /\ g_initE (game_of c) s = true /\
    forall y, g_initS (game_of c) (merge (game_of c) s y) = true -> ~ winning (game_of c) (merge (game_of c) s y)) as HF.
  { intros s. unfold F. rewrite !pos_and, pos_not, !andb_true_iff, H1, negb_true_iff. cbn [g_initE g_initS g_out game_of].
    assert (pos out s = false <-> forall y, pos (initSys c) (merge (game_of c) s y) = true -> ~ winning (game_of c) (merge (game_of c) s y)) as Q.
    { rewrite <- not_true_iff_false. unfold out. rewrite (exPreOut_pos c Hk) by (apply dep_and; [exact D2|apply (wf_initSys c Hwf)]).
      split.
      - intros N y Hy Hw. apply N. exists y. rewrite pos_and, andb_true_iff, H2. auto.
      - intros N (y & Hy). rewrite pos_and, andb_true_iff, H2 in Hy. apply (N y); apply Hy. }
    rewrite Q. tauto. }
  assert (mergeE : forall f s y, dep (isPreInV c) f -> pos f (merge (game_of c) s y) = pos f s).
  { intros f s y Df. unfold pos. apply Df. intros v [[Hv Ev] Ov]. destruct (even_cases v) as [[k ->]|[k ->]]; [|rewrite even_double1 in Ev; discriminate].
    rewrite !tv_even. rewrite Nat.div2_double in Ov. unfold merge. cbn [g_out game_of]. now rewrite Ov. }
  assert (Dec : dep (isPreInV c) F <-> ~ exists s y, pos F s = true /\ pos (an_limits an) (merge (game_of c) s y) = false).
  { split.
    - intros Df (s & y & Hs & Hy). rewrite <- (mergeE F s y Df) in Hs. unfold F in Hs. rewrite !pos_and, Hy in Hs.
      now rewrite andb_false_r in Hs.
    - intros N.
      assert (M : forall s y, pos F s = true -> pos F (merge (game_of c) s y) = true).
      { intros s y Hs. unfold F in *. rewrite !pos_and, pos_not, !andb_true_iff in *.
        rewrite (mergeE _ _ _ (wf_initEnv c Hwf)), (mergeE _ _ _ Do). destruct Hs as [[Hs1 Hs2] Hs3].
        split; [split|]; auto. destruct (pos (an_limits an) (merge (game_of c) s y)) eqn:X; auto.
        exfalso. apply N. exists s, y. split; [|exact X]. rewrite !pos_and, pos_not, Hs1, Hs2, Hs3. reflexivity. }
      assert (M' : forall e e', (forall v, isPreInV c v -> e v = e' v) -> eval F e = true -> eval F e' = true).
      { intros e e' Ha He. 
        assert (pos F (fun k => e (2 * k)) = true) as P1.
        { rewrite <- He. unfold pos. apply DF. intros v [Hv Ev]. destruct (even_cases v) as [[k ->]|[k ->]]; [|rewrite even_double1 in Ev; discriminate].
          now rewrite tv_even. }
        apply (M _ (fun k => e' (2 * k))) in P1. rewrite <- P1. unfold pos. apply DF. intros v [Hv Ev].
        destruct (even_cases v) as [[k ->]|[k ->]]; [|rewrite even_double1 in Ev; discriminate]. rewrite tv_even. unfold merge. cbn [g_out game_of].
        destruct (isOut c k) eqn:O; [reflexivity|]. symmetry. apply Ha. split; [split; assumption|]. now rewrite Nat.div2_double. }
      intros e e' Ha. destruct (eval F e) eqn:X; [symmetry; now apply (M' e)|]. destruct (eval F e') eqn:Y; [|reflexivity].
      exfalso. rewrite (M' e' e) in X; [discriminate|intros; symmetry; auto|exact Y]. }
  assert (cubeIn : forall v, isPreInV c v <-> In v (varCubePreInput c)).
  { intros v. rewrite (in_PreInput c Hk). unfold isPreInV, isPreV. rewrite (nvars_spec c Hk). split.
    - intros [[Hv Ev] Ov]. destruct (even_cases v) as [[k ->]|[k ->]]; [|rewrite even_double1 in Ev; discriminate].
      rewrite Nat.div2_double in Ov. exists k. repeat split; auto; lia.
    - intros (k & -> & Hlt & Ov). rewrite even_double, Nat.div2_double. repeat split; auto; lia. }
  split.
  - intros Hin. apply (count_in c Hwf); [|exact HF]. apply Dec. intros (s & y & Hs & Hy). apply HF in Hs. destruct Hs as (Hc & _).
    apply (Hin s y), H1 in Hc. cbn in Hc. congruence.
  - rewrite countSat_none. fold F.
    assert (dep (fun v => In v (varCubePreInput c)) F <-> dep (isPreInV c) F) as ->.
    { split; apply dep_weaken; intros v; apply cubeIn. }
    rewrite Dec. split.
    + intros N.
      (* decidable: search over the finitely many valuations *)
      destruct (existsb (fun l => existsb (fun l' => pos F (ofVec l) && negb (pos (an_limits an) (merge (game_of c) (ofVec l) (ofVec l')))) (vectors (nvars c))) (vectors (nvars c))) eqn:X.
      * apply existsb_exists in X. destruct X as (l & _ & X). apply existsb_exists in X. destruct X as (l' & _ & X).
        apply andb_true_iff in X. destruct X as [X1 X2]. apply negb_true_iff in X2. exists (ofVec l), (ofVec l'). split; [now apply HF|].
        intros Q. apply H1 in Q. cbn in Q. congruence.
      * exfalso. apply N. intros (s & y & Hs & Hy). apply not_true_iff_false in X. apply X.
        apply existsb_exists. exists (toVec (nvars c) s). split; [apply toVec_in|].
        apply existsb_exists. exists (toVec (nvars c) y). split; [apply toVec_in|].
        assert (forall f z, dep (isPreV c) f -> forall z', (forall k, k < nvars c -> z k = z' k) -> pos f z = pos f z') as PE.
        { intros f z Df z' Hz. now apply (pos_ext c Hk). }
        rewrite (PE F _ DF s) by (intros; now apply ofVec_toVec). rewrite Hs. cbn.
        rewrite (PE (an_limits an) _ D1 (merge (game_of c) s y)); [now rewrite Hy|].
        intros k Hlt. unfold merge. cbn [g_out game_of]. destruct (isOut c k); now apply ofVec_toVec.
    + intros (s & y & Hs & Hy) N. apply N. exists s, y. split; [now apply HF|]. apply not_true_iff_false. intros Q. apply Hy, H1, Q.
Qed.
Print Assumptions C31_losing_inputs_partial.

(** Without limits: in the first specification all initial inputs are losing. *)
Definition exLose : ctx := mkCtx exNames exTypes [btrue] [bvar 2] btrue (bnot (bvar 2)) btrue (bnot (bvar 0)).
Lemma exLose_wf : wf exLose.
Proof.
  constructor; cbn [varTypes livenessAssumptions livenessGuarantees initEnv initSys safetyEnv safetySys exLose].
  - exists [PreInput; PreOutput]. split; reflexivity.
  - dep_ex.
  - dep_ex.
  - dep_ex.
  - dep_ex.
  - repeat constructor; dep_ex.
  - repeat constructor; dep_ex.
  - discriminate.
  - discriminate.
Qed.
Example C31_inputs_example : wf exLose /\ wf exR /\
  map (fun c => match analyze false c btrue with
    | Some an => [nofInputs (an_counts an); nofAllowedInitialInputs (an_counts an); nofInputsSystemLosing (an_counts an)]
    | None => [] end) [exLose; exR] = [[Some 2; Some 2; Some 2]; [Some 2; Some 1; Some 0]]%N.
Proof. split; [exact exLose_wf|]. split; [exact exR_wf|]. vm_compute. reflexivity. Qed.

(** "nan" is printed for the following file, in which the environment can force a
    losing position and the limits are given for outputs. *)
Definition nanFile : string :=
  ("[INPUT]" ++ nl ++ "a" ++ nl ++ "[OUTPUT]" ++ nl ++ "b" ++ nl ++
   "[SYS_INIT]" ++ nl ++ "## Variable limits: 0<=b<=0" ++ nl ++ "! b" ++ nl ++
   "[SYS_TRANS]" ++ nl ++ "! a" ++ nl)%string.
Theorem C31_nan_refuted : exists content c lim an,
  initLimits exOrd content = POk (c, lim) /\ analyze false c lim = Some an /\
  nofInputsSystemLosing (an_counts an) = None.
Proof.
  exists nanFile. destruct (initLimits exOrd nanFile) as [[c lim]|e| |] eqn:E; try (vm_compute in E; discriminate).
  exists c, lim. destruct (C31_losing_inputs_partial false c lim) as (an & Ea & _).
  - apply (C31_file _ _ _ _ E).
  - apply (C31_file _ _ _ _ E).
  - exists an. split; [reflexivity|]. split; [exact Ea|]. 
    assert (match initLimits exOrd nanFile with
            | POk (c, lim) => match analyze false c lim with Some an => Some (nofInputsSystemLosing (an_counts an)) | None => None end
            | _ => None end = Some None) as X by (vm_compute; reflexivity).
    rewrite E, Ea in X. now injection X.
Qed.
Print Assumptions C31_nan_refuted.

(** Reachable positions, option to restrict the analysis. *)
Theorem C31_reachable : forall c, wf c -> exists r, reachableStates c = Some r /\
  forall s, pos r s = true <-> reach (game_of c) s.
Proof. intros c Hwf. destruct (reachable_spec c Hwf) as (r & E & _ & H). exists r. auto. Qed.
Print Assumptions C31_reachable.
Example C31_reachable_example : wf exR /\ match reachableStates exR with
  | Some r => countSat (varCubePre exR) r | None => None end = Some 3%N.
Proof. split; [exact exR_wf|vm_compute; reflexivity]. Qed.

(** The text shows six significant digits, hence numbers below 10^6 exactly. *)
Theorem C31_shown : forall n, (n < 10 ^ 6)%N -> shown n = n.
Proof.
  intros n Hn. unfold shown.
  assert (forall fuel m d, (d <= 6) -> (m < 10 ^ N.of_nat d)%N -> decimals fuel m <= d \/ d = 0 ) as G.
  { induction fuel as [|fuel IH]; intros m d Hd Hm; [left; cbn; lia|]. cbn [decimals]. destruct (N.ltb_spec m 10) as [H|H].
    - destruct d; [now right|left; lia].
    - destruct d as [|d]; [now right|]. left. 
      destruct (IH (m / 10)%N d) as [X|X]; [lia| |lia|].
      + rewrite Nat2N.inj_succ, N.pow_succ_r' in Hm. apply N.div_lt_upper_bound; lia.
      + subst d. cbn in Hm. lia. }
  destruct (G (N.size_nat n) n 6) as [X|X]; [lia|exact Hn| |lia].
  replace (decimals (N.size_nat n) n - 6) with 0 by lia. cbn [N.of_nat]. rewrite N.pow_0_r, N.div_1_r, N.mod_1_r, N.mul_0_r. cbn. lia.
Qed.
Print Assumptions C31_shown.

(** Larger numbers are rounded: with 20 variables and without any condition the printed
    number of positions is 1.04858e+06. *)
Fixpoint manyOutputs (n : nat) (name : string) : string :=
  match n with
  | O => ""%string
  | S n => (name ++ nl ++ manyOutputs n (name ++ "b"))%string
  end.
Definition bigFile : string := ("[INPUT]" ++ nl ++ "a" ++ nl ++ "[OUTPUT]" ++ nl ++ manyOutputs 19 "b")%string.
Theorem C31_rounded_refuted : exists content c lim an n,
  initLimits exOrd content = POk (c, lim) /\ analyze false c lim = Some an /\
  nofPos (an_counts an) = Some n /\ numberOf (seq 0 (nvars c)) (considered false c lim) n /\ shown n <> n.
Proof.
  exists bigFile. destruct (initLimits exOrd bigFile) as [[c lim]|e| |] eqn:E; try (vm_compute in E; discriminate).
  exists c, lim. destruct (C31_positions false c lim) as (an & Ea & (n & En & Hn) & _).
  - apply (C31_file _ _ _ _ E).
  - apply (C31_file _ _ _ _ E).
  - exists an, n. split; [reflexivity|]. split; [exact Ea|]. split; [exact En|]. split.
    + destruct Hn as (l & N1 & N2 & N3). exists l. split; [exact N1|]. split; [exact N2|]. intros v. rewrite N3. tauto.
    + assert (match initLimits exOrd bigFile with
            | POk (c, lim) => countSat (varCubePre c) lim
            | _ => None end = Some 1048576%N) as X by (vm_compute; reflexivity).
      rewrite E in X. unfold analyze in Ea. destruct (computeWinningPositions c) as [[w d]|]; [|discriminate].
      injection Ea as <-. cbn [an_counts countsOf nofPos] in En. rewrite X in En. injection En as <-. vm_compute. discriminate.
Qed.
Print Assumptions C31_rounded_refuted.

(** ** C43 *)

(** For every path search that yields a path to the TRUE node, and for every text of the
    lines: the printed cubes of a set [pre] of positions among the positions [care]. *)
Theorem C43_cubes : forall c pick render pre care, wf c -> dep (isPreV c) pre -> dep (isPreV c) care ->
  (forall R, isFalse R = false -> isPath (bft R) (pick R) = true) ->
  exists r, printLargePreCubes c pick render pre care = Some r /\
  match r with
  | PrintTrue => forall s, pos care s = true -> pos pre s = true
  | PrintNone => (exists s, pos care s = true) /\ forall s, pos care s = true -> pos pre s = false
  | PrintCubes out =>
      (exists s, pos care s = true /\ pos pre s = false) /\ (exists s, pos care s = true /\ pos pre s = true) /\
      out <> [] /\ length out <= 7 /\ NoDup (map render out) /\
      Forall (fun cube => length cube = nvars c /\ Forall (fun z => In z [(-1)%Z; 0%Z; 1%Z]) cube /\
        (forall s, pos care s = true -> matches cube s -> pos pre s = true) /\
        (exists s, pos care s = true /\ pos pre s = true /\ matches cube s)) out /\
      ForallOrdPairs (fun earlier later => exists k, nth k earlier 0%Z <> 0%Z /\ nth k later 0%Z = 0%Z) out
  end.
Proof.
  intros c pick render pre care Hwf Dp Dc Hpick. pose proof (wf_kinds c Hwf) as Hk. unfold printLargePreCubes.
  assert (posE : forall f e, dep (isPreV c) f -> eval f e = pos f (fun k => e (2 * k))).
  { intros f e Df. unfold pos. apply Df. intros v [Hv Ev]. destruct (even_cases v) as [[k ->]|[k ->]]; [|rewrite even_double1 in Ev; discriminate].
    now rewrite tv_even. }
  assert (wit : forall f, dep (isPreV c) f -> isFalse f = false -> exists s, pos f s = true).
  { intros f Df Ef. destruct (isFalse_false f) as [H _]. destruct (H Ef) as (e & He). exists (fun k => e (2 * k)). now rewrite <- posE. }
  destruct (bleq care pre) eqn:E1.
  { eexists. split; [reflexivity|]. cbn. intros s Hs. rewrite bleq_spec in E1. now apply E1. }
  assert (exists s, pos care s = true /\ pos pre s = false) as W1.
  { destruct (wit (band care (bnot pre))) as (s & Hs).
    - apply dep_and; [exact Dc|now apply dep_not].
    - destruct (isFalse (band care (bnot pre))) eqn:X; [|reflexivity]. rewrite isFalse_spec in X. 
      assert (bleq care pre = true); [|congruence]. apply bleq_spec. intros e He. specialize (X e).
      rewrite eval_and, eval_not, He in X. now apply negb_false_iff in X.
    - exists s. rewrite pos_and, pos_not, andb_true_iff, negb_true_iff in Hs. exact Hs. }
  destruct (bf_eqb (band pre care) bfalse) eqn:E2.
  { eexists. split; [reflexivity|]. cbn. apply bf_eqb_eq in E2. split; [destruct W1 as (s & H & _); eauto|].
    intros s Hs. assert (pos (band pre care) s = false) as X by (rewrite E2; apply eval_false). rewrite pos_and, Hs, andb_true_r in X. exact X. }
  assert (exists s, pos pre s = true /\ pos care s = true) as W2.
  { destruct (wit (band pre care)) as (s & Hs); [now apply dep_and| |].
    - destruct (isFalse (band pre care)) eqn:X; [|reflexivity]. rewrite <- E2. symmetry.
      rewrite isFalse_spec in X. rewrite (bf_ext (band pre care) bfalse); [apply bf_eqb_refl|]. intros e. now rewrite X, eval_false.
    - exists s. now rewrite pos_and, andb_true_iff in Hs. }
  assert (dep (isPreV c) (bor pre (bnot care))) as Df by (apply dep_or; [exact Dp|now apply dep_not]).
  destruct (cubes_run c Hwf (bor pre (bnot care)) care Df Dc pick render Hpick) as (out & Er & O1 & O2 & O3 & O4 & O5).
  { destruct W2 as (s & H1 & H2). exists s. now rewrite pos_or, H1. }
  unfold minterms. rewrite (combine_pairs c Hwf). fold (R0 c (bor pre (bnot care))). rewrite Er.
  eexists. split; [reflexivity|]. cbn. split; [exact W1|]. split; [destruct W2 as (s & H1 & H2); eauto|].
  refine (conj O1 (conj O2 (conj O5 (conj _ O4)))).
  apply Forall_forall. intros cube Hc. rewrite Forall_forall in O3. destruct (O3 cube Hc) as (L & V & S & (s & M1 & M2)).
  assert (forall s, pos care s = true -> matches cube s -> pos pre s = true) as S'.
  { intros s' H1 H2. apply S in H2. rewrite pos_or, pos_not, H1 in H2. now rewrite orb_false_r in H2. }
  refine (conj L (conj V (conj S' _))). exists s. auto.
Qed.
Print Assumptions C43_cubes.

(** The smallest cube search is such a search. *)
Definition pickCheapest (c : ctx) (R : BF) : list (nat * bool) :=
  match cheapest (fun v => negb (Nat.even v)) (bft R) with Some (_, p) => p | None => [] end.
Theorem C43_search : forall c R, isFalse R = false -> isPath (bft R) (pickCheapest c R) = true.
Proof.
  intros c R HR. unfold pickCheapest.
  destruct (cheapest_path (fun v => negb (Nat.even v)) (bft R) 0) as (k & p & E & P).
  - apply bft_ok.
  - intros X. assert (R = bfalse) as -> by (apply bf_ext; intros e; unfold eval at 1; rewrite X, eval_false; reflexivity).
    vm_compute in HR. discriminate.
  - now rewrite E.
Qed.
Print Assumptions C43_search.

(** The positions of which cubes are printed. *)
Theorem C43_sets : forall c lim restrict, wf c -> dep (isPreV c) lim ->
  exists an, analyze restrict c lim = Some an /\ Forall (dep (isPreV c)) (cubeSets c (an_winning an)) /\ dep (isPreV c) (an_limits an) /\
  (forall s, pos (an_limits an) s = true <-> considered restrict c lim s) /\
  forall s, let g := game_of c in
   Forall2 (fun f P => pos f s = true <-> P) (cubeSets c (an_winning an))
    [winning g s; ~ winning g s;
     winning g s /\ g_initE g s = true; ~ winning g s /\ g_initE g s = true;
     winning g s /\ g_initS g s = true; ~ winning g s /\ g_initS g s = true;
     winning g s /\ g_initE g s = true /\ g_initS g s = true; ~ winning g s /\ g_initE g s = true /\ g_initS g s = true;
     winning g s /\ forall t, g_safeE g s t = false].
Proof.
  intros c lim restrict Hwf Hlim. pose proof (wf_kinds c Hwf) as Hk.
  destruct (analyze_spec restrict c lim Hwf Hlim) as (an & E & EC & D1 & D2 & H1 & H2).
  exists an. split; [exact E|]. pose proof (initE_pre c Hwf) as De. pose proof (wf_initSys c Hwf) as Ds.
  assert (dep (isPreV c) (bexists (varCubePostInput c) (safetyEnv c))) as Dx.
  { eapply dep_exists; [apply (wf_safetyEnv c Hwf)|]. intros v [Hv Hv'] Hn. split; [exact Hv|].
    destruct (even_cases v) as [[k ->]|[k ->]]; [apply even_double|]. exfalso. apply Hn. apply (in_PostInput c Hk).
    exists k. destruct Hv' as [Hv'|Hv']; [rewrite even_double1 in Hv'; discriminate|].
    unfold isAnyV in Hv. rewrite (nvars_spec c Hk) in Hv. split; [reflexivity|]. split; [lia|].
    replace (Nat.div2 (2 * k + 1)) with k in Hv' by (rewrite Nat.add_1_r, Nat.div2_succ_double; reflexivity). exact Hv'. }
  refine (conj _ (conj D1 (conj H1 _))).
  - unfold cubeSets. repeat apply Forall_cons; try apply Forall_nil; repeat apply dep_and; try apply dep_not; try assumption; repeat apply dep_and; try apply dep_not; assumption.
  - intros s g. unfold cubeSets.
    assert (pos (bnot (an_winning an)) s = true <-> ~ winning g s) as Hn.
    { rewrite pos_not, negb_true_iff, <- not_true_iff_false, H2. tauto. }
    assert (pos (bexists (varCubePostInput c) (safetyEnv c)) s = false <-> forall t, trans (safetyEnv c) s t = false) as Hb.
    { split.
      - intros X t. apply not_true_iff_false. intros Y. apply not_true_iff_false in X. apply X.
        unfold pos. apply eval_exists. exists (fun v => if in_dec Nat.eq_dec v (varCubePostInput c) then tv s t v else tv s s v). split.
        + intros v Hv. destruct (in_dec Nat.eq_dec v (varCubePostInput c)); [contradiction|reflexivity].
        + rewrite <- Y. unfold trans. apply (wf_safetyEnv c Hwf). intros v [Hv Hv'].
          destruct (in_dec Nat.eq_dec v (varCubePostInput c)) as [|Hi]; [reflexivity|].
          destruct (even_cases v) as [[k ->]|[k ->]]; [now rewrite !tv_even|]. exfalso. apply Hi. apply (in_PostInput c Hk).
          exists k. destruct Hv' as [Hv'|Hv']; [rewrite even_double1 in Hv'; discriminate|].
          unfold isAnyV in Hv. rewrite (nvars_spec c Hk) in Hv. split; [reflexivity|]. split; [lia|].
          replace (Nat.div2 (2 * k + 1)) with k in Hv' by (rewrite Nat.add_1_r, Nat.div2_succ_double; reflexivity). exact Hv'.
      - intros X. apply not_true_iff_false. intros Y. unfold pos in Y. apply eval_exists in Y. destruct Y as (e & Ha & He).
        specialize (X (fun k => e (2 * k + 1))). unfold trans in X. apply not_true_iff_false in X. apply X. rewrite <- He.
        apply (wf_safetyEnv c Hwf). intros v _. destruct (even_cases v) as [[k ->]|[k ->]]; [|now rewrite tv_odd].
        rewrite tv_even. rewrite <- (tv_even s s). apply Ha. rewrite (in_PostInput c Hk). intros (m & Em & _). lia. }
    assert (pos (bnot (bexists (varCubePostInput c) (safetyEnv c))) s = true <-> forall t, trans (safetyEnv c) s t = false) as Hb'.
    { rewrite pos_not, negb_true_iff. exact Hb. }
    repeat (apply Forall2_cons; [rewrite ?pos_and, ?andb_true_iff, ?Hn, ?H2, ?Hb'; cbn [g_initE g_initS g_safeE game_of]; tauto|]).
    apply Forall2_nil.
Qed.
Print Assumptions C43_sets.

Example C43_example :
  match initLimits exOrd limFile with
  | POk (c, lim) => match analyze false c lim with
     | Some an => map (fun f => printLargePreCubes c (pickCheapest c) (renderNames ["a"; "b"; "c"]%string) f lim)
                    [band (an_winning an) (bvar 2); bor (bvar 0) (bvar 2); bnot (an_winning an)]
     | None => []
     end
  | _ => []
  end = [Some (PrintCubes [[0; 1; 0]]%Z); Some (PrintCubes [[0; 1; 0]; [1; 0; 0]]%Z); Some PrintNone].
Proof. vm_compute. reflexivity. Qed.
