(** * Counterstrategies: C24 and C25

    Options --counterStrategy, alone and with --sysInitRoboticsSemantics
    ([robotics]).  [computeCounterstrategy robotics c] gives the verdict and the
    printed states. *)

From Coq Require Import Arith List Bool Lia Wf_nat Permutation String.
From Verif Require Import BDD Loop Spec VarTypes Synth Sem FixBase SynthProofs Verdict AutSpec PropsSynth
  CounterSpec Counter CounterDual CounterData CounterExtract CounterGame CounterNodes.
Import ListNotations.
Local Open Scope nat_scope.
Local Open Scope list_scope.
Local Notation length := List.length.

(** ** Examples *)
Local Open Scope string_scope.
(** The environment keeps y from becoming true. *)
Definition exS : ctx := mkCtx ["x"; "x'"; "y"; "y'"] [PreInput; PostInput; PreOutput; PostOutput]
  [bvar 0] [bvar 2] (bnot (bvar 0)) btrue btrue (bor (bnot (bvar 1)) (bnot (bvar 3))).
(** The environment can lead the system into a deadlock. *)
Definition exD : ctx := mkCtx ["x"; "x'"; "y"; "y'"] [PreInput; PostInput; PreOutput; PostOutput]
  [btrue] [bvar 2] (bnot (bvar 0)) btrue (bor (bvar 0) (bvar 1))
  (band (bor (bnot (bvar 0)) (bvar 1)) (bor (bnot (bvar 1)) (bnot (bvar 3)))).
(** Two guarantees about the input: x' and !x.  The environment wins by keeping x
    true for ever (or, if it is false, by making it true and keeping it so). *)
Definition exL : ctx := mkCtx ["x"; "x'"; "y"; "y'"] [PreInput; PostInput; PreOutput; PostOutput]
  [btrue] [bvar 1; bnot (bvar 0)] (bvar 0) btrue (bor (bvar 0) (bvar 1)) btrue.
(** No initial position of the system. *)
Definition exE : ctx := mkCtx ["x"; "x'"; "y"; "y'"] [PreInput; PostInput; PreOutput; PostOutput]
  [btrue] [bfalse] (bnot (bvar 0)) bfalse btrue btrue.
(** No outputs. *)
Definition exN : ctx := mkCtx ["x"; "x'"; "y"; "y'"] [PreInput; PostInput; PreInput; PostInput]
  [btrue] [bfalse] (bnot (bvar 0)) btrue (band (bvar 1) (bnot (bvar 3))) (bor (bvar 0) (bvar 2)).
Local Close Scope string_scope.

Ltac wf_ex kinds := constructor;
  cbn [varTypes livenessAssumptions livenessGuarantees initEnv initSys safetyEnv safetySys exS exD exL exE exN];
  [exists kinds; split; reflexivity|dep_ex|dep_ex|dep_ex|dep_ex|repeat constructor; dep_ex|repeat constructor; dep_ex
  |discriminate|discriminate].
Lemma exS_wf : wf exS. Proof. wf_ex [PreInput; PreOutput]. Qed.
Lemma exD_wf : wf exD. Proof. wf_ex [PreInput; PreOutput]. Qed.
Lemma exL_wf : wf exL. Proof. wf_ex [PreInput; PreOutput]. Qed.
Lemma exE_wf : wf exE. Proof. wf_ex [PreInput; PreOutput]. Qed.
Lemma exN_wf : wf exN. Proof. wf_ex [PreInput; PreInput]. Qed.

Definition outS : list cnode :=
  [mkCNode 0 (0, 0) [false; false] (Some [2]); mkCNode 1 (0, 0) [false; true] (Some [2]);
   mkCNode 2 (0, 0) [true; false] (Some [2])].
Definition outD : list cnode :=
  [mkCNode 0 (0, 0) [false; false] (Some [2]); mkCNode 1 (0, 0) [false; true] (Some [2]);
   mkCNode 2 (0, 0) [true; false] (Some [3]); mkCNode 3 (0, 0) [false] None].
Definition outL : list cnode :=
  [mkCNode 0 (0, 0) [true; false] (Some [2; 3]); mkCNode 1 (0, 0) [true; true] (Some [2; 3]);
   mkCNode 2 (0, 0) [false; false] (Some [0; 1]); mkCNode 3 (0, 0) [false; true] (Some [0; 1])].
Definition outN : list cnode :=
  [mkCNode 0 (0, 0) [false; false] (Some [2]); mkCNode 2 (0, 0) [true; false] None;
   mkCNode 1 (0, 0) [false; true] (Some [2])].

Example exS_out : computeCounterstrategy false exS = Some (Unrealizable, outS).
Proof. vm_compute. reflexivity. Qed.
Example exD_out : computeCounterstrategy false exD = Some (Unrealizable, outD).
Proof. vm_compute. reflexivity. Qed.
Example exL_out : computeCounterstrategy false exL = Some (Unrealizable, outL).
Proof. vm_compute. reflexivity. Qed.
Example exN_out : computeCounterstrategy false exN = Some (Unrealizable, outN).
Proof. vm_compute. reflexivity. Qed.

Definition has_output (c : ctx) : Prop := exists k, k < nvars c /\ g_out (game_of c) k = true.
Example exS_output : has_output exS.
Proof. exists 1. split; [|reflexivity]. vm_compute. auto. Qed.
Example exD_output : has_output exD.
Proof. exists 1. split; [|reflexivity]. vm_compute. auto. Qed.
Example exL_output : has_output exL.
Proof. exists 1. split; [|reflexivity]. vm_compute. auto. Qed.

(** ** C24 *)

(** The computation terminates, with the verdict and a list of states. *)
Theorem C24_terminates : forall robotics c, wf c -> exists v out,
  computeCounterstrategy robotics c = Some (v, out) /\ (v = Realizable \/ v = Unrealizable) /\
  (v = Realizable -> out = []).
Proof.
  intros robotics c Hwf.
  assert (V : checkCounter robotics c = Realizable \/ checkCounter robotics c = Unrealizable).
  { rewrite checkCounter_same. destruct robotics.
    - destruct (check_robotics_cases c Hwf) as [[E _]|[E _]]; auto.
    - destruct (check_cases c Hwf) as [[E _]|[E _]]; auto. }
  unfold checkCounter in V. unfold computeCounterstrategy.
  destruct (counter_spec c Hwf) as (K & data & E & HK & HR). rewrite E in V |- *.
  destruct V as [V|V]; rewrite V; [exists Realizable, []; auto|].
  destruct (initLoopC_spec c Hwf (positionalC c data)) with (f := band (band (bnot (iterZ c K)) (initEnv c)) (initSys c))
    as (W & E1 & HG & _ & _).
  { apply dep_and; [apply dep_and|now apply wf_initSys].
    - apply dep_not. now apply pre_iterZ.
    - apply (preIn_pre c). now apply wf_initEnv. }
  unfold extractC. rewrite E1.
  destruct (mainLoopC_spec c Hwf (positionalC c data)) with (V := W) as (I & out' & E2 & HC); auto.
  { intros i j Hi Hj. now apply (any_strat c Hwf K data HR). }
  rewrite E2. exists Unrealizable, out'. repeat split; auto. discriminate.
Qed.
Print Assumptions C24_terminates.

(** The set computed as winning for the environment is exactly the set of the
    positions in which the system has no winning strategy. *)
Theorem C24_dual : forall c, wf c -> exists w data, computeCounter c = Some (w, data) /\
  (forall s, pos w s = false <-> winning (game_of c) s) /\
  (forall s, pos w s = true <-> forall f, exists x, ~ safe_and_live (game_of c) (play_from (game_of c) f s x)).
Proof.
  intros c Hwf. destruct (compute_spec c Hwf) as (w & d & E & S). pose proof (solved_exact c w d Hwf S) as HX.
  pose proof (counter_dual c) as D. rewrite E in D. destruct (computeCounter c) as [[x d']|]; [|contradiction].
  subst w. exists x, d'. split; auto. pose proof (exact_winning c _ HX) as HW.
  assert (H1 : forall s, pos x s = false <-> winning (game_of c) s).
  { intros s. rewrite <- HW, pos_not, negb_true_iff. tauto. }
  split; auto. intros s. split.
  - intros H f. destruct HX as (_ & _ & HL). apply (HL s). now rewrite pos_not, H.
  - intros H. destruct (pos x s) eqn:Ep; auto. apply H1 in Ep. destruct Ep as (f & Hf). destruct (H f) as (y & Hy).
    now elim Hy.
Qed.
Print Assumptions C24_dual.

(** The verdict is the one that is given without the option. *)
Theorem C24_verdict : forall robotics c, wf c ->
  (exists out, computeCounterstrategy robotics c = Some (Unrealizable, out)) <->
  (if robotics then checkRealizabilityRobotics c else checkRealizability c) = Unrealizable.
Proof.
  intros robotics c Hwf. rewrite <- checkCounter_same.
  destruct (C24_terminates robotics c Hwf) as (v & out & E & _ & _).
  assert (V : checkCounter robotics c = v).
  { unfold checkCounter, computeCounterstrategy in *. destruct (computeCounter c) as [[w d]|]; [|discriminate].
    destruct (verdictOfC (counterCheck robotics c w)); try congruence. destruct (extractC c w d); congruence. }
  rewrite V. split.
  - intros (o & Eo). congruence.
  - intros ->. eauto.
Qed.
Print Assumptions C24_verdict.

(** So "unrealizable" is given exactly for the specifications that no strategy
    satisfies. *)
Theorem C24_unrealizable : forall c, wf c ->
  ((exists out, computeCounterstrategy false c = Some (Unrealizable, out)) <-> ~ realizable (game_of c)) /\
  ((exists out, computeCounterstrategy true c = Some (Unrealizable, out)) <-> ~ realizable_robotics (game_of c)).
Proof.
  intros c Hwf. rewrite !C24_verdict by auto. split.
  - destruct (check_cases c Hwf) as [[E R]|[E R]]; rewrite E; split; try discriminate; auto.
    + intros H. now elim H.
    + intros _ (f & Hf). destruct (R f) as (x & Hx). elim Hx. apply Hf.
  - destruct (check_robotics_cases c Hwf) as [[E R]|[E (s & H1 & H2 & R)]]; rewrite E; split; try discriminate; auto.
    + intros H. now elim H.
    + intros _ (f & Hf). destruct (R f) as (x & Hx). elim Hx. now apply Hf.
Qed.
Print Assumptions C24_unrealizable.

Example C24_example : wf exS /\ wf exR /\
  (exists out, computeCounterstrategy false exS = Some (Unrealizable, out)) /\
  computeCounterstrategy false exR = Some (Realizable, []).
Proof.
  split; [exact exS_wf|]. split; [exact exR_wf|]. split; [exists outS|]; vm_compute; reflexivity.
Qed.

(** ** C25 *)

(** The states are numbered 0, 1, 2, ... without gaps and duplicates, successor
    numbers are numbers of printed states, and the values of all declared variables
    are printed for the states with successors. *)
Theorem C25_numbering : forall robotics c out, wf c -> computeCounterstrategy robotics c = Some (Unrealizable, out) ->
  Permutation (map c_num out) (seq 0 (length out)) /\
  (forall v l m, In v out -> c_succ v = Some l -> In m l -> exists u, In u out /\ c_num u = m) /\
  (forall v l, In v out -> c_succ v = Some l -> length (c_vals v) = nvars c).
Proof.
  intros robotics c out Hwf H. destruct (counter_out c Hwf robotics out H) as (K & data & V & I & HK & HR & _ & HC & HV & _).
  split; [|split].
  - apply (numbers c data V I out HC).
  - intros v l m. now apply (succ_printed c data V I out HC).
  - intros v l Hin E. apply (node_shape c data V I out HC v Hin). congruence.
Qed.
Print Assumptions C25_numbering.

(** Every state has a successor, except for those that stand for a deadlock: such a
    state is the only successor of a state in which the environment has an input,
    permitted by ENV_TRANS, that leaves no output permitted by SYS_TRANS, and it
    shows that input. *)
Theorem C25_moves : forall robotics c out, wf c -> computeCounterstrategy robotics c = Some (Unrealizable, out) ->
  forall v, In v out ->
  match c_succ v with
  | Some l => l <> []
  | None => exists u x, In u out /\ c_succ u = Some [c_num v] /\
      deadlock (game_of c) (cval u) x /\ c_vals v = inputs_of (game_of c) (nvars c) x
  end.
Proof.
  intros robotics c out Hwf H v Hin. destruct (counter_out c Hwf robotics out H) as (K & data & V & I & HK & HR & _ & HC & HV & _).
  destruct (c_succ v) as [l|] eqn:E.
  - apply (moves c Hwf K data HK HR V I out HC HV v l Hin E).
  - destruct (terminal c Hwf data V I out HC v Hin E) as (u & x & H1 & _ & H2 & H3 & H4). eauto 6.
Qed.
Print Assumptions C25_moves.

Example C25_moves_example : wf exD /\ computeCounterstrategy false exD = Some (Unrealizable, outD) /\
  (exists v, In v outD /\ c_succ v = None) /\ (exists v, In v outD /\ c_succ v = Some [3]).
Proof.
  split; [exact exD_wf|]. split; [vm_compute; reflexivity|]. split.
  - exists (mkCNode 3 (0, 0) [false] None). cbn. auto 6.
  - exists (mkCNode 2 (0, 0) [true; false] (Some [3])). cbn. auto 6.
Qed.

(** The successors of a state: either the environment has an input that leads to a
    deadlock, and the only successor shows such an input; or it does not, and
    there is one input permitted by ENV_TRANS such that the successors are exactly
    the positions that consist of this input and an output permitted by
    SYS_TRANS. *)
Theorem C25_successors : forall robotics c out, wf c -> has_output c ->
  computeCounterstrategy robotics c = Some (Unrealizable, out) ->
  forall v l, In v out -> c_succ v = Some l ->
  (exists x u, deadlock (game_of c) (cval v) x /\ In u out /\ l = [c_num u] /\ c_succ u = None /\
     c_vals u = inputs_of (game_of c) (nvars c) x) \/
  ((forall x, ~ deadlock (game_of c) (cval v) x) /\
   exists x, g_safeE (game_of c) (cval v) x = true /\
     (forall u, In u out -> In (c_num u) l -> c_succ u <> None /\
        same_in (game_of c) (nvars c) (cval u) x /\ g_safeS (game_of c) (cval v) (cval u) = true) /\
     (forall y, g_safeS (game_of c) (cval v) (merge (game_of c) x y) = true ->
        exists u, In u out /\ In (c_num u) l /\ same (nvars c) (cval u) (merge (game_of c) x y))).
Proof.
  intros robotics c out Hwf Ho H v l Hin E. destruct (counter_out c Hwf robotics out H) as (K & data & V & I & HK & HR & _ & HC & HV & _).
  destruct (edges c Hwf K data HK HR V I out HC HV Ho v l Hin E) as [(x & u & H1 & H2 & H3 & H4 & _ & H5)|(H1 & x & H2 & H3 & H4)].
  - left. exists x, u. auto.
  - right. split; auto. exists x. split; auto. split; auto. intros u Hu Hn. destruct (H3 u Hu Hn) as (G1 & _ & G2 & G3). auto.
Qed.
Print Assumptions C25_successors.

Example C25_successors_example : wf exS /\ has_output exS /\
  computeCounterstrategy false exS = Some (Unrealizable, outS) /\
  exists v, In v outS /\ c_succ v = Some [2].
Proof.
  split; [exact exS_wf|]. split; [exact exS_output|]. split; [vm_compute; reflexivity|].
  exists (mkCNode 0 (0, 0) [false; false] (Some [2])). cbn. auto.
Qed.

(** In all positions that are printed with successors the system loses against
    every strategy (the positions are not only reachable but in the computed set). *)
Theorem C25_losing : forall robotics c out, wf c -> computeCounterstrategy robotics c = Some (Unrealizable, out) ->
  forall v, In v out -> c_succ v <> None ->
  forall f, exists x, ~ safe_and_live (game_of c) (play_from (game_of c) f (cval v) x).
Proof.
  intros robotics c out Hwf H v Hin E. destruct (counter_out c Hwf robotics out H) as (K & data & V & I & HK & HR & EC & HC & HV & _).
  destruct (C24_dual c Hwf) as (w & d & EC' & _ & HL). rewrite EC in EC'. injection EC' as <- <-.
  apply HL. rewrite pos_not. destruct (c_succ v) as [l|] eqn:Es; [|now elim E].
  destruct (node_full c data V I out HC v l Hin Es) as [En _].
  destruct (full_at c Hwf K data HK HR V I out HC HV _ _ _ En) as [_ HW].
  change (cval v) with (ofVec (c_vals v)). now rewrite HW.
Qed.
Print Assumptions C25_losing.

(** All states are reachable from initial positions, that is from positions that
    are permitted by ENV_INIT and SYS_INIT. *)
Theorem C25_reachable : forall robotics c out, wf c -> computeCounterstrategy robotics c = Some (Unrealizable, out) ->
  forall v, In v out -> creach out (fun v => c_succ v <> None /\
    g_initE (game_of c) (cval v) = true /\ g_initS (game_of c) (cval v) = true) v.
Proof.
  intros robotics c out Hwf H. destruct (counter_out c Hwf robotics out H) as (K & data & V & I & HK & HR & _ & HC & HV & HI & _).
  assert (R : forall n v l, In v out -> c_succ v = Some l -> c_num v = n -> creach out (fun v => c_succ v <> None /\
    g_initE (game_of c) (cval v) = true /\ g_initS (game_of c) (cval v) = true) v).
  { induction n as [n IH] using lt_wf_ind. intros v l Hin E En.
    destruct (node_full c data V I out HC v l Hin E) as [Ev _].
    destruct (Nat.lt_ge_cases (c_num v) (length V)) as [L|L].
    - apply creach_init; auto. split; [congruence|].
      destruct (cr_init _ _ _ _ _ _ HC) as (Y & EI). rewrite EI, nth_error_app1, nth_error_map in Ev by now rewrite map_length.
      destruct (nth_error V (c_num v)) as [k|] eqn:Ek; [|discriminate]. injection Ev as ->.
      apply nth_error_In in Ek. rewrite Forall_forall in HI. apply (HI _ Ek).
    - destruct (cr_from _ _ _ _ _ _ HC _ _ L Ev) as (u & l' & Hu & Lu & Es & Hn & _).
      apply creach_step with (v := u); [apply (IH (c_num u)) with (l := l'); auto; lia|]. repeat split; eauto. }
  intros v Hin. destruct (c_succ v) as [l|] eqn:E; [eauto|].
  destruct (terminal c Hwf data V I out HC v Hin E) as (u & x & H1 & _ & H2 & _).
  apply creach_step with (v := u); [eauto|]. repeat split; eauto. exists [c_num v]. split; auto. now left.
Qed.
Print Assumptions C25_reachable.

(** All losing initial positions are printed. *)
Theorem C25_initial : forall robotics c out, wf c -> computeCounterstrategy robotics c = Some (Unrealizable, out) ->
  forall s, g_initE (game_of c) s = true -> g_initS (game_of c) s = true -> ~ winning (game_of c) s ->
  exists v, In v out /\ c_succ v <> None /\ same (nvars c) (cval v) s.
Proof.
  intros robotics c out Hwf H s He Hs Hw. destruct (counter_out c Hwf robotics out H) as (K & data & V & I & HK & HR & EC & HC & HV & HI & HA & _).
  assert (HW : pos (iterZ c K) s = false).
  { destruct (pos (iterZ c K) s) eqn:E; auto. elim Hw. destruct (C24_dual c Hwf) as (w & d & EC' & HX & _).
    rewrite EC in EC'. injection EC' as <- <-. apply HX. now rewrite pos_not, E. }
  destruct (HA s HW He Hs) as (r & Hr). apply In_nth_error in Hr. destruct Hr as (n & Hn).
  assert (En : nth_error I n = Some (false, (toVec (nvars c) s, r))).
  { destruct (cr_init _ _ _ _ _ _ HC) as (Y & ->). rewrite nth_error_app1, nth_error_map, Hn; auto.
    rewrite map_length. apply nth_error_Some. congruence. }
  destruct (node_of c data V I out HC n _ En) as (v & Hin & Ev). exists v. split; auto.
  destruct (node_item c data V I out HC v Hin) as (d & v' & r' & En' & _ & Hd). rewrite Ev, En in En'. injection En' as <- <- <-.
  destruct Hd as (E1 & succs & E2 & _). split; [congruence|]. unfold cval. rewrite E1.
  intros k Hk. now apply (ofVec_toVec (nvars c)).
Qed.
Print Assumptions C25_initial.

(** The environment can start: with --sysInitRoboticsSemantics there is a losing
    initial position; without it there is an initial input such that all permitted
    initial positions with this input are losing.  They are all printed. *)
Theorem C25_start : forall c out, wf c ->
  (computeCounterstrategy true c = Some (Unrealizable, out) -> exists v, In v out /\ c_succ v <> None /\
     g_initE (game_of c) (cval v) = true /\ g_initS (game_of c) (cval v) = true) /\
  (computeCounterstrategy false c = Some (Unrealizable, out) -> exists x, forall y,
     let s := merge (game_of c) x y in
     g_initE (game_of c) s = true /\
     (g_initS (game_of c) s = true -> exists v, In v out /\ c_succ v <> None /\ same (nvars c) (cval v) s)).
Proof.
  intros c out Hwf. split; intros H.
  - destruct (counter_out c Hwf true out H) as (K & data & V & I & HK & HR & EC & HC & HV & HI & HA & HX).
    assert (V' : checkRealizabilityRobotics c = Unrealizable) by (apply (C24_verdict true c Hwf); eauto).
    destruct (check_robotics_cases c Hwf) as [[E _]|[_ (s & H1 & H2 & H3)]]; [congruence|].
    destruct (C25_initial true c out Hwf H s) as (v & Hin & Hs & Sv); auto.
    { intros (f & Hf). destruct (H3 f) as (x & Hx). now elim Hx. }
    exists v. split; auto. split; auto. cbn in *.
    split.
    + rewrite <- H1. apply (pos_ext c (wf_kinds c Hwf)); auto. apply (preIn_pre c). now apply wf_initEnv.
    + rewrite <- H2. apply (pos_ext c (wf_kinds c Hwf)); auto. now apply wf_initSys.
  - destruct (counter_out c Hwf false out H) as (K & data & V & I & HK & HR & EC & HC & HV & HI & HA & HX).
    assert (Pq : dep (isPreV c) (band (iterZ c K) (initSys c))) by (apply dep_and; [now apply pre_iterZ|now apply wf_initSys]).
    destruct (const_cases c Hwf (initialCheck c (iterZ c K)) _
      (dep_imp _ _ _ (wf_initEnv c Hwf) (dep_exPreOut c Hwf _ Pq)) eq_refl) as [[E _]|[_ (x & Hx)]]; [congruence|].
    rewrite pos_imp in Hx. destruct (pos (initEnv c) x) eqn:Ei; [|discriminate]. cbn [implb] in Hx.
    exists x. intros y s.
    assert (Es : pos (initEnv c) s = true).
    { rewrite <- Ei. change s with (mrg c x y).
      rewrite (preIn_merge c (initEnv c) x y x) by now apply wf_initEnv.
      unfold pos. apply eval_ext. intros z. unfold tv, mrg. destruct (Nat.even z); now destruct (isOut c _). }
    split; [exact Es|]. intros Hs. apply (C25_initial false c out Hwf H s); auto.
    intros Hw. destruct (C24_dual c Hwf) as (w & d & EC' & HX' & _).
    rewrite EC in EC'. injection EC' as <- <-. apply HX' in Hw. rewrite pos_not, negb_false_iff in Hw.
    assert (pos (bexists (varCubePreOutput c) (band (iterZ c K) (initSys c))) x = true); [|congruence].
    apply (exPreOut_pos c (wf_kinds c Hwf)); auto. exists y. rewrite pos_and. change (mrg c x y) with s. cbn in Hs. now rewrite Hw, Hs.
Qed.
Print Assumptions C25_start.

Example C25_start_example : wf exS /\ computeCounterstrategy true exS = Some (Unrealizable, outS) /\
  computeCounterstrategy false exS = Some (Unrealizable, outS).
Proof. split; [exact exS_wf|]. split; vm_compute; reflexivity. Qed.

(** A finding: the list of printed states can be empty although the specification is
    unrealizable, namely if SYS_INIT cannot be satisfied. *)
Theorem C25_empty_refuted : exists c, wf c /\ has_output c /\
  computeCounterstrategy false c = Some (Unrealizable, []).
Proof.
  exists exE. split; [exact exE_wf|]. split; [|vm_compute; reflexivity].
  exists 1. split; [|reflexivity]. vm_compute. auto.
Qed.
Print Assumptions C25_empty_refuted.

(** Along every infinite path through the states the safety assumptions and the
    safety guarantees are satisfied, and if some guarantee is violated from
    some point on, all liveness assumptions are satisfied infinitely often.  What
    is missing for the second part of C25 is that some guarantee is violated from
    some point on; this is not so, see [C25_liveness_refuted]. *)
Theorem C25_liveness_partial : forall robotics c out, wf c -> has_output c ->
  computeCounterstrategy robotics c = Some (Unrealizable, out) ->
  forall p, cpath out p ->
  (forall n, g_safeE (game_of c) (cpositions p n) (cpositions p (S n)) = true /\
             g_safeS (game_of c) (cpositions p n) (cpositions p (S n)) = true) /\
  (forall q n, In q (g_liveG (game_of c)) ->
     (forall m, n <= m -> q (cpositions p m) (cpositions p (S m)) = false) ->
     forall a, In a (g_liveA (game_of c)) -> inf_often a (cpositions p)).
Proof.
  intros robotics c out Hwf Ho H p HP. destruct (counter_out c Hwf robotics out H) as (K & data & V & I & HK & HR & _ & HC & HV & _).
  pose proof (path_facts c Hwf K data HK HR V I out HC HV Ho p HP) as F.
  split.
  - intros n. split; [|apply F].
    apply (path_safeE c Hwf K data HR (fun n => c_vals (p n)) (fun n => c_rank (p n))); intros m; apply F.
  - intros q n Hq HN a Ha. cbn in Hq, Ha. apply in_map_iff in Hq. destruct Hq as (fq & <- & Hq).
    apply in_map_iff in Ha. destruct Ha as (fa & <- & Ha).
    apply (In_nth _ _ bfalse) in Hq. destruct Hq as (j0 & Hj & <-). apply (In_nth _ _ bfalse) in Ha. destruct Ha as (i0 & Hi & <-).
    intros k. apply (path_never c Hwf K data HR (fun n => c_vals (p n)) (fun n => c_rank (p n))) with (n0 := n) (j0 := j0); auto; intros m; apply F.
Qed.
Print Assumptions C25_liveness_partial.

(** With a single liveness guarantee every infinite path is losing for the
    system, and there is a bound for the number of times the guarantee is
    satisfied along the path. *)
Theorem C25_single_guarantee : forall robotics c out, wf c -> has_output c ->
  length (g_liveG (game_of c)) = 1 ->
  computeCounterstrategy robotics c = Some (Unrealizable, out) ->
  forall p, cpath out p -> lost (game_of c) (cpositions p).
Proof.
  intros robotics c out Hwf Ho H1 H p HP. destruct (counter_out c Hwf robotics out H) as (K & data & V & I & HK & HR & _ & HC & HV & _).
  pose proof (path_facts c Hwf K data HK HR V I out HC HV Ho p HP) as F. cbn in H1. rewrite map_length in H1.
  split; [|split].
  - apply (C25_liveness_partial robotics c out Hwf Ho H p HP).
  - intros a Ha. cbn in Ha. apply in_map_iff in Ha. destruct Ha as (fa & <- & Ha).
    apply (In_nth _ _ bfalse) in Ha. destruct Ha as (i0 & Hi & <-).
    intros k. apply (path_single c Hwf K data HR (fun n => c_vals (p n)) (fun n => c_rank (p n))); auto; intros m; apply F.
  - destruct (path_count c Hwf K data HR (fun n => c_vals (p n)) (fun n => c_rank (p n))) as (B & HB); auto; try (intros m; apply F).
    exists (trans (nth 0 (livenessGuarantees c) bfalse)), B. split; [|exact HB].
    cbn. apply in_map. apply nth_In. lia.
Qed.
Print Assumptions C25_single_guarantee.

(** [lost] contradicts the obligation of the system. *)
Theorem C25_lost : forall g pi, lost g pi -> ~ safe_and_live g pi.
Proof.
  intros g pi (HE & HA & q & B & Hq & HB) [_ HL]. specialize (HL HE HA q Hq).
  assert (G : forall k, exists n, k <= length (filter (fun m => q (pi m) (pi (S m))) (seq 0 n))).
  { induction k as [|k (n & IH)]; [exists 0; lia|]. destruct (HL n) as (m & Hm & E). exists (S m).
    rewrite seq_S, filter_app, app_length. cbn [filter plus]. rewrite E. cbn [length].
    replace m with (n + (m - n)) by lia. rewrite seq_app, filter_app, app_length. lia. }
  destruct (G (S B)) as (n & Hn). specialize (HB n). lia.
Qed.
Print Assumptions C25_lost.

Example C25_single_example : wf exS /\ has_output exS /\ length (g_liveG (game_of exS)) = 1 /\
  computeCounterstrategy false exS = Some (Unrealizable, outS) /\
  cpath outS (fun n => match n with O => mkCNode 0 (0, 0) [false; false] (Some [2])
                                | _ => mkCNode 2 (0, 0) [true; false] (Some [2]) end).
Proof.
  split; [exact exS_wf|]. split; [exact exS_output|]. split; [reflexivity|]. split; [vm_compute; reflexivity|].
  intros [|n]; (split; [cbn; auto|]); (split; [cbn; auto|]); exists [2]; cbn; auto.
Qed.

(** A finding: the paths need not be losing if there are several guarantees.  In
    this counterstrategy, every infinite path satisfies the specification. *)
Theorem C25_liveness_refuted : exists c out, wf c /\ has_output c /\
  computeCounterstrategy false c = Some (Unrealizable, out) /\
  (exists p, cpath out p /\ g_initE (game_of c) (cpositions p 0) = true /\ g_initS (game_of c) (cpositions p 0) = true) /\
  forall p, cpath out p -> safe_and_live (game_of c) (cpositions p) /\
    forall q, In q (g_liveG (game_of c)) -> inf_often q (cpositions p).
Proof.
  exists exL, outL. split; [exact exL_wf|]. split; [exact exL_output|]. split; [exact exL_out|]. split.
  - exists (fun n => if Nat.even n then mkCNode 0 (0, 0) [true; false] (Some [2; 3])
                     else mkCNode 2 (0, 0) [false; false] (Some [0; 1])).
    split; [|split; reflexivity].
    intros n. rewrite Nat.even_succ, <- Nat.negb_even. destruct (Nat.even n); cbn [negb];
      (split; [cbn; auto|]); (split; [cbn; auto|]); [exists [2; 3]|exists [0; 1]]; cbn; auto.
  - intros p HP.
    assert (F : forall n, cpositions p (S n) 0 = negb (cpositions p n 0)).
    { intros n. unfold cpositions. destruct (HP n) as (H1 & H2 & l & Es & Hn). cbn in H1, H2.
      repeat (destruct H1 as [H1|H1]); try contradiction; rewrite <- H1 in *; injection Es as <-; cbn in Hn;
      repeat (destruct H2 as [H2|H2]); try contradiction; rewrite <- H2 in *; cbn in *; auto; intuition discriminate. }
    assert (G : forall q, In q (g_liveG (game_of exL)) -> inf_often q (cpositions p)).
    { intros q Hq n. cbn in Hq. destruct (cpositions p n 0) eqn:E; pose proof (F n) as F1; pose proof (F (S n)) as F2; rewrite E in F1;
      cbn [negb] in F1; rewrite F1 in F2; cbn [negb] in F2; destruct Hq as [<-|[<-|[]]].
      - exists (S n). split; [lia|]. unfold trans. rewrite eval_var. change 1 with (2 * 0 + 1). now rewrite tv_odd.
      - exists (S n). split; [lia|]. unfold trans. rewrite eval_not, eval_var. change 0 with (2 * 0). rewrite tv_even. now rewrite F1.
      - exists n. split; [lia|]. unfold trans. rewrite eval_var. change 1 with (2 * 0 + 1). now rewrite tv_odd.
      - exists n. split; [lia|]. unfold trans. rewrite eval_not, eval_var. change 0 with (2 * 0). rewrite tv_even. now rewrite E. }
    split; auto. split; auto.
Qed.
Print Assumptions C25_liveness_refuted.

(** A finding: without outputs, a state in which the system is not stuck can be
    printed as a state without successors: here the transition from state 1 to
    state 2 is permitted by ENV_TRANS and SYS_TRANS, and state 2 is printed with
    all its values and without successors, although it is not a deadlock of state 1. *)
Theorem C25_no_output_refuted : exists c out v u, wf c /\
  computeCounterstrategy false c = Some (Unrealizable, out) /\ cedge out v u /\ c_succ u = None /\
  g_safeE (game_of c) (cval v) (cval u) = true /\ g_safeS (game_of c) (cval v) (cval u) = true /\
  (forall x, ~ deadlock (game_of c) (cval v) x) /\ (forall x, ~ deadlock (game_of c) (cval u) x) /\
  c_vals u = inputs_of (game_of c) (nvars c) (cval u) /\ length (c_vals u) = nvars c.
Proof.
  exists exN, outN, (mkCNode 1 (0, 0) [false; true] (Some [2])), (mkCNode 2 (0, 0) [true; false] None).
  split; [exact exN_wf|]. split; [exact exN_out|]. split.
  { split; [cbn; auto|]. split; [cbn; auto|]. exists [2]. cbn. auto. }
  split; [reflexivity|]. split; [reflexivity|]. split; [reflexivity|].
  assert (D : forall v, cval v 0 = true \/ cval v 1 = true -> forall x, ~ deadlock (game_of exN) (cval v) x).
  { intros v Hv x [_ H]. specialize (H x). cbn in H. unfold trans in H. rewrite eval_or, !eval_var in H.
    change 2 with (2 * 1) in H. change 0 with (2 * 0) in H at 1. rewrite !tv_even in H.
    destruct Hv as [Hv|Hv]; rewrite Hv in H; cbn in H; rewrite ?orb_true_r in H; discriminate. }
  split; [apply D; right; reflexivity|]. split; [apply D; left; reflexivity|]. split; reflexivity.
Qed.
Print Assumptions C25_no_output_refuted.
