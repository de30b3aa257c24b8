(** * Properties of --computeInterestingRunOfTheSystem: C33 and C50 *)

From Coq Require Import String Arith List Bool Lia.
From Verif Require Import BDD Loop Spec VarTypes Synth Sem FixBase GameSound SynthProofs Verdict Solvers SolversProofs
  AutSpec Explicit DetProofs ExplicitProofs ExplicitGame ShellSpec Shell ShellProofs PropsSynth PropsMove PropsTransition
  InterestingRun InterestingSpec InterestingProofs.
Import ListNotations.
Local Open Scope list_scope.
Local Arguments isOut : simpl never.

(** An initial position that is winning for the system. *)
Definition startPosition (c : ctx) (s : state) : Prop :=
  g_initE (game_of c) s = true /\ g_initS (game_of c) s = true /\ winning (game_of c) s.

Lemma positional_winning c w data L : wf c -> exactW c w -> dep (isPreV c) w ->
  (forall j, j < length (livenessGuarantees c) -> dataOf j data = map fst (L j) /\
     goodEnt c w (nth j (livenessGuarantees c) btrue) (L j) w) ->
  winningStrategies c (fun j => trans (positional c data j)).
Proof.
  intros Hwf HX Hw HL. pose proof (wf_kinds c Hwf) as Hk. unfold winningStrategies.
  assert (EM : length (g_liveG (game_of c)) = length (livenessGuarantees c)) by (cbn; apply map_length). rewrite EM.
  split; [|split].
  - intros j s s' Hj HT. destruct (stratT_good c Hwf true w data L HL j s s' Hj HT) as [H1 H2]. split; auto. now apply (exact_winning c w HX).
  - intros j s x Hj Hs Hx. apply (exact_winning c w HX) in Hs.
    destruct (stratT_covers c Hwf true w data L HL j s x Hj Hs Hx) as (y & Hy). exists (mrg c x y). split; [|exact Hy].
    intros k _ Ho. cbn in Ho. unfold mrg. now rewrite Ho.
  - intros goal s Hg Hs HT Hstay HA n. apply (exact_winning c w HX) in Hs.
    assert (EQ : forall k, nth (goal k) (g_liveG (game_of c)) (fun _ _ => false) = trans (nth (goal k) (livenessGuarantees c) btrue)).
    { intros k. cbn [g_liveG game_of]. rewrite nth_trans by auto. f_equal. now apply nth_indep. }
    rewrite EQ.
    apply (reach_goal (game_of c) (fun s => pos w s = true) (length (livenessGuarantees c)) (fun j => trans (nth j (livenessGuarantees c) btrue)) (fun j => lift (L j))); auto.
    + intros i Hi. apply goodEnt_ranked. now apply HL.
    + intros k. destruct (HT k). now apply (stratT_follow c Hwf true w data L HL).
    + intros k Hf. apply Hstay. now rewrite EQ.
Qed.

(** The table is one of a winning strategy from an initial position on; it has 101 rows, or it
    ends before in a position in which the environment has no permitted move or the system
    has no permitted answer to some input (not only to permitted ones). *)
Theorem C50_run_partial : forall rand c, wf c ->
  (interestingRun rand c = Some NoPosition /\ ~ exists s, startPosition c s) \/
  exists T s rows, winningStrategies c T /\ startPosition c s /\ interestingRun rand c = Some (Rows rows) /\
    printed c T 100 s 0 0 rows.
Proof.
  intros rand c Hwf. destruct (interestingRun_spec rand c Hwf) as (w & data & L & HX & Hw & HL & [[E H]|(l & rows & Hl & P1 & P2 & P3 & E & HP)]).
  - left. split; auto. intros (s & H1 & H2 & H3). apply (exact_winning c w HX) in H3. rewrite H in H3; auto. discriminate.
  - right. exists (fun j => trans (positional c data j)), (ofVec l), rows. split; [now apply (positional_winning c w data L)|].
    split; [|auto]. split; auto. split; auto. now apply (exact_winning c w HX).
Qed.
Print Assumptions C50_run_partial.

(** Reading the table from the top: rows with positions, the next one being a permitted
    transition, until the last row. *)
Inductive validTable (c : ctx) : state -> list row -> Prop :=
| valid_last s r : r_content r = Values (valuesOf c s) -> winning (game_of c) s -> validTable c s [r]
| valid_lost s r r' : r_content r = Values (valuesOf c s) -> winning (game_of c) s -> (forall l, r_content r' <> Values l) -> validTable c s [r; r']
| valid_step s t r rows : r_content r = Values (valuesOf c s) -> winning (game_of c) s ->
    g_safeE (game_of c) s t = true -> g_safeS (game_of c) s t = true -> validTable c t rows -> validTable c s (r :: rows).

Lemma printed_valid c T n s g a rows : winningStrategies c T -> winning (game_of c) s -> g < length (g_liveG (game_of c)) ->
  printed c T n s g a rows -> validTable c s rows.
Proof.
  intros (HT & _) Hs Hg HP. revert Hs Hg. induction HP as [s g a r H|n s t v g g' a a' sat esat viol r rows G H R1 R2 R3 E1 E2 E3 E4 S1 S2 S3 EG EA HP IH|
    n s g a sat esat viol r r' G H R1 R2 R3 S1 S2 Q1 Q2 Q3 C1 C2 C3]; intros Hs Hg.
  - apply valid_last; auto. apply H.
  - destruct (HT g s t Hg E2) as [T1 T2]. apply (valid_step c s t); auto; [apply H|]. apply IH; auto. subst g'. destruct sat; auto.
    apply Nat.mod_upper_bound. fold G in Hg |- *. lia.
  - apply valid_lost; auto; [apply H|]. intros l E.
    assert (X : ~ (exists t, g_safeE G s t = true)) by (intros X; apply C2 in X; congruence). apply C1 in X. congruence.
Qed.

Theorem C50_play : forall rand c rows, wf c -> interestingRun rand c = Some (Rows rows) ->
  exists s, startPosition c s /\ validTable c s rows.
Proof.
  intros rand c rows Hwf E. destruct (C50_run_partial rand c Hwf) as [[E' _]|(T & s & rows' & HT & Hs & E' & HP)]; [congruence|].
  rewrite E in E'. injection E' as <-. exists s. split; auto. eapply printed_valid; eauto; [apply Hs|].
  cbn. rewrite map_length. pose proof (wf_gua_ne c Hwf). destruct (livenessGuarantees c); [easy|cbn; lia].
Qed.
Print Assumptions C50_play.

(** All 101 rows are printed if nobody can be blocked. *)
Theorem C50_complete : forall rand c, wf c -> (exists s, startPosition c s) ->
  (forall s, exists t, g_safeE (game_of c) s t = true) ->
  (forall s x, exists y, g_safeS (game_of c) s (merge (game_of c) x y) = true) ->
  exists rows, interestingRun rand c = Some (Rows rows) /\ length rows = 101 /\
    forall r, In r rows -> exists s, r_content r = Values (valuesOf c s).
Proof.
  intros rand c Hwf HS HE HY. destruct (C50_run_partial rand c Hwf) as [[_ N]|(T & s & rows & HT & Hs & E & HP)]; [contradiction|].
  exists rows. split; auto.
  enough (X : forall n s g a rows, printed c T n s g a rows -> length rows = S n /\ forall r, In r rows -> exists s, r_content r = Values (valuesOf c s)) by eauto.
  clear - HE HY. intros n s g a rows HP. induction HP as [s g a r H|n s t v g g' a a' sat esat viol r rows G H R1 R2 R3 E1 E2 E3 E4 S1 S2 S3 EG EA HP [IH1 IH2]|
    n s g a sat esat viol r r' G H R1 R2 R3 S1 S2 Q1 Q2 Q3 C1 C2 C3].
  - split; auto. intros r' [<-|[]]. exists s. apply H.
  - split; [cbn; lia|]. intros r' [<-|Hr]; [exists s; apply H|auto].
  - exfalso. apply C3; auto.
Qed.
Print Assumptions C50_complete.

(** ** C33 *)

(** Whenever a table is printed, the last row is computed from values outside of the vectors. *)
Theorem C33_bounds_refuted : forall rand c, wf c -> (exists s, startPosition c s) ->
  exists rows r, interestingRun rand c = Some (Rows (rows ++ [r])) /\ r_envSat r = None /\ r_envViolation r = None.
Proof.
  intros rand c Hwf HS. destruct (C50_run_partial rand c Hwf) as [[_ N]|(T & s & rows & HT & Hs & E & HP)]; [contradiction|].
  assert (G : exists l r, rows = l ++ [r] /\ r_envSat r = None /\ r_envViolation r = None).
  { clear - HP. induction HP as [s g a r H|n s t v g g' a a' sat esat viol r rows G H R1 R2 R3 E1 E2 E3 E4 S1 S2 S3 EG EA HP (l & q & -> & IH)|
      n s g a sat esat viol r r' G H R1 R2 R3 S1 S2 Q1 Q2 Q3 C1 C2 C3].
    - exists [], r. auto.
    - exists (r :: l), q. auto.
    - exists [r], r'. auto. }
  destruct G as (l & r & -> & G1 & G2). exists l, r. auto.
Qed.
Print Assumptions C33_bounds_refuted.

(** All other values are defined.  A mark is for some permitted transition from the position,
    hence correct if there is only one. *)
Theorem C33_marks_partial : forall rand c pre r r' rest s t, wf c ->
  interestingRun rand c = Some (Rows (pre ++ r :: r' :: rest)) ->
  r_content r = Values (valuesOf c s) -> r_content r' = Values (valuesOf c t) ->
  exists g a sat esat viol v, r_sys r = Some g /\ r_env r = Some a /\
    r_sysSat r = Some sat /\ r_envSat r = Some esat /\ r_envViolation r = Some viol /\
    g_safeE (game_of c) s v = true /\ g_safeS (game_of c) s v = true /\
    (sat = true -> nth g (g_liveG (game_of c)) (fun _ _ => false) s v = true) /\
    (esat = true -> nth a (g_liveA (game_of c)) (fun _ _ => false) s v = true) /\
    ((forall u, g_safeE (game_of c) s u = true -> g_safeS (game_of c) s u = true -> same (nvars c) u t) ->
     (sat = true -> nth g (g_liveG (game_of c)) (fun _ _ => false) s t = true) /\
     (esat = true -> nth a (g_liveA (game_of c)) (fun _ _ => false) s t = true)).
Proof.
  intros rand c pr r r' rest s t Hwf E Cr Cr'. pose proof (wf_kinds c Hwf) as Hk.
  destruct (C50_run_partial rand c Hwf) as [[E' _]|(T & s0 & rows & HT & Hs & E' & HP)]; [congruence|].
  rewrite E in E'. injection E' as <-. assert (Hg : 0 < length (g_liveG (game_of c))).
  { cbn. rewrite map_length. pose proof (wf_gua_ne c Hwf). destruct (livenessGuarantees c); [easy|cbn; lia]. }
  assert (Ha : 0 < length (g_liveA (game_of c))).
  { cbn. rewrite map_length. pose proof (wf_asm_ne c Hwf). destruct (livenessAssumptions c); [easy|cbn; lia]. }
  destruct HT as (HT & _). revert HP Hg Ha.
  match goal with |- _ -> _ -> _ -> ?P => enough (X : forall n s1 g a, printed c T n s1 g a (pr ++ r :: r' :: rest) ->
    g < length (g_liveG (game_of c)) -> a < length (g_liveA (game_of c)) -> P) by eauto end.
  intros n s1 g a HP.
  remember (pr ++ r :: r' :: rest) as rows eqn:ER. revert pr ER. clear E Hs.
  induction HP as [s1 g a q H|n s1 t1 v g g' a a' sat esat viol q rows G H R1 R2 R3 E1 E2 E3 E4 S1 S2 S3 EG EA HP IH|
    n s1 g a sat esat viol q q' G H R1 R2 R3 S1 S2 Q1 Q2 Q3 C1 C2 C3]; intros pr ER Hg Ha.
  - destruct pr as [|? [|? ?]]; discriminate.
  - destruct pr as [|p0 pr].
    + injection ER as -> ->. destruct H as (H1 & H2 & H3). rewrite Cr in H1. injection H1 as H1. apply (valuesOf_same c) in H1.
      assert (SS : forall u u', same (nvars c) u' u -> g_safeE G s u' = g_safeE G s1 u /\ g_safeS G s u' = g_safeS G s1 u).
      { intros u u' Hu. cbn.
        assert (D1 : dep (isAnyV c) (safetyEnv c)) by (apply isPrePostIn_isAny; now apply wf_safetyEnv).
        assert (D2 : dep (isAnyV c) (safetySys c)) by now apply wf_safetySys.
        split; apply (trans_ext c Hk); auto. }
      assert (GA : forall qs i u u', Forall (dep (isAnyV c)) qs -> same (nvars c) u' u ->
        nth i (map trans qs) (fun _ _ => false) s u' = nth i (map trans qs) (fun _ _ => false) s1 u).
      { intros qs i u u' HF Hu. destruct (Nat.lt_ge_cases i (length qs)) as [L|L].
        - rewrite nth_trans by auto. apply (trans_ext c Hk); auto. rewrite Forall_forall in HF. apply HF. now apply nth_In.
        - rewrite !nth_overflow by now rewrite map_length. reflexivity. }
      assert (V : same (nvars c) v v) by now intros k _.
      destruct (SS v v V) as [V1 V2]. destruct (HT g s1 v Hg E4) as [T1 _].
      exists g, a, sat, esat, viol, v. do 5 (split; [assumption|]). split; [exact (eq_trans V1 E3)|]. split; [exact (eq_trans V2 T1)|].
      split; [|split; [|]].
      * intros Z. apply S1 in Z. destruct Z as [Z _]. cbn [g_liveG game_of] in *. rewrite GA with (u := v); auto. apply (wf_gua c Hwf).
      * intros Z. apply S2 in Z. destruct Z as [Z _]. cbn [g_liveA game_of] in *. rewrite GA with (u := v); auto. apply (wf_asm c Hwf).
      * intros HU. assert (VT : same (nvars c) t v).
        { apply same_sym. apply HU; [exact (eq_trans V1 E3)|exact (eq_trans V2 T1)]. }
        split; intros Z; [apply S1 in Z|apply S2 in Z]; destruct Z as [Z _]; cbn [g_liveA g_liveG game_of] in *; rewrite GA with (u := v); auto;
          [apply (wf_gua c Hwf)|apply (wf_asm c Hwf)].
    + injection ER as -> ->. apply (IH pr); auto.
      * subst g'. destruct sat; auto. apply Nat.mod_upper_bound. fold G in Hg |- *. lia.
      * subst a'. destruct esat; auto. apply Nat.mod_upper_bound. fold G in Ha |- *. lia.
  - destruct pr as [|p0 [|p1 pr]].
    + injection ER as -> -> <-. exfalso.
      assert (X : ~ (exists t, g_safeE G s1 t = true)) by (intros X; apply C2 in X; congruence). apply C1 in X. congruence.
    + discriminate.
    + destruct pr; discriminate.
Qed.
Print Assumptions C33_marks_partial.

(** ** What does not hold *)

(** One output b: the assumption is b, the guarantee is that b is true next; b is false at first. *)
Definition exChoice : ctx := mkCtx ["b"; "b'"]%string [PreOutput; PostOutput] [bvar 0] [bvar 1] btrue (bnot (bvar 0)) btrue btrue.
Lemma exChoice_wf : wf exChoice.
Proof.
  constructor; cbn [varTypes livenessAssumptions livenessGuarantees initEnv initSys safetyEnv safetySys exChoice]; auto; try dep_ex.
  - exists [PreOutput]. split; reflexivity.
  - repeat constructor; dep_ex.
  - repeat constructor; dep_ex.
  - discriminate.
  - discriminate.
Qed.
(** The transition that is tested and the next position are chosen independently of each other:
    the first row is marked, although b remains false. *)
Theorem C33_mark_refuted : exists rand c r r' rest s t, wf c /\
  interestingRun rand c = Some (Rows (r :: r' :: rest)) /\
  r_content r = Values (valuesOf c s) /\ r_content r' = Values (valuesOf c t) /\
  r_sys r = Some 0 /\ r_sysSat r = Some true /\ nth 0 (g_liveG (game_of c)) (fun _ _ => false) s t = false.
Proof.
  exists (fun k => negb (Nat.eqb k 0)), exChoice.
  assert (E : match interestingRun (fun k => negb (Nat.eqb k 0)) exChoice with
    | Some (Rows (r :: r' :: _)) => (r_content r, r_content r', r_sys r, r_sysSat r) = (Values [false], Values [false], Some 0, Some true)
    | _ => False end) by (vm_compute; reflexivity).
  destruct (interestingRun _ exChoice) as [[|[|r [|r' rest]]]|]; try contradiction. injection E as E1 E2 E3 E4.
  exists r, r', rest, no, no. split; [exact exChoice_wf|]. repeat split; auto.
Qed.
Print Assumptions C33_mark_refuted.

(** One input a and one output b: both players have to keep a false next. *)
Definition exStuck : ctx :=
  mkCtx ["a"; "a'"; "b"; "b'"]%string [PreInput; PostInput; PreOutput; PostOutput] [bvar 0] [btrue]
    (bnot (bvar 0)) (bnot (bvar 2)) (bnot (bvar 1)) (bnot (bvar 1)).
Lemma exStuck_wf : wf exStuck.
Proof.
  constructor; cbn [varTypes livenessAssumptions livenessGuarantees initEnv initSys safetyEnv safetySys exStuck]; auto; try dep_ex.
  - exists [PreInput; PreOutput]. split; reflexivity.
  - repeat constructor; dep_ex.
  - repeat constructor; dep_ex.
  - discriminate.
  - discriminate.
Qed.
(** Sys.Loses is printed, although the system wins: each permitted input has an answer. *)
Theorem C50_loses_refuted : exists rand c s r r', wf c /\ realizable (game_of c) /\
  interestingRun rand c = Some (Rows [r; r']) /\
  r_content r = Values (valuesOf c s) /\ winning (game_of c) s /\ r_content r' = SysLoses /\
  (forall x, g_safeE (game_of c) s x = true -> exists y, g_safeS (game_of c) s (merge (game_of c) x y) = true).
Proof.
  assert (X : interestingRun (fun _ => false) exStuck = Some (Rows
    [mkRow (Some 0) (Some true) (Some false) (Some 0) (Some true) (Some false) (Values [false; false]);
     mkRow (Some 0) None None (Some 0) (Some false) None SysLoses])) by (vm_compute; reflexivity).
  assert (HR : realizable (game_of exStuck)).
  { destruct (check_cases exStuck exStuck_wf) as [[_ H]|[C _]]; auto. vm_compute in C. discriminate. }
  exists (fun _ => false), exStuck, no. do 2 eexists. split; [exact exStuck_wf|]. split; [exact HR|]. split; [exact X|]. clear X. split; [|split; [|split]].
  - reflexivity.
  - destruct (solve_spec exStuck exStuck_wf Basic) as (w & d & E & S). apply (exact_winning exStuck w (solved_exact exStuck w d exStuck_wf S)).
    assert (Y : match solve Basic exStuck with Some (w, _) => pos w no | None => false end = true) by (vm_compute; reflexivity).
    now rewrite E in Y.
  - reflexivity.
  - intros x Hx. exists no. cbn in *. exact Hx.
Qed.
Print Assumptions C50_loses_refuted.

(** ** Examples *)

(** The hypotheses of C50_run_partial, C50_play, C50_complete, C33_bounds_refuted. *)
Example C50_example : wf exChoice /\ startPosition exChoice no /\
  (forall s, exists t, g_safeE (game_of exChoice) s t = true) /\
  (forall s x, exists y, g_safeS (game_of exChoice) s (merge (game_of exChoice) x y) = true) /\
  exists rows, interestingRun (fun _ => false) exChoice = Some (Rows rows) /\ length rows = 101 /\
    map r_content (firstn 3 rows) = [Values [false]; Values [true]; Values [true]].
Proof.
  split; [exact exChoice_wf|]. split; [|split; [|split]].
  - split; [reflexivity|]. split; [reflexivity|].
    destruct (solve_spec exChoice exChoice_wf Basic) as (w & d & E & S). apply (exact_winning exChoice w (solved_exact exChoice w d exChoice_wf S)).
    assert (Y : match solve Basic exChoice with Some (w, _) => pos w no | None => false end = true) by (vm_compute; reflexivity).
    now rewrite E in Y.
  - intros s. exists s. reflexivity.
  - intros s x. exists x. reflexivity.
  - assert (Y : match interestingRun (fun _ => false) exChoice with
      | Some (Rows rows) => (length rows, map r_content (firstn 3 rows)) = (101, [Values [false]; Values [true]; Values [true]])
      | _ => False end) by (vm_compute; reflexivity).
    destruct (interestingRun (fun _ => false) exChoice) as [[|rows]|]; try contradiction. exists rows. injection Y as Y1 Y2. auto.
Qed.
(** The hypotheses of C33_marks_partial, after one row. *)
Example C33_example : exists r0 r r' rest, interestingRun (fun _ => false) exChoice = Some (Rows ([r0] ++ r :: r' :: rest)) /\
  r_content r = Values (valuesOf exChoice yes) /\ r_content r' = Values (valuesOf exChoice yes).
Proof.
  assert (Y : match interestingRun (fun _ => false) exChoice with
    | Some (Rows (r0 :: r :: r' :: _)) => (r_content r, r_content r') = (Values [true], Values [true])
    | _ => False end) by (vm_compute; reflexivity).
  destruct (interestingRun (fun _ => false) exChoice) as [[|[|r0 [|r [|r' rest]]]]|]; try contradiction.
  injection Y as Y1 Y2. exists r0, r, r', rest. auto.
Qed.
