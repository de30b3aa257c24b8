(** * Properties of the interactive shell: C39, C44, C48, C49 *)

From Coq Require Import String Ascii NArith ZArith Arith List Bool Lia.
From Verif Require Import BDD Loop Spec VarTypes Synth Sem FixBase GameSound SynthProofs Verdict Solvers SolversProofs
  AutSpec Explicit DetProofs ExplicitProofs ExplicitGame Counter Parser ShellSpec Shell ShellText ShellProofs ShellSafe PropsSynth.
Import ListNotations.
Local Open Scope list_scope.

Local Arguments isOut : simpl never.

(** ** C44 *)

(** The infinite plays that may be shown: [s] are the positions and [goal] the goal numbers;
    [x] are the inputs that are typed in, and the ones that are not permitted are skipped.  The
    goal number moves past exactly the guarantees that a transition satisfies, at most once
    around. *)
Definition correctRun (c : ctx) (x s : nat -> state) (goal : nat -> nat) : Prop :=
  let permitted n := g_safeE (game_of c) (s n) (x n) in
  g_initE (game_of c) (s 0) = true /\ g_initS (game_of c) (s 0) = true /\
  (forall n, winning (game_of c) (s n)) /\
  (forall n, if permitted n then
       same_in (game_of c) (nvars c) (s (S n)) (x n) /\
       g_safeE (game_of c) (s n) (s (S n)) = true /\ g_safeS (game_of c) (s n) (s (S n)) = true
     else s (S n) = s n) /\
  (let guarantee i n := nth i (g_liveG (game_of c)) (fun _ _ => false) (s n) (s (S n)) in
   let M := length (g_liveG (game_of c)) in
   forall n, goal n < M /\
     if permitted n then exists d, d <= M /\ goal (S n) = (goal n + d) mod M /\
       (forall e, e < d -> guarantee ((goal n + e) mod M) n = true) /\
       (d < M -> guarantee ((goal n + d) mod M) n = false)
     else goal (S n) = goal n) /\
  ((exists n0, forall n, n0 <= n -> permitted n = true) ->
   (forall p, In p (g_liveA (game_of c)) -> inf_often p s) ->
   forall p, In p (g_liveG (game_of c)) -> inf_often p s).
(** The replies for n inputs. *)
Definition repliesOf (c : ctx) (x s : nat -> state) (goal : nat -> nat) (n : nat) : list reply :=
  RPosition (valuesOf c (s 0)) 0 ::
  map (fun k => if g_safeE (game_of c) (s k) (x k) then RPosition (valuesOf c (s (S k))) (goal (S k)) else RError) (seq 0 n).

Lemma play_session alg rand c t : wf c -> realizable (game_of c) -> startShell alg c = Some t ->
  (exists s, g_initE (game_of c) s = true) ->
  forall (sh : shell) (r : nat -> bool) (x : nat -> state), sh_goal sh < length (livenessGuarantees c) ->
  exists s goal, goal 0 = sh_goal sh /\ correctRun c x s goal /\ forall n i, before (runText c r x n) i ->
    sess rand c t sh i = (repliesOf c x s goal n, Exits).
Proof.
  intros Hwf HR EST (s0 & Hs0) sh r x Hgo. pose proof (wf_kinds c Hwf) as Hk.
  destruct (start_realizable alg c Hwf HR) as (w & data & L & HX & Hw & HL & V & ES).
  rewrite ES in EST. injection EST as <-.
  set (init := band (band w (initEnv c)) (initSys c)).
  assert (Pi : dep (isPreV c) init).
  { repeat apply dep_and; auto; [apply preIn_pre; now apply wf_initEnv|now apply wf_initSys]. }
  destruct (initial_position c w s0 Hwf Hw V Hs0) as (y & Hy).
  assert (Fi : isFalse init = false) by (apply isFalse_false; eexists; exact Hy).
  destruct (determinize_pre c Hk init Pi Fi) as (l0 & Hl0 & Hp0 & ED).
  unfold init in Hp0. rewrite !pos_and, !andb_true_iff in Hp0. destruct Hp0 as [[P1 P2] P3].
  set (t := mkTable true w (map (positional c data) (seq 0 (length (livenessGuarantees c))))) in *.
  set (g0 := sh_goal sh) in *. set (k0 := sh_rand sh).
  exists (stAt c w data rand r x l0 g0 k0), (goalAt c w data rand r x l0 g0 k0).
  assert (E0 : stAt c w data rand r x l0 g0 k0 0 = ofVec l0).
  { unfold stAt, vecAt. cbn [runSh sh_pos]. now rewrite (vec_ptOf c l0 Hl0). }
  split; [reflexivity|]. split.
  - unfold correctRun. cbv zeta. rewrite E0. cbn [g_initE g_initS game_of].
    split; [|split; [|split; [|split; [|split]]]]; auto.
    + intros n. apply (exact_winning c w HX). now apply (run_inv c Hwf w data L HL rand r x l0 Hl0 P1 g0 k0 Hgo n).
    + intros n. destruct (run_step c Hwf w data L HL rand r x l0 Hl0 P1 g0 k0 Hgo n) as [_ R].
      unfold permitted in R. cbn. destruct (trans _ _ _); [|unfold stAt, vecAt; now rewrite R].
      destruct R as (R1 & _ & R3). split; auto.
      pose proof R3 as R4. unfold stratT in R4. rewrite trans_and, andb_true_iff in R4. split; [tauto|].
      apply (stratT_good c Hwf false w data L HL) in R3; [tauto|].
      now apply (run_inv c Hwf w data L HL rand r x l0 Hl0 P1 g0 k0 Hgo n).
    + intros n. cbn [g_liveG game_of]. rewrite map_length.
      destruct (run_inv c Hwf w data L HL rand r x l0 Hl0 P1 g0 k0 Hgo n) as (_ & _ & _ & HG).
      split; [exact HG|].
      destruct (run_step c Hwf w data L HL rand r x l0 Hl0 P1 g0 k0 Hgo n) as [_ R].
      unfold permitted in R. cbn. destruct (trans _ _ _); [|unfold goalAt; now rewrite R].
      destruct R as (_ & R2 & _). rewrite R2.
      destruct (nextGoal_spec c Hwf (goalAt c w data rand r x l0 g0 k0 n) (vecAt c w data rand r x l0 g0 k0 n)
                  (vecAt c w data rand r x l0 g0 k0 (S n)) HG) as (d & D1 & _ & D2 & D3 & D4).
      assert (T : forall i, nth i (map trans (livenessGuarantees c)) (fun _ _ => false) (stAt c w data rand r x l0 g0 k0 n) (stAt c w data rand r x l0 g0 k0 (S n)) =
        test c (vecAt c w data rand r x l0 g0 k0 n) (vecAt c w data rand r x l0 g0 k0 (S n)) i).
      { intros i. unfold test, stAt. destruct (Nat.lt_ge_cases i (length (livenessGuarantees c))) as [Hi|Hi].
        - rewrite (nth_indep _ _ (trans bfalse)) by now rewrite map_length. now rewrite map_nth.
        - rewrite !nth_overflow by (rewrite ?map_length; auto). reflexivity. }
      exists d. split; auto. split; auto. split; [intros e He; rewrite T; auto|intros Hd; rewrite T; auto].
    + intros HE HA. apply (run_live c Hwf w data L HL rand r x l0 Hl0 P1 g0 k0 Hgo); auto.
  - intros n i Hi. unfold repliesOf. rewrite E0. unfold runText in Hi. cbn [joinText] in Hi. rewrite sess_eq.
    rewrite (sess_command rand c t _ _ _ "XGETINIT"%string
               (joinText (map (fun k => transText c (r k) (x k)) (seq 0 n))) Hi);
      [|now rewrite app_assoc_s|reflexivity|discriminate].
    change (toUpper (trim "XGETINIT")) with "XGETINIT"%string. rewrite exec_getInit. unfold getInit.
    cbn [t_winning t sh_goal sh_rand]. fold init. rewrite ED, (positionValues_ptOf c Hk).
    fold g0 k0. change (mkShell (ptOf c l0) g0 k0) with (runSh c w data rand r x l0 g0 k0 0). fold t.
    rewrite (run_session c Hwf w data L HL rand r x l0 Hl0 P1 g0 k0 Hgo n 0) by constructor. reflexivity.
Qed.

(** XGETINIT followed by XMAKETRANS (or XMAKETRANSRANDOM) for any sequence of inputs plays a
    correct strategy: for every n the replies to the first n+1 commands are the positions
    and goal numbers of one infinite correct play, and ERROR for inputs that are not
    permitted. *)
Theorem C44_simulation : forall alg rand c, wf c -> realizable (game_of c) ->
  (exists s, g_initE (game_of c) s = true) ->
  forall (r : nat -> bool) (x : nat -> state), exists (s : nat -> state) (goal : nat -> nat),
  goal 0 = 0 /\ correctRun c x s goal /\
  forall n, interactive alg rand c (runText c r x n) = Some (repliesOf c x s goal n, Exits).
Proof.
  intros alg rand c Hwf HR HI r x. destruct (start_total alg c Hwf) as (t & ES).
  destruct (play_session alg rand c t Hwf HR ES HI (mkShell bfalse 0 0) r x) as (s & goal & H0 & H1 & H2).
  { pose proof (wf_gua_ne c Hwf). cbn. destruct (livenessGuarantees c); [contradiction|cbn; lia]. }
  exists s, goal. split; [exact H0|]. split; [exact H1|]. intros n.
  rewrite (interactive_sess alg rand c t _ ES). f_equal. apply H2. constructor.
Qed.
Print Assumptions C44_simulation.

(** What is typed: one line each. *)
Definition typed (l : list string) : string := joinText (map (fun s => (s ++ newline)%string) l).

Example C44_example : wf exR /\ realizable (game_of exR) /\ g_initE (game_of exR) (fun _ => false) = true /\
  interactive Basic (fun _ => false) exR
    (runText exR (fun k => Nat.eqb k 3) (fun k _ => match k with 1 | 2 => true | _ => false end) 4) =
  Some ([RPosition [false; false] 0; RPosition [false; false] 0; RPosition [true; true] 0; RError;
         RPosition [false; true] 1], Exits).
Proof.
  split; [exact exR_wf|]. split; [|repeat split; vm_compute; reflexivity].
  destruct (check_cases exR exR_wf) as [[_ H]|[C _]]; auto. vm_compute in C. discriminate.
Qed.

(** ** C49 *)

(** Full statement: after XGETINIT the replies depend only on the inputs given since then, as
    the printed goal number 0 suggests.  It does not hold: XGETINIT prints 0, but the goal that
    is pursued stays the same.  Here there is one output b, and the guarantees are b' and !b'. *)
Definition exRestart : ctx := mkCtx ["b"; "b'"]%string [PreOutput; PostOutput]
  [btrue] [bvar 1; bnot (bvar 1)] btrue (bnot (bvar 0)) btrue btrue.

Lemma exRestart_wf : wf exRestart.
Proof.
  constructor; cbn [varTypes livenessAssumptions livenessGuarantees initEnv initSys safetyEnv safetySys exRestart].
  - exists [PreOutput]. split; reflexivity.
  - dep_ex.
  - dep_ex.
  - dep_ex.
  - dep_ex.
  - repeat constructor; dep_ex.
  - repeat constructor; dep_ex.
  - discriminate.
  - discriminate.
Qed.

Theorem C49_restart_refuted : exists c, wf c /\ realizable (game_of c) /\ exists x,
  let text := runText c (fun _ => false) x 1 in
  interactive Basic (fun _ => false) c text = Some ([RPosition [false] 0; RPosition [true] 1], Exits) /\
  interactive Basic (fun _ => false) c (text ++ text) =
    Some ([RPosition [false] 0; RPosition [true] 1; RPosition [false] 0; RPosition [false] 0], Exits).
Proof.
  exists exRestart. split; [exact exRestart_wf|]. split.
  - destruct (check_cases exRestart exRestart_wf) as [[_ H]|[C _]]; auto. vm_compute in C. discriminate.
  - exists (fun _ _ => false). split; vm_compute; reflexivity.
Qed.
Print Assumptions C49_restart_refuted.

(** What holds: after any commands, XGETINIT begins a correct play, with the goal number
    that was current before, which need not be the 0 that is printed. *)
Theorem C49_restart_partial : forall alg rand c t input, wf c -> realizable (game_of c) ->
  startShell alg c = Some t -> (exists s, g_initE (game_of c) s = true) ->
  forall sh i, reached rand c t input sh i ->
  forall (r : nat -> bool) (x : nat -> state), exists (s : nat -> state) (goal : nat -> nat),
  goal 0 = sh_goal sh /\ correctRun c x s goal /\
  forall n, before (runText c r x n) i -> sess rand c t sh i = (repliesOf c x s goal n, Exits).
Proof.
  intros alg rand c t input Hwf HR ES HI sh i Hr r x.
  destruct (play_session alg rand c t Hwf HR ES HI sh r x) as (s & goal & H0 & H1 & H2).
  { apply (reached_goal rand c t input sh i); auto.
    pose proof (wf_gua_ne c Hwf). destruct (livenessGuarantees c); [contradiction|cbn; lia]. }
  exists s, goal. split; auto.
Qed.
Print Assumptions C49_restart_partial.

Example C49_example : let text := runText exRestart (fun _ => false) (fun _ _ => false) 1 in
  exists t sh i, startShell Basic exRestart = Some t /\ reached (fun _ => false) exRestart t (text ++ text) sh i /\
  before text i /\ sh_goal sh = 1.
Proof.
  intros text. pose (rand := fun _ : nat => false).
  assert (X : match startShell Basic exRestart with
    | Some t => match oneCommand rand exRestart t (mkShell bfalse 0 0) (mkStream (text ++ text) false false) with
      | Next (_, s1, i1) => match oneCommand rand exRestart t s1 i1 with
        | Next (_, s2, i2) => sh_goal s2 = 1 /\ i2 = mkStream (newline ++ text) false false
        | _ => False end | _ => False end | None => False end) by (vm_compute; auto).
  destruct (startShell Basic exRestart) as [t|]; [|contradiction].
  destruct (oneCommand rand exRestart t (mkShell bfalse 0 0) _) as [[[r1 s1] i1]| | | | |] eqn:E1; try contradiction.
  destruct (oneCommand rand exRestart t s1 i1) as [[[r2 s2] i2]| | | | |] eqn:E2; try contradiction.
  destruct X as [X1 X2]. exists t, s2, i2. split; [reflexivity|]. split; [|split; [rewrite X2; constructor|exact X1]].
  unfold oneCommand in E1, E2. apply obind_next in E1, E2. destruct E1 as ([l1 j1] & E1 & F1). destruct E2 as ([l2 j2] & E2 & F2).
  eapply reached_next; [eapply reached_next; [constructor|exact E1|exact F1]|exact E2|exact F2].
Qed.

(** ** C39 *)

(** Full statement: CHECKTRANS and MOVE never access a strategy that does not exist.  It
    does not hold (see below).  It holds if the specification is realizable or has at least
    as many assumptions as guarantees; and then, whatever is typed, the only other
    command that can access a vector outside its bounds is XSTRATEGYTRANSITION. *)
Theorem C39_bounds_partial : forall alg rand c input, wf c ->
  realizable (game_of c) \/ length (g_liveG (game_of c)) <= length (g_liveA (game_of c)) ->
  ~ issued alg rand c input "XSTRATEGYTRANSITION" ->
  exists replies e, interactive alg rand c input = Some (replies, e) /\ e <> AccessesOutOfBounds /\ e <> NoFuel.
Proof.
  intros alg rand c input Hwf HC HN. cbn [g_liveG g_liveA game_of] in HC. rewrite !map_length in HC.
  destruct (start_total alg c Hwf) as (t & ES). destruct (strategies_count alg c t Hwf ES) as [HS HR].
  rewrite (interactive_sess alg rand c t input ES).
  set (r := sess _ _ _ _ _). exists (fst r), (snd r). split; [now destruct r|]. split; [|apply sess_fuel].
  destruct (sess_last rand c t input _ _ (reached_start _ _ _ _)) as (s & i & H1 & H2). fold r in H2.
  assert (Mpos : 0 < length (livenessGuarantees c)).
  { pose proof (wf_gua_ne c Hwf). destruct (livenessGuarantees c); [contradiction|cbn; lia]. }
  pose proof (reached_goal _ _ _ _ _ _ Mpos H1) as Hg. unfold oneCommand in H2.
  pose proof (nextCommand_cases (S (S (slen (chars i)))) i ltac:(lia)) as NC.
  destruct (nextCommand _ i) as [[l j]| | | | |] eqn:EN; cbn [obind fst snd] in H2; try contradiction;
    try (rewrite H2; discriminate).
  pose proof (exec_cases rand c t Mpos (toUpper (trim l)) s j Hg) as EC.
  destruct (exec rand c t (toUpper (trim l)) s j); try contradiction; rewrite H2; try discriminate.
  exfalso. destruct EC as [EC|EC].
  - apply HN. exists t, s, i, l, j. auto.
  - destruct (t_realizable t); [lia|]. destruct HC as [HC|HC]; [apply HR in HC; discriminate|lia].
Qed.
Print Assumptions C39_bounds_partial.

Definition exBounds : ctx := mkCtx exNames exTypes [btrue] [bvar 2; bvar 1] btrue btrue btrue btrue.
Lemma exBounds_wf : wf exBounds.
Proof.
  constructor; cbn [varTypes livenessAssumptions livenessGuarantees initEnv initSys safetyEnv safetySys exBounds].
  - exists [PreInput; PreOutput]. split; reflexivity.
  - dep_ex.
  - dep_ex.
  - dep_ex.
  - dep_ex.
  - repeat constructor; dep_ex.
  - repeat constructor; dep_ex.
  - discriminate.
  - discriminate.
Qed.

(** In all other cases CHECKTRANS does access a strategy that does not exist, as the first
    command and at any later time, whatever follows. *)
Theorem C39_check_outside : forall alg rand c rest, wf c ->
  ~ realizable (game_of c) -> length (g_liveA (game_of c)) < length (g_liveG (game_of c)) ->
  interactive alg rand c ("CHECKTRANS" ++ newline ++ rest) = Some ([], AccessesOutOfBounds).
Proof.
  intros alg rand c rest Hwf HU HC. cbn [g_liveG g_liveA game_of] in HC. rewrite !map_length in HC.
  destruct (start_total alg c Hwf) as (t & ES). destruct (strategies_count alg c t Hwf ES) as [HS HR].
  rewrite (interactive_sess alg rand c t _ ES), sess_eq.
  rewrite (sess_command rand c t _ _ _ "CHECKTRANS"%string rest (before_same _)); [|reflexivity|reflexivity|discriminate].
  change (exec rand c t (toUpper (trim "CHECKTRANS")) ?s ?i) with (checkTrans c t s i).
  unfold checkTrans. destruct (readValues (varsT c Pre) _) as [l1 i1]. destruct (readValues (varsT c Post) i1) as [l2 i2].
  unfold meetsN. destruct (t_realizable t); [exfalso; apply HU, HR; reflexivity|].
  destruct (Nat.leb_spec (length (livenessGuarantees c)) (length (t_strategies t))); [lia|]. reflexivity.
Qed.
Print Assumptions C39_check_outside.

Theorem C39_refuted : exists c, wf c /\ ~ realizable (game_of c) /\
  length (g_liveA (game_of c)) < length (g_liveG (game_of c)) /\
  interactive Basic (fun _ => false) c (typed ["CHECKTRANS"; "0"; "0"; "0"; "0"]%string) = Some ([], AccessesOutOfBounds).
Proof.
  exists exBounds. split; [exact exBounds_wf|]. split; [|split; vm_compute; [lia|reflexivity]].
  intros (f & Hf). destruct (check_cases exBounds exBounds_wf) as [[C _]|[_ C]]; [vm_compute in C; discriminate|].
  destruct (C f) as (x & Hx). now apply Hx.
Qed.
Print Assumptions C39_refuted.

Example C39_example : wf exR /\ realizable (game_of exR) /\
  interactive Basic (fun _ => false) exR (typed ["CHECKTRANS"; "0"; "0"; "0"; "0"; "SETPOS"; "0"; "0"; "MOVE"; "1"; "0"; "MOVE"; "7"]%string) =
  Some ([RCheck true true true [1] [1] [0; 1]; RSet; RMove false [false] [1] [1] [0; 1]; RTooLarge], Exits).
Proof.
  split; [exact exR_wf|]. split; [|repeat split; vm_compute; reflexivity].
  destruct (check_cases exR exR_wf) as [[_ H]|[C _]]; auto. vm_compute in C. discriminate.
Qed.

(** ** C48 *)

(** Full statement: the shell ends when its input ends.  It does not hold (see below).  It
    holds unless one of the four commands that read numbers is used.  More precisely, whatever
    is typed the program ends in one of four ways, and each of the three abnormal ones is
    due to particular commands. *)
Theorem C48_ends_partial : forall alg rand c input, wf c ->
  exists replies e, interactive alg rand c input = Some (replies, e) /\ e <> NoFuel /\
  (e = LoopsForever -> exists cmd, issued alg rand c input cmd /\
     In cmd ["CHECKTRANS"; "SETPOS"; "MOVE"; "XSTRATEGYTRANSITION"]%string) /\
  (e = Throws -> issued alg rand c input "XMAKETRANS" /\ ~ realizable (game_of c)) /\
  (e = UsesUninitialised -> exists cmd, issued alg rand c input cmd /\
     In cmd ["XMAKETRANS"; "XMAKETRANSRANDOM"; "XCOMPLETEINIT"; "XSTRATEGYTRANSITION"]%string).
Proof.
  intros alg rand c input Hwf.
  destruct (start_total alg c Hwf) as (t & ES). destruct (strategies_count alg c t Hwf ES) as [HS HR].
  rewrite (interactive_sess alg rand c t input ES).
  set (r := sess _ _ _ _ _). exists (fst r), (snd r). split; [now destruct r|]. split; [apply sess_fuel|].
  destruct (sess_last rand c t input _ _ (reached_start _ _ _ _)) as (s & i & H1 & H2). fold r in H2.
  assert (Mpos : 0 < length (livenessGuarantees c)).
  { pose proof (wf_gua_ne c Hwf). destruct (livenessGuarantees c); [contradiction|cbn; lia]. }
  pose proof (reached_goal _ _ _ _ _ _ Mpos H1) as Hg. unfold oneCommand in H2.
  pose proof (nextCommand_cases (S (S (slen (chars i)))) i ltac:(lia)) as NC.
  destruct (nextCommand _ i) as [[l j]| | | | |] eqn:EN; cbn [obind fst snd] in H2; try contradiction.
  - assert (IS : issued alg rand c input (toUpper (trim l))) by (exists t, s, i, l, j; auto).
    pose proof (exec_cases rand c t Mpos (toUpper (trim l)) s j Hg) as EC.
    pose proof (exec_uninit rand c t (toUpper (trim l)) s j) as EU.
    destruct (exec rand c t (toUpper (trim l)) s j); try contradiction; rewrite H2; cbn [endingOf];
      (split; [|split]); try discriminate; intros _.
    + destruct EC as [E1 E2]. rewrite E1 in IS. split; auto. intros R. apply HR in R. congruence.
    + eexists. split; [exact IS|]. now apply EU.
  - rewrite H2. cbn [endingOf]. repeat split; discriminate.
  - rewrite H2. cbn [endingOf]. split; [intros _|split; discriminate].
    destruct NC as [NC _].
    assert (K : forall s i, reached rand c t input s i -> failed i = true ->
      exists cmd, issued alg rand c input cmd /\ readsNumbers cmd).
    { clear - ES. induction 1 as [|s i l j r s' i' HR IH E1 E2]; [discriminate|]. intros HF.
      destruct (in_dec String.string_dec (toUpper (trim l)) ["CHECKTRANS"; "SETPOS"; "MOVE"; "XSTRATEGYTRANSITION"]%string) as [D|D].
      - exists (toUpper (trim l)). split; [exists t, s, i, l, j; auto|exact D].
      - pose proof (exec_failed _ _ _ _ _ _ _ _ _ D E2) as F. apply nextCommand_len in E1.
        destruct E1 as (_ & _ & F' & _). rewrite F in HF by exact F'. discriminate. }
    exact (K s i H1 NC).
Qed.
Print Assumptions C48_ends_partial.

(** A value that is not a number: from then on the shell reads nothing, not even QUIT, and it
    never ends. *)
Theorem C48_refuted : exists c, wf c /\ realizable (game_of c) /\ forall rest, exists replies,
  interactive Basic (fun _ => false) c ("SETPOS" ++ newline ++ "x" ++ newline ++ rest) = Some (replies, LoopsForever).
Proof.
  exists exR. split; [exact exR_wf|]. split.
  - destruct (check_cases exR exR_wf) as [[_ H]|[C _]]; auto. vm_compute in C. discriminate.
  - intros rest. destruct (start_total Basic exR exR_wf) as (t & ES).
    rewrite (interactive_sess _ _ _ t _ ES), sess_eq.
    rewrite (sess_command _ exR t _ _ _ "SETPOS"%string ("x" ++ newline ++ rest) (before_same _)); [|reflexivity|reflexivity|discriminate].
    eexists. reflexivity.
Qed.
Print Assumptions C48_refuted.

Example C48_example : wf exU /\
  interactive Basic (fun _ => false) exU (typed ["XGETINIT"; "XMAKETRANS"; "0"]%string) = Some ([RPosition [false; false] 0], Throws) /\
  interactive Basic (fun _ => false) exR (typed ["XGETINIT"; "XMAKETRANS"]%string) = Some ([RPosition [false; false] 0], UsesUninitialised) /\
  interactive Basic (fun _ => false) exR (typed ["SETPOS"; "x"; "QUIT"]%string) = Some ([RSet], LoopsForever).
Proof. split; [exact exU_wf|]. repeat split; vm_compute; reflexivity. Qed.
