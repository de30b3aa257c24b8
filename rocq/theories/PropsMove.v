(** * Properties of the interactive shell: C47 (SETPOS and MOVE) *)

From Coq Require Import String Ascii NArith ZArith Arith List Bool Lia.
From Verif Require Import BDD Loop Spec VarTypes Synth Sem FixBase GameSound SynthProofs Verdict Solvers SolversProofs
  AutSpec Explicit DetProofs ExplicitProofs ExplicitGame Counter Parser FormulaSpec ShellSpec Shell ShellText ShellProofs ShellSafe ShellMarks
  ShellMove PropsSynth.
Import ListNotations.
Local Open Scope list_scope.

Local Arguments isOut : simpl never.

(** The current position of the shell is [s]. *)
Definition currentIs (c : ctx) (sh : shell) (s : state) : Prop :=
  forall e, eval (sh_pos sh) e = true <-> forall k, k < nvars c -> e (2 * k) = s k.

(** A family of strategies, one for each guarantee: [T j s s'] is a transition of the strategy
    for guarantee [j].  They never leave the winning positions or violate a safety guarantee,
    have an answer for each permitted input, and reach their guarantee, if the
    strategy is not changed before. *)
Definition winningStrategies (c : ctx) (T : nat -> state -> state -> bool) : Prop :=
  let G := game_of c in
  let M := length (g_liveG G) in
  let guarantee i := nth i (g_liveG G) (fun _ _ => false) in
  (forall j s s', j < M -> T j s s' = true -> g_safeS G s s' = true /\ winning G s') /\
  (forall j s x, j < M -> winning G s -> g_safeE G s x = true ->
     exists s', same_in G (nvars c) s' x /\ T j s s' = true) /\
  (forall (goal : nat -> nat) (s : nat -> state), (forall n, goal n < M) -> winning G (s 0) ->
     (forall n, T (goal n) (s n) (s (S n)) = true /\ g_safeE G (s n) (s (S n)) = true) ->
     (forall n, guarantee (goal n) (s n) (s (S n)) = false -> goal (S n) = goal n) ->
     (forall p, In p (g_liveA G) -> inf_often p s) ->
     forall n, exists m, n <= m /\ goal m = goal n /\ guarantee (goal n) (s m) (s (S m)) = true).

Lemma currentIs_ptOf c sh s : currentIs c sh s <-> sh_pos sh = ptOf c (toVec (nvars c) s).
Proof.
  unfold currentIs. assert (E : forall e, eval (ptOf c (toVec (nvars c) s)) e = true <-> forall k, k < nvars c -> e (2 * k) = s k).
  { intros e. rewrite eval_ptOf. split; intros H k Hk; specialize (H k Hk).
    - rewrite H. now apply (ofVec_toVec (nvars c) s k).
    - rewrite H. symmetry. now apply (ofVec_toVec (nvars c) s k). }
  split.
  - intros H. apply bf_ext. intros e. apply eq_true_iff_eq. rewrite H, E. tauto.
  - intros -> e. apply E.
Qed.

Theorem C47_move : forall alg rand c t, wf c -> realizable (game_of c) -> startShell alg c = Some t ->
  exists T, winningStrategies c T /\
  (forall s sh i rest, before (setText c s rest) i -> exists sh' i', before rest i' /\ currentIs c sh' s /\
     sess rand c t sh i = (RSet :: fst (sess rand c t sh' i'), snd (sess rand c t sh' i'))) /\
  (forall j goal s sh x i rest, j < length (g_liveG (game_of c)) -> numeral goal (N.of_nat j) -> (N.of_nat j < uintBound)%N ->
     currentIs c sh s -> winning (game_of c) s -> (exists y, g_safeE (game_of c) s y = true) ->
     before (moveText c goal x rest) i ->
     let warning := negb (g_safeE (game_of c) s x) in
     exists sh' i', before rest i' /\
       ((exists s', same_in (game_of c) (nvars c) s' x /\ T j s s' = true /\ currentIs c sh' s' /\
          sess rand c t sh i =
            (RMove warning (map s' (outputVars c))
               (satisfied (g_liveA (game_of c)) s s') (satisfied (g_liveG (game_of c)) s s')
               (filter (fun i => T i s s') (seq 0 (length (g_liveG (game_of c)))))
             :: fst (sess rand c t sh' i'), snd (sess rand c t sh' i'))) \/
        (warning = true /\ (forall s', same_in (game_of c) (nvars c) s' x -> T j s s' = false) /\ currentIs c sh' s /\
          sess rand c t sh i = (RIllegal true false :: fst (sess rand c t sh' i'), snd (sess rand c t sh' i'))))).
Proof.
  intros alg rand c t Hwf HR ES. pose proof (wf_kinds c Hwf) as Hk.
  destruct (start_realizable alg c Hwf HR) as (w & data & L & HX & Hw & HL & V & ES'). rewrite ES in ES'. injection ES' as ->.
  set (M := length (livenessGuarantees c)) in *. set (N := nvars c).
  assert (EM : length (g_liveG (game_of c)) = M) by (cbn; apply map_length). rewrite EM.
  assert (EG : forall i, nth i (g_liveG (game_of c)) (fun _ _ => false) = trans (nth i (livenessGuarantees c) bfalse) \/ i >= M).
  { intros i. cbn [g_liveG game_of]. destruct (Nat.lt_ge_cases i M) as [Hi|Hi]; auto. left.
    rewrite (nth_indep _ _ (trans bfalse)) by now rewrite map_length. apply map_nth. }
  assert (ET : forall q s s' v v', dep (isAnyV c) q -> same N s v -> same N s' v' -> trans q s s' = trans q v v').
  { intros q s s' v v' D H1 H2. apply (trans_ext c Hk); auto. }
  assert (VEC : forall s, same N (ofVec (toVec N s)) s) by (intros s k Hk'; now apply ofVec_toVec).
  exists (fun j => trans (positional c data j)). split; [|split].
  - unfold winningStrategies. rewrite EM. split; [|split].
    + intros j s s' Hj HT. destruct (stratT_good c Hwf true w data L HL j s s' Hj HT) as [H1 H2]. split; auto. now apply (exact_winning c w HX).
    + intros j s x Hj Hs Hx. apply (exact_winning c w HX) in Hs.
      destruct (stratT_covers c Hwf true w data L HL j s x Hj Hs Hx) as (y & Hy). exists (mrg c x y). split; [|exact Hy].
      intros k _ Ho. cbn in Ho. unfold mrg. now rewrite Ho.
    + intros goal s Hg Hs HT Hstay HA n. apply (exact_winning c w HX) in Hs.
      assert (EQ : forall k, nth (goal k) (g_liveG (game_of c)) (fun _ _ => false) = trans (nth (goal k) (livenessGuarantees c) btrue)).
      { intros k. destruct (EG (goal k)) as [E|E]; [|specialize (Hg k); lia]. rewrite E. f_equal. now apply nth_indep. }
      rewrite EQ.
      apply (reach_goal (game_of c) (fun s => pos w s = true) M (fun j => trans (nth j (livenessGuarantees c) btrue)) (fun j => lift (L j))); auto.
      * intros i Hi. apply goodEnt_ranked. now apply HL.
      * intros k. destruct (HT k). now apply (stratT_follow c Hwf true w data L HL).
      * intros k Hf. apply Hstay. now rewrite EQ.
  - intros s sh i rest Hi.
    destruct (readValues_text (varsT c Pre) (map s (seq 0 N)) rest (mkStream (joinText (map valueLine (map s (seq 0 N))) ++ rest)%string false false))
      as (i' & E & Hi').
    { rewrite (varsT_Pre c Hwf), !map_length. reflexivity. } { constructor. }
    exists (mkShell (ptOf c (toVec N s)) (sh_goal sh) (sh_rand sh)), i'. split; auto. split; [now apply currentIs_ptOf|].
    rewrite sess_eq. rewrite (sess_command rand c _ sh _ i "SETPOS"%string (joinText (map valueLine (map s (seq 0 N))) ++ rest)%string Hi);
      [|reflexivity|reflexivity|discriminate].
    change (toUpper (trim "SETPOS")) with "SETPOS"%string. unfold exec. cbn [String.eqb Ascii.eqb Bool.eqb orb]. unfold setPos. rewrite E.
    rewrite cubeOfValues_bits by (rewrite (varsT_Pre c Hwf), !map_length; reflexivity).
    change (map s (seq 0 N)) with (toVec N s). now rewrite (setPos_point c Hwf) by apply toVec_length.
  - intros j goal s sh x i rest Hj Hn HB Hc Hs (y & Hy) Hi warning.
    apply currentIs_ptOf in Hc. destruct sh as [p gl r]. cbn [sh_pos] in Hc. subst p.
    set (l := toVec N s).
    assert (Ew : trans (safetyEnv c) (ofVec l) x = g_safeE (game_of c) s x).
    { apply ET; [now apply isPrePostIn_isAny, wf_safetyEnv|apply VEC|now intros k _]. }
    destruct (move_spec c Hwf w data L HL l j goal x gl r
      (mkStream (goal ++ newline ++ joinText (map valueLine (map x (inputVars c))) ++ rest)%string false false) rest) as (i' & Hi' & HM); auto.
    { apply toVec_length. }
    { exists y. rewrite <- Hy. apply ET; [now apply isPrePostIn_isAny, wf_safetyEnv|apply VEC|now intros k _]. }
    { constructor. }
    assert (ESe : forall o, move c (mkTable true w (map (positional c data) (seq 0 M))) (mkShell (ptOf c l) gl r)
        (mkStream (goal ++ newline ++ joinText (map valueLine (map x (inputVars c))) ++ rest)%string false false) = o ->
      sess rand c (mkTable true w (map (positional c data) (seq 0 M))) (mkShell (ptOf c l) gl r) i =
      match o with
      | Next (r, s', i') => (r :: fst (sess rand c (mkTable true w (map (positional c data) (seq 0 M))) s' i'), snd (sess rand c (mkTable true w (map (positional c data) (seq 0 M))) s' i'))
      | o => ([], endingOf o)
      end).
    { intros o Eo. rewrite sess_eq. rewrite (sess_command rand c _ _ _ i "MOVE"%string
        (goal ++ newline ++ joinText (map valueLine (map x (inputVars c))) ++ rest)%string Hi); [|reflexivity|reflexivity|discriminate].
      change (toUpper (trim "MOVE")) with "MOVE"%string. unfold exec. cbn [String.eqb Ascii.eqb Bool.eqb orb]. rewrite Eo. now destruct o as [[[? ?] ?]| | | | |]. }
    rewrite Ew in HM. fold warning in HM. fold M in HM.
    assert (SP : forall fs u, Forall (dep (isAnyV c)) fs -> satisfiedBy fs l u = filter (fun i => trans (nth i fs bfalse) s (ofVec u)) (seq 0 (length fs))).
    { intros fs u HF. unfold satisfiedBy. apply filter_ext_lt. intros k Hin. apply in_seq in Hin. apply ET; [|apply VEC|now intros n _].
      rewrite Forall_forall in HF. apply HF, nth_In. lia. }
    assert (SA : forall fs u, Forall (dep (isAnyV c)) fs -> satisfiedBy fs l u = satisfied (map trans fs) s (ofVec u)).
    { intros fs u HF. rewrite SP by auto. unfold satisfied. rewrite map_length. apply filter_ext_lt. intros k Hin. apply in_seq in Hin.
      rewrite (nth_indep _ _ (trans bfalse)) by (rewrite map_length; lia). now rewrite map_nth. }
    assert (AG : Forall (dep (isAnyV c)) (livenessGuarantees c)).
    { rewrite Forall_forall. intros q Hq. destruct (In_nth _ _ bfalse Hq) as (k & Hk' & <-). apply (gua_any c Hwf). }
    assert (AP : Forall (dep (isAnyV c)) (map (positional c data) (seq 0 M))).
    { apply Forall_map, Forall_forall. intros k Hin. apply in_seq in Hin. apply (strat_any c Hwf w data L HL). unfold M in Hin. lia. }
    destruct HM as [(u & Hu & Hx & HT & E)|[HT E]]; apply ESe in E.
    + exists (mkShell (ptOf c u) gl r), i'. split; auto. left. exists (ofVec u). split; auto. split; [|split].
      * rewrite <- HT. apply ET; [now apply (strat_any c Hwf w data L HL)|apply same_sym, VEC|now intros k _].
      * apply currentIs_ptOf. cbn [sh_pos]. f_equal. symmetry. apply (same_vec c); [apply toVec_length|exact Hu|apply VEC].
      * unfold l in E at 1. fold N in E |- *. rewrite E. f_equal. f_equal. rewrite (SA (livenessAssumptions c)) by apply (wf_asm c Hwf).
        rewrite (SA (livenessGuarantees c)) by auto. f_equal. rewrite SP by auto. rewrite map_length, seq_length. apply filter_ext_lt. intros k Hin. apply in_seq in Hin.
        rewrite (nth_indep _ _ (positional c data 0)) by (rewrite map_length, seq_length; lia). rewrite map_nth, seq_nth by lia. reflexivity.
    + exists (mkShell (ptOf c l) gl r), i'. split; auto. right.
      assert (W : warning = true).
      { unfold warning. apply negb_true_iff. destruct (g_safeE (game_of c) s x) eqn:Ex; auto. exfalso.
        apply (exact_winning c w HX) in Hs. destruct (stratT_covers c Hwf true w data L HL j s x Hj Hs Ex) as (z & Hz).
        assert (F : trans (positional c data j) (ofVec l) (mrg c x z) = false).
        { apply HT. intros k _ Ho. cbn in Ho. unfold mrg. now rewrite Ho. }
        cbn in Hz. rewrite <- (ET _ (ofVec l) (mrg c x z) s (mrg c x z)) in Hz; [congruence|now apply (strat_any c Hwf w data L HL)|apply VEC|now intros k _]. }
      split; auto. split; [|split].
      * intros s' Hs'. rewrite <- (HT s' Hs'). apply ET; [now apply (strat_any c Hwf w data L HL)|apply same_sym, VEC|now intros k _].
      * now apply currentIs_ptOf.
      * unfold l in E at 1. fold N in E |- *. rewrite E, W. reflexivity.
Qed.
Print Assumptions C47_move.

(** Numbers of guarantees that do not exist are rejected, and the position stays the same. *)
Theorem C47_rejects : forall rand c t goal n sh s i rest,
  numeral goal n -> (N.of_nat (length (g_liveG (game_of c))) <= n < uintBound)%N -> currentIs c sh s ->
  before ("MOVE" ++ newline ++ goal ++ newline ++ rest)%string i ->
  exists i', before rest i' /\ sess rand c t sh i = (RTooLarge :: fst (sess rand c t sh i'), snd (sess rand c t sh i')).
Proof.
  intros rand c t goal n sh s i rest Hn [Hn1 Hn2] Hc Hi.
  exists (mkStream (newline ++ rest)%string false false). split; [constructor|].
  rewrite sess_eq. rewrite (sess_command rand c _ _ _ i "MOVE"%string (goal ++ newline ++ rest)%string Hi); [|reflexivity|reflexivity|discriminate].
  change (toUpper (trim "MOVE")) with "MOVE"%string. unfold exec. cbn [String.eqb Ascii.eqb Bool.eqb orb]. unfold move.
  assert (E0 : bf_eqb (sh_pos sh) bfalse = false).
  { destruct (bf_eqb (sh_pos sh) bfalse) eqn:E; auto. apply bf_eqb_eq in E.
    assert (T : eval (sh_pos sh) (fun v => s (Nat.div2 v)) = true).
    { apply Hc. intros k _. now rewrite Nat.div2_double. } rewrite E in T. discriminate. }
  rewrite E0, (readUInt_numeral goal n rest (mkStream (goal ++ newline ++ rest)%string false false) Hn Hn2 ltac:(constructor)).
  cbn [failed g_liveG game_of] in *. rewrite map_length in Hn1. now apply N.leb_le in Hn1 as ->.
Qed.
Print Assumptions C47_rejects.

(** a is given in the beginning; then it is withdrawn. *)
Example C47_example : wf exR /\ realizable (game_of exR) /\ winning (game_of exR) (fun _ => false) /\
  (exists y, g_safeE (game_of exR) (fun _ => false) y = true) /\
  interactive Basic (fun _ => false) exR
    (setText exR (fun _ => false) (moveText exR "0" (fun _ => true) (moveText exR "01" (fun _ => false) ("MOVE" ++ newline ++ "2" ++ newline ++ EmptyString)))) =
    Some ([RSet; RMove false [true] [1] [] [0; 1]; RMove false [false] [0] [0; 1] [0; 1]; RTooLarge], Exits).
Proof.
  split; [exact exR_wf|]. split.
  { destruct (check_cases exR exR_wf) as [[_ H]|[C _]]; auto. vm_compute in C. discriminate. }
  split; [|split; [now exists (fun _ => false)|vm_compute; reflexivity]].
  destruct (startShell_cases Basic exR exR_wf) as (w & d & L & E & HX & _). apply (exact_winning exR w HX).
  assert (X : match solve Basic exR with Some (w, _) => pos w (fun _ => false) | None => false end = true) by (vm_compute; reflexivity).
  rewrite E in X. exact X.
Qed.
