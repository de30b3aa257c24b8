(** * Properties of the interactive shell: C45 (XCOMPLETEINIT) *)

From Coq Require Import String Ascii NArith ZArith Arith List Bool Lia.
From Verif Require Import BDD Loop Spec VarTypes Synth Sem FixBase Verdict Solvers SolversProofs
  AutSpec Explicit Counter Parser ShellSpec Shell ShellText ShellProofs ShellSafe ShellMarks PropsSynth.
Import ListNotations.
Local Open Scope list_scope.

Local Arguments isOut : simpl never.

(** What XCOMPLETEINIT answers for the characters [p] if the specification is realizable:
    FAILASSUMPTIONS if no position with these values is permitted by ENV_INIT;
    FAILGUARANTEES and a position that ENV_INIT permits if none is permitted by SYS_INIT as
    well; FORCEDNONWINNING if none of them is winning; a winning initial position otherwise.
    Values that ENV_INIT and the given values leave no choice for are marked a/A, those that
    SYS_INIT leaves no choice for in addition g/G, and those left by the winning positions
    s/S. *)
Definition initReplyR (c : ctx) (p : list ascii) (r : reply) : Prop :=
  let P1 s := fits (shellVars c) p s /\ g_initE (game_of c) s = true in
  let P2 s := P1 s /\ g_initS (game_of c) s = true in
  let P3 s := P2 s /\ winning (game_of c) s in
  let A := ("a"%char, "A"%char, P1) in
  match r with
  | RFailAssumptions => ~ exists s, P1 s
  | RFailGuarantees l None => ~ (exists s, P2 s) /\ exists s, P1 s /\ marked (shellVars c) [A] s l
  | RForced => (exists s, P2 s) /\ ~ exists s, P3 s
  | RMarks l None => exists s, P3 s /\ marked (shellVars c) [A; ("g"%char, "G"%char, P2); ("s"%char, "S"%char, P3)] s l
  | _ => False
  end.

(** The same if the specification is unrealizable: first the positions that are winning for
    the environment are selected, and then those that are permitted by SYS_INIT.  The exception
    is that FAILGUARANTEES instead of FORCEDNONWINNING is printed if no value is given. *)
Definition initReplyU (c : ctx) (p : list ascii) (r : reply) : Prop :=
  let P1 s := fits (shellVars c) p s /\ g_initE (game_of c) s = true in
  let P2 s := P1 s /\ ~ winning (game_of c) s in
  let P3 s := P2 s /\ g_initS (game_of c) s = true in
  let A := ("a"%char, "A"%char, P1) in
  let B := ("s"%char, "S"%char, P2) in
  let noValue := forall a, In a p -> a <> "0"%char /\ a <> "1"%char in
  match r with
  | RFailAssumptions => ~ exists s, P1 s
  | RFailGuarantees l None =>
      (noValue /\ ~ (exists s, P2 s) /\ exists s, P1 s /\ marked (shellVars c) [A] s l) \/
      (~ (exists s, P3 s) /\ exists s, P2 s /\ marked (shellVars c) [A; B] s l)
  | RForced => ~ noValue /\ (exists s, P1 s) /\ ~ exists s, P2 s
  | RMarks l None => exists s, P3 s /\ marked (shellVars c) [A; B; ("g"%char, "G"%char, P3)] s l
  | _ => False
  end.

Ltac levels H := repeat (apply Forall2_cons; [split; [reflexivity|intros ?; cbn [snd]; H]|]); apply Forall2_nil.

Lemma complete_init alg c t p : wf c -> startShell alg c = Some t -> length p = length (shellVars c) ->
  exists r, completeInit c t (givens (map (fun k => 2 * k) (shellVars c)) p btrue) = Next r /\
    if t_realizable t then initReplyR c p r else initReplyU c p r.
Proof.
  intros Hwf ES HL. destruct (start_cases alg c t Hwf ES) as (HW & HR & HU). pose proof (wf_kinds c Hwf) as Hk.
  pose proof (wf_initSys c Hwf) as DS.
  unfold completeInit. rewrite preShell by auto. set (vars := map (fun k => 2 * k) (shellVars c)). set (forced := givens vars p btrue).
  assert (LV : forall l, initLevel c p l = fold_left band l (band (initEnv c) forced)) by reflexivity.
  pose proof (LV []) as L0. cbn [fold_left] in L0. rewrite <- L0.
  assert (EX : forall l, Forall (dep (isPreV c)) l -> isFalse (initLevel c p l) = false <-> exists s, atLevel c p (initEnv c :: l) s).
  { intros l Hl. rewrite (isFalse_pos c) by now apply dep_initLevel.
    split; intros (s & Hs); exists s; now apply (pos_initLevel c p HL l s). }
  assert (NX : forall l, Forall (dep (isPreV c)) l -> isFalse (initLevel c p l) = true -> ~ exists s, atLevel c p (initEnv c :: l) s).
  { intros l Hl E H. apply EX in H; auto. congruence. }
  assert (FI : forall ls l, proper (levelsFor c p ls) -> Forall (dep (isPreV c)) l -> Forall (fun e => exists l', l = snd e ++ l') ls ->
    isFalse (initLevel c p l) = false -> exists out f s, fill (initLevel c p l) vars (map (letter (levelsFor c p ls)) vars) = Next (out, f) /\
      atLevel c p (initEnv c :: l) s /\ marked (shellVars c) (levelsOf c p ls) s out).
  { intros. now apply fill_level. }
  assert (PR : forall ls, Forall (fun e : ascii * ascii * list BF => fst (fst e) <> "."%char /\ snd (fst e) <> "."%char) ls -> proper (levelsFor c p ls)).
  { intros ls H. unfold proper, levelsFor. apply Forall_map. exact H. }
  assert (A1 : forall s, atLevel c p [initEnv c] s <-> fits (shellVars c) p s /\ g_initE (game_of c) s = true).
  { intros s. unfold atLevel. cbn [g_initE game_of]. split; intros [H1 H2]; split; auto. now inversion H2. }
  assert (A2 : forall f s, atLevel c p [initEnv c; f] s <-> (fits (shellVars c) p s /\ g_initE (game_of c) s = true) /\ pos f s = true).
  { intros f s. unfold atLevel. cbn [g_initE game_of]. split.
    - intros [H1 H2]. inversion H2 as [|x y H3 H4]; subst. inversion H4; subst. auto.
    - intros [[H1 H2] H3]. auto. }
  assert (A3 : forall f g s, atLevel c p [initEnv c; f; g] s <-> ((fits (shellVars c) p s /\ g_initE (game_of c) s = true) /\ pos f s = true) /\ pos g s = true).
  { intros f g s. unfold atLevel. cbn [g_initE game_of]. split.
    - intros [H1 H2]. inversion H2 as [|x y H3 H4]; subst. inversion H4 as [|x y H5 H6]; subst. inversion H6; subst. auto.
    - intros [[[H1 H2] H3] H4]. auto 6. }
  pose proof (PR [("a"%char, "A"%char, [])] ltac:(repeat constructor; discriminate)) as P1.
  rewrite noMarks_letter, (mark_letter []) by constructor. rewrite app_nil_l.
  change [("a"%char, "A"%char, initLevel c p [])] with (levelsFor c p [("a"%char, "A"%char, [])]).
  destruct (isFalse (initLevel c p [])) eqn:E1.
  { exists RFailAssumptions. split; auto. apply NX in E1; [|constructor].
    destruct (t_realizable t); cbn; intros (s & Hs); apply E1; exists s; now apply A1. }
  assert (EA : exists s, fits (shellVars c) p s /\ g_initE (game_of c) s = true).
  { apply EX in E1; [|constructor]. destruct E1 as (s & Hs). exists s. now apply A1. }
  destruct (t_realizable t) eqn:ER.
  - destruct (HR eq_refl) as [_ HWin]. clear HR HU. cbn [orb].
    change (band (initLevel c p []) (initSys c)) with (initLevel c p [initSys c]).
    pose proof (PR [("a"%char, "A"%char, []); ("g"%char, "G"%char, [initSys c])] ltac:(repeat constructor; discriminate)) as P2.
    destruct (isFalse (initLevel c p [initSys c])) eqn:E2.
    { destruct (FI [("a"%char, "A"%char, [])] [] P1 ltac:(auto) ltac:(repeat constructor; cbn; eauto) E1) as (out & f & s & E & H1 & H2).
      unfold forced, vars in *. rewrite E. exists (RFailGuarantees out None). split; [reflexivity|]. cbn. split.
      - apply NX in E2; auto. intros (s' & Hs). apply E2. exists s'. now apply A2.
      - exists s. split; [now apply A1|]. eapply marked_ext; [|exact H2]. levels ltac:(apply A1). }
    change (levelsFor c p [("a"%char, "A"%char, [])]) with (levelsFor c p [("a"%char, "A"%char, [])]).
    rewrite markR_letter by auto. change (levelsFor c p [("a"%char, "A"%char, [])] ++ [("g"%char, "G"%char, initLevel c p [initSys c])])
      with (levelsFor c p [("a"%char, "A"%char, []); ("g"%char, "G"%char, [initSys c])]).
    change (band (initLevel c p [initSys c]) (t_winning t)) with (initLevel c p [initSys c; t_winning t]).
    assert (EB : exists s, (fits (shellVars c) p s /\ g_initE (game_of c) s = true) /\ g_initS (game_of c) s = true).
    { apply EX in E2; auto. destruct E2 as (s & Hs). exists s. now apply A2. }
    destruct (isFalse (initLevel c p [initSys c; t_winning t])) eqn:E3.
    { exists RForced. split; [reflexivity|]. cbn. split; auto. apply NX in E3; auto. intros (s & Hs & Hw). apply E3. exists s. apply A3.
      split; auto. now apply HWin. }
    rewrite mark_letter by auto. set (ls := [("a"%char, "A"%char, []); ("g"%char, "G"%char, [initSys c]); ("s"%char, "S"%char, [initSys c; t_winning t])]).
    change (levelsFor c p [("a"%char, "A"%char, []); ("g"%char, "G"%char, [initSys c])] ++ [("s"%char, "S"%char, initLevel c p [initSys c; t_winning t])])
      with (levelsFor c p ls).
    destruct (FI ls [initSys c; t_winning t] (PR ls ltac:(repeat constructor; discriminate)) ltac:(auto)
      ltac:(repeat constructor; cbn; eauto using app_nil_r) E3) as (out & f & s & E & H1 & H2).
    unfold forced, vars in *. rewrite E. exists (RMarks out None). split; [reflexivity|]. cbn. exists s. split.
    + apply A3 in H1. split; [tauto|]. apply HWin. tauto.
    + eapply marked_ext; [|exact H2]. levels ltac:(first [apply A1|apply (A2 (initSys c))|rewrite A3, HWin; reflexivity]).
  - destruct (HU eq_refl) as [_ HWin]. clear HR HU. cbn [orb].
    change (band (initLevel c p []) (t_winning t)) with (initLevel c p [t_winning t]).
    pose proof (PR [("a"%char, "A"%char, []); ("s"%char, "S"%char, [t_winning t])] ltac:(repeat constructor; discriminate)) as P2.
    assert (B2 : forall s, atLevel c p [initEnv c; t_winning t] s <-> (fits (shellVars c) p s /\ g_initE (game_of c) s = true) /\ ~ winning (game_of c) s).
    { intros s. rewrite A2, HWin. tauto. }
    assert (B3 : forall s, atLevel c p [initEnv c; t_winning t; initSys c] s <-> ((fits (shellVars c) p s /\ g_initE (game_of c) s = true) /\ ~ winning (game_of c) s) /\ g_initS (game_of c) s = true).
    { intros s. rewrite A3, HWin. tauto. }
    destruct (isFalse (initLevel c p [t_winning t])) eqn:E2.
    { apply NX in E2; auto. assert (E2' : ~ exists s, (fits (shellVars c) p s /\ g_initE (game_of c) s = true) /\ ~ winning (game_of c) s).
      { intros (s & Hs). apply E2. exists s. now apply B2. }
      destruct (isTrue forced) eqn:ET.
      - destruct (FI [("a"%char, "A"%char, [])] [] P1 ltac:(auto) ltac:(repeat constructor; cbn; eauto) E1) as (out & f & s & E & H1 & H2).
        unfold forced, vars in *. pose proof (proj1 (isTrue_givens c p HL) ET) as ET1. rewrite E. exists (RFailGuarantees out None). split; [reflexivity|]. cbn. left. split; auto. split; auto.
        exists s. split; [now apply A1|]. eapply marked_ext; [|exact H2]. levels ltac:(apply A1).
      - exists RForced. split; [reflexivity|]. cbn. split; auto. intros H. pose proof (proj2 (isTrue_givens c p HL) H) as H0. unfold forced, vars in ET. congruence. }
    rewrite markR_letter by auto. change (levelsFor c p [("a"%char, "A"%char, [])] ++ [("s"%char, "S"%char, initLevel c p [t_winning t])])
      with (levelsFor c p [("a"%char, "A"%char, []); ("s"%char, "S"%char, [t_winning t])]).
    change (band (initLevel c p [t_winning t]) (initSys c)) with (initLevel c p [t_winning t; initSys c]).
    destruct (isFalse (initLevel c p [t_winning t; initSys c])) eqn:E3.
    { set (ls := [("a"%char, "A"%char, []); ("s"%char, "S"%char, [t_winning t])]) in *.
      destruct (FI ls [t_winning t] P2 ltac:(auto) ltac:(repeat constructor; cbn; eauto using app_nil_r) E2) as (out & f & s & E & H1 & H2).
      unfold forced, vars in *. rewrite E. exists (RFailGuarantees out None). split; [reflexivity|]. cbn. right. split.
      - apply NX in E3; auto. intros (s' & Hs). apply E3. exists s'. now apply B3.
      - exists s. split; [now apply B2|]. eapply marked_ext; [|exact H2]. levels ltac:(first [apply A1|apply B2]). }
    rewrite mark_letter by auto. set (ls := [("a"%char, "A"%char, []); ("s"%char, "S"%char, [t_winning t]); ("g"%char, "G"%char, [t_winning t; initSys c])]).
    change (levelsFor c p [("a"%char, "A"%char, []); ("s"%char, "S"%char, [t_winning t])] ++ [("g"%char, "G"%char, initLevel c p [t_winning t; initSys c])])
      with (levelsFor c p ls).
    destruct (FI ls [t_winning t; initSys c] (PR ls ltac:(repeat constructor; discriminate)) ltac:(auto)
      ltac:(repeat constructor; cbn; eauto using app_nil_r) E3) as (out & f & s & E & H1 & H2).
    unfold forced, vars in *. rewrite E. exists (RMarks out None). split; [reflexivity|]. cbn. exists s. split; [now apply B3|].
    eapply marked_ext; [|exact H2]. levels ltac:(first [apply A1|apply B2|apply B3]).
Qed.

(** The text of the command. *)
Definition completeText (p : list ascii) (rest : string) : string :=
  ("XCOMPLETEINIT" ++ newline ++ charsText p ++ newline ++ rest)%string.

Lemma complete_session alg rand c t p : wf c -> startShell alg c = Some t ->
  length p = length (shellVars c) -> Forall (fun a => isspace a = false) p ->
  forall sh i rest, before (completeText p rest) i -> exists r i', before rest i' /\
    sess rand c t sh i = (r :: fst (sess rand c t sh i'), snd (sess rand c t sh i')) /\
    if t_realizable t then initReplyR c p r else initReplyU c p r.
Proof.
  intros Hwf ES HL HP sh i rest Hi. destruct (complete_init alg c t p Hwf ES HL) as (r & E & HR).
  exists r, (mkStream (newline ++ rest)%string false false). split; [constructor|]. split; auto.
  rewrite sess_eq. rewrite (sess_command rand c t sh _ i "XCOMPLETEINIT"%string (charsText p ++ newline ++ rest)%string Hi);
    [|reflexivity|reflexivity|discriminate].
  change (toUpper (trim "XCOMPLETEINIT")) with "XCOMPLETEINIT"%string. rewrite exec_completeInit.
  rewrite preShell by apply (wf_kinds c Hwf). rewrite readBits_chars by (rewrite ?map_length; auto). cbn [obind fst snd]. now rewrite E.
Qed.

(** For realizable specifications the reply is the right one, for all characters, at any time
    in a session; the command changes nothing. *)
Theorem C45_realizable : forall alg rand c t p, wf c -> realizable (game_of c) -> startShell alg c = Some t ->
  length p = length (shellVars c) -> Forall (fun a => isspace a = false) p ->
  forall sh i rest, before (completeText p rest) i -> exists r i', before rest i' /\
    sess rand c t sh i = (r :: fst (sess rand c t sh i'), snd (sess rand c t sh i')) /\ initReplyR c p r.
Proof.
  intros alg rand c t p Hwf HR ES HL HP sh i rest Hi.
  destruct (complete_session alg rand c t p Hwf ES HL HP sh i rest Hi) as (r & i' & H1 & H2 & H3).
  exists r, i'. split; auto. split; auto. destruct (t_realizable t) eqn:E; auto.
  destruct (start_cases alg c t Hwf ES) as (_ & _ & H). now elim (proj1 (H E)).
Qed.
Print Assumptions C45_realizable.

(** For unrealizable ones, which positions count as winning changes, and the order of the tests. *)
Theorem C45_unrealizable_partial : forall alg rand c t p, wf c -> ~ realizable (game_of c) -> startShell alg c = Some t ->
  length p = length (shellVars c) -> Forall (fun a => isspace a = false) p ->
  forall sh i rest, before (completeText p rest) i -> exists r i', before rest i' /\
    sess rand c t sh i = (r :: fst (sess rand c t sh i'), snd (sess rand c t sh i')) /\ initReplyU c p r.
Proof.
  intros alg rand c t p Hwf HR ES HL HP sh i rest Hi.
  destruct (complete_session alg rand c t p Hwf ES HL HP sh i rest Hi) as (r & i' & H1 & H2 & H3).
  exists r, i'. split; auto. split; auto. destruct (t_realizable t) eqn:E; auto.
  destruct (start_cases alg c t Hwf ES) as (_ & H & _). now elim (HR (proj1 (H E))).
Qed.
Print Assumptions C45_unrealizable_partial.

(** b keeps its value and has to be true infinitely often: it must be chosen at the
    beginning. *)
Definition exKeep : ctx := mkCtx exNames exTypes [btrue] [bvar 2] btrue btrue btrue (bnot (bxor (bvar 2) (bvar 3))).
Lemma exKeep_wf : wf exKeep.
Proof.
  constructor; cbn [varTypes livenessAssumptions livenessGuarantees initEnv initSys safetyEnv safetySys exKeep];
    [exists [PreInput; PreOutput]; split; reflexivity| | | | |repeat constructor; dep_ex|repeat constructor; dep_ex|discriminate|discriminate]; dep_ex.
Qed.
(** All kinds of replies.  In the first specification a is false by ENV_INIT and b by
    SYS_INIT. *)
Example C45_example :
  (wf exR /\ realizable (game_of exR) /\
   interactive Basic (fun _ => false) exR
     (completeText [".";"."]%char (completeText ["1";"."]%char (completeText [".";"1"]%char EmptyString))) =
     Some ([RMarks ["a";"g"]%char None; RFailAssumptions; RFailGuarantees ["a";"A"]%char None], Exits)) /\
  (wf exKeep /\ realizable (game_of exKeep) /\
   interactive Basic (fun _ => false) exKeep
     (completeText [".";"."]%char (completeText [".";"0"]%char (completeText ["1";"1"]%char EmptyString))) =
     Some ([RMarks ["0";"S"]%char None; RForced; RMarks ["A";"A"]%char None], Exits)).
Proof.
  split; (split; [first [exact exR_wf|exact exKeep_wf]|]; split; [|vm_compute; reflexivity]).
  - destruct (check_cases exR exR_wf) as [[_ H]|[C _]]; auto. vm_compute in C. discriminate.
  - destruct (check_cases exKeep exKeep_wf) as [[_ H]|[C _]]; auto. vm_compute in C. discriminate.
Qed.

(** a keeps its value and has to be true infinitely often. *)
Definition exKeepIn (initS : BF) : ctx := mkCtx exNames exTypes [btrue] [bvar 0] btrue initS (bnot (bxor (bvar 0) (bvar 1))) btrue.
Lemma exKeepIn_wf initS : dep (isPreV (exKeepIn initS)) initS -> wf (exKeepIn initS).
Proof.
  intros D. constructor; cbn [varTypes livenessAssumptions livenessGuarantees initEnv initSys safetyEnv safetySys exKeepIn];
    [exists [PreInput; PreOutput]; split; reflexivity| | | | |repeat constructor; dep_ex|repeat constructor; dep_ex|discriminate|discriminate]; auto; dep_ex.
Qed.
Example C45_unrealizable_example :
  (wf (exKeepIn btrue) /\ ~ realizable (game_of (exKeepIn btrue)) /\
   interactive Basic (fun _ => false) (exKeepIn btrue)
     (completeText [".";"."]%char (completeText ["1";"."]%char (completeText ["0";"1"]%char EmptyString))) =
     Some ([RMarks ["s";"0"]%char None; RForced; RMarks ["a";"A"]%char None], Exits)) /\
  (wf (exKeepIn (bvar 0)) /\ ~ realizable (game_of (exKeepIn (bvar 0))) /\
   interactive Basic (fun _ => false) (exKeepIn (bvar 0)) (completeText [".";"."]%char EmptyString) =
     Some ([RFailGuarantees ["s";"0"]%char None], Exits)).
Proof.
  assert (W1 : wf (exKeepIn btrue)) by (apply exKeepIn_wf; dep_ex).
  assert (W2 : wf (exKeepIn (bvar 0))) by (apply exKeepIn_wf; dep_ex).
  split; (split; [assumption|]; split; [|vm_compute; reflexivity]).
  - intros (f & Hf). destruct (check_cases _ W1) as [[C _]|[_ H]]; [vm_compute in C; discriminate|].
    destruct (H f) as (x & Hx). now apply Hx.
  - intros (f & Hf). destruct (check_cases _ W2) as [[C _]|[_ H]]; [vm_compute in C; discriminate|].
    destruct (H f) as (x & Hx). now apply Hx.
Qed.

(** Full statement: FAILGUARANTEES is the answer only if no position with the given values is
    permitted by ENV_INIT and SYS_INIT.  It does not hold for unrealizable specifications: if
    the environment wins because SYS_INIT forbids some of its inputs, then for no given values
    FAILGUARANTEES is printed with a position that both ENV_INIT and SYS_INIT permit. *)
Definition exStart : ctx := mkCtx exNames exTypes [btrue] [btrue] btrue (bnot (bvar 0)) btrue btrue.
Lemma exStart_wf : wf exStart.
Proof.
  constructor; cbn [varTypes livenessAssumptions livenessGuarantees initEnv initSys safetyEnv safetySys exStart];
    [exists [PreInput; PreOutput]; split; reflexivity| | | | |repeat constructor; dep_ex|repeat constructor; dep_ex|discriminate|discriminate]; dep_ex.
Qed.
Theorem C45_refuted : exists c p l, wf c /\ ~ realizable (game_of c) /\
  interactive Basic (fun _ => false) c (completeText p EmptyString) = Some ([RFailGuarantees l None], Exits) /\
  exists s, fits (shellVars c) p s /\ g_initE (game_of c) s = true /\ g_initS (game_of c) s = true /\
    map s (shellVars c) = [false; false] /\ l = ["0";"0"]%char.
Proof.
  exists exStart, [".";"."]%char, ["0";"0"]%char. split; [exact exStart_wf|]. split.
  { intros (f & Hf). destruct (check_cases _ exStart_wf) as [[C _]|[_ H]]; [vm_compute in C; discriminate|].
    destruct (H f) as (x & Hx). now apply Hx. }
  split; [vm_compute; reflexivity|]. exists (fun _ => false). split; [|vm_compute; auto].
  repeat constructor; discriminate.
Qed.
Print Assumptions C45_refuted.
