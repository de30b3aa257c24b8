(** * C91: the report about a specification *)

From Coq Require Import String Ascii List Bool Arith NArith ZArith Lia.
From Verif Require Import BDD VarTypes Synth FormulaSpec Parser Spec FileSpec Execute Sem FixBase ParserProofs FileProofs PropsParser
  Structured StructFile Stuck StuckProofs ResilientSpec ResilientProofs AnalyzeSpec Analyze AnalyzeProofs PropsAnalyze Decoder ReportSpec Report ReportProofs.
Import ListNotations.
Local Open Scope list_scope.

(** In the sections 5 and 5b of the report, the positions counted as winning are exactly the ones from which the
    system can satisfy its safety guarantees and make the environment violate an assumption, in the game of the
    specification that the report is about.  Variables are numbered as if all inputs were declared first. *)
Theorem C91_falsification : forall ord text L fs,
  layout None (file_lines text) = Some L -> NoDup (declared L) -> formulas_of false (inputsFirst L) fs ->
  let g := file_game (inputsFirst L) fs in
  exists text', falsificationFile text = Ret text' /\ (exists c, initContext ord text' = POk c) /\
  forall restrict c lim, initLimits ord text' = POk (c, lim) ->
    varNames c = declared (inputsFirst L) /\
    exists an, analyze restrict c lim = Some an /\
    let shows (x : option N) (P : state -> Prop) :=
      exists n, x = Some n /\ numberOf (seq 0 (nvars c)) (fun s => (pos lim s = true /\ (restrict = true -> reach g s)) /\ P s) n in
    shows (nofWPos (an_counts an)) (canFalsify g) /\
    shows (nofWPosA (an_counts an)) (fun s => g_initE g s = true /\ canFalsify g s) /\
    shows (nofWPosG (an_counts an)) (fun s => g_initS g s = true /\ canFalsify g s) /\
    shows (nofWPosAG (an_counts an)) (fun s => g_initE g s = true /\ g_initS g s = true /\ canFalsify g s).
Proof.
  intros ord text L fs HL ND HF g. destruct (new_file text L HL) as (text' & E & El). exists text'. split; [exact E|].
  split; [now apply (new_accepted L fs ND HF)|]. intros restrict c lim EL. destruct (C31_file ord text' c lim EL) as (EC & Hwf & Dl & _).
  pose proof (new_winning L fs ND HF ord text' c El EC) as W.
  assert (INI : varNames c = declared (inputsFirst L) /\ (forall s, g_initE (game_of c) s = g_initE g s) /\ (forall s, g_initS (game_of c) s = g_initS g s) /\
    (forall s t, g_safeE (game_of c) s t = g_safeE g s t) /\ (forall s t, g_safeS (game_of c) s t = g_safeS g s t)).
  { destruct (new_game L fs ND HF ord text' c El EC) as (bs & -> & SF). split; [apply new_names|].
    repeat split; intros; cbn [game_of g_initE g_initS g_safeE g_safeS g file_game finalContext initEnv initSys safetyEnv safetySys];
      [apply (bandAll_holds _ _ _ (SF SEnvInit eq_refl))|apply (bandAll_holds _ _ _ (SF SSysInit eq_refl))|apply (bandAll_holds _ _ _ (SF SEnvTrans eq_refl))|apply (bandAll_holds _ _ _ (SF SSysTrans eq_refl))]. }
  destruct INI as (EN & I1 & I2 & I3 & I4). split; [exact EN|].
  assert (R : forall s, reach (game_of c) s <-> reach g s).
  { intros s. split; induction 1 as [s A B|s t A IH B C].
    - apply reach_init; [now rewrite <- I1|now rewrite <- I2].
    - apply (reach_step _ s); [exact IH|now rewrite <- I3|now rewrite <- I4].
    - apply reach_init; [now rewrite I1|now rewrite I2].
    - apply (reach_step _ s); [exact IH|now rewrite I3|now rewrite I4]. }
  destruct (C31_positions restrict c lim Hwf Dl) as (an & EA & H). cbv zeta in H. exists an. split; [exact EA|]. cbv zeta.
  destruct H as (_ & _ & _ & _ & H1 & H2 & H3 & H4).
  assert (EXT : forall x (P Q : state -> Prop), (forall s, P s <-> Q s) -> (exists n, x = Some n /\ numberOf (seq 0 (nvars c)) (fun s => considered restrict c lim s /\ P s) n) ->
     exists n, x = Some n /\ numberOf (seq 0 (nvars c)) (fun s => (pos lim s = true /\ (restrict = true -> reach g s)) /\ Q s) n).
  { intros x P Q PQ (n & X & (l & Y1 & Y2 & Y3)). exists n. split; auto. exists l. repeat split; auto; try (apply Y3; assumption); try (apply Y3 in H; unfold considered in H; rewrite R, PQ in H; tauto).
    intros (B1 & B2 & B3). apply Y3. unfold considered. rewrite R, PQ. tauto. }
  refine (conj _ (conj _ (conj _ _))); [eapply EXT; [|exact H1]|eapply EXT; [|exact H2]|eapply EXT; [|exact H3]|eapply EXT; [|exact H4]]; intros s; cbv beta; rewrite ?I1, ?I2, ?W; tauto.
Qed.
Print Assumptions C91_falsification.

(** Such positions are winning in the specification itself. *)
Theorem C91_winning : forall g s, canFalsify g s -> winning g s.
Proof.
  intros g s (f & W). exists f. intros x. destruct (W x) as [W1 W2]. split; [exact W1|]. intros HE HA. elim W2. split; [exact HE|exact HA].
Qed.
Print Assumptions C91_winning.

(** The system can force [a] to be false for ever only where [a] is false and [b] is true: one of four positions. *)
Definition reportFile : string :=
  ("[OUTPUT]" ++ nl ++ "b" ++ nl ++ "[INPUT]" ++ nl ++ "a" ++ nl ++ "[ENV_TRANS]" ++ nl ++ "| ! b ! a'" ++ nl ++
   "[SYS_TRANS]" ++ nl ++ "| ! a ! b'" ++ nl ++ "# always" ++ nl ++ "[ENV_LIVENESS]" ++ nl ++ "a" ++ nl ++ "[SYS_LIVENESS]" ++ nl ++ "b" ++ nl)%string.
Definition reportL : items := [(SOutput, "b"); (SInput, "a"); (SEnvTrans, "| ! b ! a'"); (SSysTrans, "| ! a ! b'"); (SEnvLive, "a"); (SSysLive, "b")]%string.
Definition reportFs (s : section) : list fml :=
  match s with
  | SEnvTrans => [FOr (FNot (FVar 2)) (FNot (FVar 1))]
  | SSysTrans => [FOr (FNot (FVar 0)) (FNot (FVar 3))]
  | SEnvLive => [FVar 0]
  | SSysLive => [FVar 2]
  | _ => []
  end.
Example C91_example : match falsificationFile reportFile with
  | Ret text' => match initLimits exOrd text' with
    | POk (c, lim) => match analyze false c lim with Some an => (varNames c, nofPos (an_counts an), nofWPos (an_counts an)) | None => ([], None, None) end
    | _ => ([], None, None)
    end
  | _ => ([], None, None)
  end = (["a"; "a'"; "b"; "b'"]%string, Some 4%N, Some 1%N) /\
  layout None (file_lines reportFile) = Some reportL /\ NoDup (declared reportL) /\ formulas_of false (inputsFirst reportL) reportFs.
Proof.
  split; [vm_compute; reflexivity|]. split; [vm_compute; reflexivity|]. split; [repeat constructor; cbn; intuition discriminate|].
  intros [] Hs; try discriminate Hs; vm_compute linesOf; cbn [reportFs]; repeat (constructor; [|constructor]); try constructor; try (split; reflexivity).
  - apply (g_or _ _ _ _ _ _ ["!"; "b"]%string ["!"; "a'"]%string); apply g_not; (apply g_var; [reflexivity|split; reflexivity]).
  - apply (g_or _ _ _ _ _ _ ["!"; "a"]%string ["!"; "b'"]%string); apply g_not; (apply g_var; [reflexivity|split; reflexivity]).
Qed.

(** ** The text of the specification in the report *)

(** A browser shows the specification in the report unchanged, up to a marker line if there is one, without the blank
    lines at its beginning and end (and with no white space in blank lines; a blank may follow). No part of the
    specification is taken for a tag. *)
Theorem C91_shown : forall text, exists lead core trail rest pad,
  textLines text (lead ++ core ++ trail ++ rest) /\  Forall blankLine lead /\ Forall blankLine trail /\ Forall (fun l => strip l <> endMarker) core /\  (rest = [] \/ exists m r, rest = m :: r /\ strip m = endMarker) /\
  (core = [] \/ (exists l c, core = l :: c /\ ~ blankLine l) /\ exists c l, core = c ++ [l] /\ ~ blankLine l) /\
  (pad = ""%string \/ pad = " "%string) /\
  ~ In "<"%char (list_ascii_of_string (shownSpecification text)) /\ ~ In ">"%char (list_ascii_of_string (shownSpecification text)) /\
  ((Z.of_nat (length lead) <= 10000)%Z -> htmlShown (shownSpecification text) = (String.concat "" (map shownLine core) ++ pad)%string).
Proof.
  intros text. pose proof (lines_text text) as T. unfold shownSpecification. set (ls := readlinesKeep text) in *.
  assert (A : ~ In "<"%char (list_ascii_of_string (showSpec (-10000) false ls)) /\ ~ In ">"%char (list_ascii_of_string (showSpec (-10000) false ls))).
  { pose proof (show_angles ls (-10000) false) as X. unfold angles in X. tauto. }
  destruct (show_lead ls (-10000) false) as (lead & ls' & E & B1 & B2 & B3).
  destruct (show_spec ls' 0 false ltac:(lia)) as (core & trail & rest & pad & E' & A2 & A3 & A4 & A5 & A6 & A7).
  exists lead, core, trail, rest, pad. rewrite <- E', <- E. refine (conj T (conj B1 (conj A2 (conj A4 (conj A3 (conj _ (conj A6 (conj (proj1 A) (conj (proj2 A) _))))))))).
  - destruct core as [|k core]; [now left|]. right. split; [|destruct A5 as [A5|A5]; [discriminate|exact A5]].
    destruct B2 as [->|(l & r & -> & NB)]; [discriminate E'|]. injection E' as -> _. exists k, core. auto.
  - intros H. rewrite B3. assert (X : showSpec (-10000 + Z.of_nat (length lead)) false ls' = showSpec 0 false ls').
    { destruct B2 as [->|(l & r & -> & NB)]; [reflexivity|]. apply show_none; [lia|exact NB]. }
    rewrite X, A7. destruct core as [|k core]; reflexivity.
Qed.
Print Assumptions C91_shown.

Example C91_shown_example : shownSpecification (nl ++ "[INPUT]" ++ nl ++ "x:0...7" ++ nl ++ " " ++ nl ++ "[SYS_TRANS]" ++ nl ++ "x' < 3 & x > 1" ++ nl ++ nl ++ endMarker ++ nl ++ "x' = x")
  = ("[INPUT]" ++ nl ++ "x:0...7" ++ nl ++ nl ++ "[SYS_TRANS]" ++ nl ++ "x' &lt; 3 &amp; x &gt; 1" ++ nl)%string.
Proof. vm_compute. reflexivity. Qed.
