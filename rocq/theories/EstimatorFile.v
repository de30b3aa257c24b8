(** * Estimators: reading the file *)

From Coq Require Import String Ascii Arith NArith List Bool Lia.
From Verif Require Import BDD Loop Spec VarTypes Synth Sem FormulaSpec Parser ParserProofs FileSpec FileProofs Explicit OutputProofs
  SymbolicProofs FastSlowFile EstimatorSpec Estimator EstimatorProofs EstimatorText.
Import ListNotations.
Local Open Scope string_scope.

Definition ordTy (t : VariableType) : VariableType :=
  match t with
  | ObservablePre | ControllablePre | UnobservablePre => PreInput
  | ObservablePost | ControllablePost | UnobservablePost => PostInput
  | EstimationPre => PreOutput
  | EstimationPost => PostOutput
  | t => t
  end.
Definition ordCtx (c : ctx) : ctx :=
  mkCtx (varNames c) (map ordTy (varTypes c)) (livenessAssumptions c) (livenessGuarantees c) (initEnv c) (initSys c) (safetyEnv c) (safetySys c).
Definition ordMode (m : modeE) : mode := match m with EMode m => m | EObservable | EUnobservable | EControllable => MInput end.
Definition ordSt (st : modeE * ctx) : mode * ctx := (ordMode (fst st), ordCtx (snd st)).
Definition eTy (t : VariableType) : bool :=
  match t with ObservablePre | ObservablePost | ControllablePre | ControllablePost | UnobservablePre | UnobservablePost
             | EstimationPre | EstimationPost => true | _ => false end.
Definition eMode (m : modeE) : bool := match m with EMode MInput | EMode MEnvLive | EMode MSysLive => false | _ => true end.
Definition excluded (l : string) : bool := existsb (String.eqb l) excludedHeaders.

Section SIM.
  Variable ord : nat -> bool.

  Lemma formula_ord c a a' line : forallb eTy (varTypes c) = true ->
    (forall t, eTy t = true -> existsb (vt_eqb (ordTy t)) a' = existsb (vt_eqb t) a) ->
    existsb (vt_eqb NoneVariableType) a' = existsb (vt_eqb NoneVariableType) a ->
    formula ord (ordCtx c) a' line = formula ord c a line.
  Proof.
    intros F HA HN. unfold formula, ordCtx. cbn [varNames varTypes].
    rewrite (parse_ext (varNames c) (map ordTy (varTypes c)) (varTypes c) a' a ord); auto.
    intros i. destruct (Nat.lt_ge_cases i (length (varTypes c))) as [L|L].
    - change NoneVariableType with (ordTy NoneVariableType) at 1. rewrite map_nth. apply HA.
      rewrite forallb_forall in F. apply F, nth_In, L.
    - rewrite !nth_overflow by (rewrite ?map_length; lia). exact HN.
  Qed.

  Lemma strip_ord l : strip (ordinaryLine l) = if existsb (String.eqb (strip l)) inputHeaders then "[INPUT]" else strip l.
  Proof. unfold ordinaryLine. destruct (existsb _ _); reflexivity. Qed.

  Lemma category_ord l : excluded l = false ->
    category (if existsb (String.eqb l) inputHeaders then "[INPUT]" else l) = option_map ordMode (categoryE l).
  Proof.
    unfold excluded, excludedHeaders, inputHeaders. cbn [existsb]. intros H. rewrite !orb_false_iff in H. destruct H as (H1 & H2 & H3 & _).
    unfold categoryE.
    destruct (String.eqb_spec l "[OBSERVABLE_INPUT]") as [->|N1]; [reflexivity|].
    destruct (String.eqb_spec l "[UNOBSERVABLE_INPUT]") as [->|N2]; [reflexivity|].
    destruct (String.eqb_spec l "[CONTROLLABLE_INPUT]") as [->|N3]; [reflexivity|]. cbn [orb].
    unfold category. rewrite H1, H2, H3.
    repeat match goal with |- context[String.eqb l ?x] => destruct (String.eqb l x); [reflexivity|] end. reflexivity.
  Qed.
  Lemma category_mode l m : categoryE l = Some m -> eMode m = true.
  Proof.
    unfold categoryE. intros E.
    repeat match type of E with context[String.eqb l ?x] => destruct (String.eqb l x); [injection E as <-; reflexivity|] end. discriminate.
  Qed.

  (** One line. *)
  Lemma line_ord m c l : forallb eTy (varTypes c) = true -> eMode m = true -> excluded (strip l) = false ->
    processLine ord (ordSt (m, c)) (ordinaryLine l) = pmap ordSt (processLineE ord (m, c) l) /\
    (forall m' c', processLineE ord (m, c) l = POk (m', c') -> forallb eTy (varTypes c') = true /\ eMode m' = true).
  Proof.
    intros F Hm Ho. unfold processLine, processLineE, ordSt. cbn [fst snd]. rewrite !trim_spec, strip_ord.
    pose proof (category_ord _ Ho) as EC.
    destruct (existsb (String.eqb (strip l)) inputHeaders) eqn:EO.
    { assert (X : In (strip l) inputHeaders) by (apply existsb_exists in EO; destruct EO as (x & I & E); apply String.eqb_eq in E; now rewrite E).
      cbn in X. destruct X as [<-|[<-|[<-|[]]]]; cbn; split; auto; intros m' c' E; injection E as <- <-; split; auto. }
    destruct (strip l) as [|a r] eqn:ES.
    { cbn. split; auto. intros m' c' E. injection E as <- <-. auto. }
    destruct (a =? "#")%char.
    { cbn. split; auto. intros m' c' E. injection E as <- <-. auto. }
    destruct (a =? "[")%char.
    { rewrite EC. split.
      - destruct (categoryE (String a r)) as [m'|]; reflexivity.
      - intros m' c'. destruct (categoryE (String a r)) as [m''|] eqn:E; [|discriminate]. intros X. injection X as <- <-.
        split; auto. now apply category_mode in E. }
    set (ln := String a r) in *.
    assert (Ext : forall tp tq, eTy tp = true -> eTy tq = true -> forallb eTy (varTypes (addVars c tp tq ln)) = true).
    { intros tp tq H1 H2. unfold addVars. cbn [varTypes]. rewrite forallb_app, F. cbn. now rewrite H1, H2. }
    assert (FS : forall a' a, (forall t, eTy t = true -> existsb (vt_eqb (ordTy t)) a' = existsb (vt_eqb t) a) ->
      existsb (vt_eqb NoneVariableType) a' = existsb (vt_eqb NoneVariableType) a ->
      formula ord (ordCtx c) a' ln = formula ord c a ln) by (intros; now apply formula_ord).
    destruct m as [m| | |].
    2,3,4: cbn [ordMode]; split; [unfold ordCtx, addVars; cbn; now rewrite map_app|]; intros m' c' E; injection E as <- <-; split; [now apply Ext|reflexivity].
    destruct m; cbn [ordMode]; try discriminate Hm.
    - split; auto. discriminate.
    - split; [unfold ordCtx, addVars; cbn; now rewrite map_app|]. intros m' c' E; injection E as <- <-; split; [now apply Ext|reflexivity].
    - rewrite (FS [PreInput] [ObservablePre; ControllablePre; UnobservablePre]) by (try (intros [] X; try discriminate X; reflexivity); reflexivity).
      destruct (formula ord c _ ln) as [b|e| |]; cbn; split; auto; try discriminate. intros m' c' E; injection E as <- <-. auto.
    - rewrite (FS [PreInput; PreOutput] [ObservablePre; ControllablePre; UnobservablePre; EstimationPre]) by (try (intros [] X; try discriminate X; reflexivity); reflexivity).
      destruct (formula ord c _ ln) as [b|e| |]; cbn; split; auto; try discriminate. intros m' c' E; injection E as <- <-. auto.
    - rewrite (FS [PreInput; PreOutput; PostInput] [ObservablePre; ControllablePre; UnobservablePre; EstimationPre; ObservablePost; UnobservablePost; ControllablePost])
        by (try (intros [] X; try discriminate X; reflexivity); reflexivity).
      destruct (formula ord c _ ln) as [b|e| |]; cbn; split; auto; try discriminate. intros m' c' E; injection E as <- <-. auto.
    - rewrite (FS [PreInput; PreOutput; PostInput; PostOutput]
                 [ObservablePre; ControllablePre; UnobservablePre; EstimationPre; ObservablePost; UnobservablePost; EstimationPost; ControllablePost])
        by (try (intros [] X; try discriminate X; reflexivity); reflexivity).
      destruct (formula ord c _ ln) as [b|e| |]; cbn; split; auto; try discriminate. intros m' c' E; injection E as <- <-. auto.
  Qed.

  Lemma lines_ord lines : forall m c, forallb eTy (varTypes c) = true -> eMode m = true ->
    (forall l, In l lines -> excluded (strip l) = false) ->
    processLines ord (ordSt (m, c)) (map ordinaryLine lines) = pmap ordSt (processLinesE ord (m, c) lines) /\
    (forall m' c', processLinesE ord (m, c) lines = POk (m', c') -> forallb eTy (varTypes c') = true).
  Proof.
    induction lines as [|l lines IH]; intros m c F Hm Ho.
    - cbn. split; auto. intros m' c' E. injection E as <- <-. auto.
    - cbn [map processLines processLinesE].
      destruct (line_ord m c l F Hm) as [E1 E2]; [apply Ho; now left|]. rewrite E1.
      destruct (processLineE ord (m, c) l) as [[m' c']|e| |]; cbn [pmap pbind]; split; auto; try discriminate;
        destruct (E2 m' c' eq_refl) as [F' Hm']; apply IH; auto; intros l' Hl'; apply Ho; now right.
  Qed.

  (** The default liveness properties. *)
  Definition withLive (c : ctx) : ctx :=
    mkCtx (varNames c) (varTypes c) (match livenessAssumptions c with [] => [btrue] | l => l end)
      (match livenessGuarantees c with [] => [btrue] | l => l end) (initEnv c) (initSys c) (safetyEnv c) (safetySys c).
  Lemma finish_ord c : finish (ordCtx c) = pmap (fun c => withLive (ordCtx c)) (finishE c).
  Proof. unfold finish, finishE, ordCtx. cbn. destruct (_ =? _)%nat; reflexivity. Qed.
  Lemma finishE_id c c' : finishE c = POk c' -> c' = c.
  Proof. unfold finishE. destruct (_ =? _)%nat; [|discriminate]. intros E. now injection E. Qed.

  Lemma ordinaryFile_lines content : file_lines (ordinaryFile content) = map ordinaryLine (file_lines content).
  Proof.
    replace (ordinaryFile content) with (unlines (map ordinaryLine (file_lines content))).
    - apply file_lines_unlines. pose proof (file_lines_noNl content) as H. induction H as [|l ls Hl H IH]; cbn [map]; constructor; auto.
      unfold ordinaryLine. destruct (existsb _ _); auto. intros a Ha. cbn in Ha. repeat destruct Ha as [<-|Ha]; try discriminate. destruct Ha.
    - unfold unlines, ordinaryFile, sconcat. now rewrite map_map.
  Qed.

  (** The whole file. *)
  Lemma init_ord content : (forall l, In l (file_lines content) -> excluded (strip l) = false) ->
    initContext ord (ordinaryFile content) = pmap (fun c => withLive (ordCtx c)) (initE ord content) /\
    (forall c, initE ord content = POk c -> forallb eTy (varTypes c) = true).
  Proof.
    intros Ho. unfold initContext, initE. rewrite !getlines_spec, ordinaryFile_lines.
    destruct (lines_ord (file_lines content) (EMode MNone) emptyCtx) as [E1 E2]; auto.
    change (ordSt (EMode MNone, emptyCtx)) with (MNone, emptyCtx) in E1. rewrite E1.
    destruct (processLinesE ord (EMode MNone, emptyCtx) (file_lines content)) as [[m c]|e| |]; cbn [pmap pbind ordSt fst snd]; split; auto; try discriminate.
    - apply finish_ord.
    - intros c' E. rewrite (finishE_id _ _ E). apply (E2 m c eq_refl).
  Qed.

  Lemma excluded_rejected lines : forall st, (exists l, In l lines /\ excluded (strip l) = true) -> forall st', processLinesE ord st lines <> POk st'.
  Proof.
    induction lines as [|l lines IH]; intros st (l0 & Hl & E) st'; [destruct Hl|]. cbn [processLinesE].
    destruct Hl as [->|Hl].
    - destruct st as [m c]. unfold processLineE. rewrite trim_spec.
      apply existsb_exists in E. destruct E as (x & I & E). apply String.eqb_eq in E. rewrite E.
      cbn in I. destruct I as [<-|[<-|[<-|[]]]]; cbn; discriminate.
    - destruct (processLineE ord st l) as [st1|e| |]; cbn [pbind]; try discriminate. apply IH. eauto.
  Qed.
  Lemma init_excluded content c : initE ord content = POk c -> forall l, In l (file_lines content) -> excluded (strip l) = false.
  Proof.
    intros E l Hl. destruct (excluded (strip l)) eqn:X; auto. exfalso. unfold initE in E. rewrite getlines_spec in E.
    destruct (processLinesE ord (EMode MNone, emptyCtx) (file_lines content)) as [st|e| |] eqn:P; try discriminate.
    apply (excluded_rejected (file_lines content) (EMode MNone, emptyCtx)) in P; eauto.
  Qed.

  (** ** Kinds *)
  Definition headerE (m : modeE) (sec : string) : Prop :=
    match m with
    | EObservable => sec = "[OBSERVABLE_INPUT]"
    | EUnobservable => sec = "[UNOBSERVABLE_INPUT]"
    | EControllable => sec = "[CONTROLLABLE_INPUT]"
    | EMode MOutput => sec = "[OUTPUT]"
    | _ => section_kind sec = None
    end.

  Lemma lines_kinds lines : forall m c kinds sec m' c', varTypes c = typesOf kinds -> forallb estKind kinds = true -> headerE m sec ->
    processLinesE ord (m, c) lines = POk (m', c') ->
    exists kinds', varTypes c' = typesOf kinds' /\ forallb estKind kinds' = true /\
      map kindOf kinds' = (map kindOf kinds ++ file_kinds sec lines)%list.
  Proof.
    induction lines as [|l lines IH]; intros m c kinds sec m' c' ET EK EH.
    - cbn. intros E. injection E as <- <-. exists kinds. now rewrite app_nil_r.
    - cbn [processLinesE file_kinds]. unfold processLineE at 1. rewrite trim_spec.
      destruct (strip l) as [|a r] eqn:ES; [cbn [pbind]; eauto|].
      destruct (a =? "#")%char; [cbn [pbind]; eauto|].
      destruct (a =? "[")%char.
      { destruct (categoryE (String a r)) as [m1|] eqn:EC; cbn [pbind]; [|discriminate]. apply IH; auto.
        unfold categoryE in EC. set (hd := String a r) in *.
        repeat match type of EC with (if String.eqb hd ?x then _ else _) = _ =>
          destruct (String.eqb_spec hd x) as [Eh|_]; [injection EC as <-; rewrite Eh; reflexivity|] end.
        discriminate. }
      set (ln := String a r) in *.
      assert (Add : forall m1 tp, estKind tp = true -> headerE m1 sec ->
        processLinesE ord (m1, addVars c tp (postOf tp) ln) lines = POk (m', c') ->
        exists kinds', varTypes c' = typesOf kinds' /\ forallb estKind kinds' = true /\
          map kindOf kinds' = (map kindOf kinds ++ kindOf tp :: file_kinds sec lines)%list).
      { intros m1 tp Hf Hh E. destruct (IH m1 (addVars c tp (postOf tp) ln) (kinds ++ [tp])%list sec m' c') as (ks & A & B & C); auto.
        - unfold addVars. cbn [varTypes]. rewrite ET. unfold typesOf. now rewrite flat_map_app.
        - rewrite forallb_app, EK. cbn. now rewrite Hf.
        - exists ks. split; auto. split; auto. rewrite C, map_app, <- app_assoc. reflexivity. }
      destruct m as [m| | |]; cbn [headerE] in EH.
      2:{ subst sec. apply (Add EObservable ObservablePre); reflexivity. }
      2:{ subst sec. apply (Add EUnobservable UnobservablePre); reflexivity. }
      2:{ subst sec. apply (Add EControllable ControllablePre); reflexivity. }
      destruct m; try discriminate.
      { subst sec. apply (Add (EMode MOutput) EstimationPre); reflexivity. }
      all: rewrite EH; destruct (formula ord c _ ln) as [b|e| |]; cbn [pbind]; try discriminate; apply IH; cbn; auto.
  Qed.

  Lemma init_kinds content c : initE ord content = POk c ->
    (exists kinds, varTypes c = typesOf kinds /\ forallb estKind kinds = true) /\
    forall k, d_kind (domain_of c) k = nth k (file_kinds "" (file_lines content)) Observable.
  Proof.
    unfold initE. rewrite getlines_spec.
    destruct (processLinesE ord (EMode MNone, emptyCtx) (file_lines content)) as [[m c0]|e| |] eqn:E; cbn [pbind]; try discriminate.
    intros F. destruct (lines_kinds (file_lines content) (EMode MNone) emptyCtx [] "" m c0 eq_refl eq_refl eq_refl E) as (kinds & A & B & C).
    rewrite (finishE_id _ _ F). split; [exists kinds; now rewrite A|].
    intros k. cbn [map app] in C. rewrite <- C. cbn [domain_of d_kind]. rewrite A, nth_typesOf_even.
    change Observable with (kindOf NoneVariableType). now rewrite map_nth.
  Qed.

  (** ** Accepted files are well-formed *)
  Lemma ord_isOut c k : forallb eTy (varTypes c) = true -> isOut (ordCtx c) k = isOut c k.
  Proof.
    intros F. unfold isOut, ordCtx. cbn [varTypes]. change NoneVariableType with (ordTy NoneVariableType) at 1. rewrite map_nth.
    destruct (Nat.lt_ge_cases (2 * k) (length (varTypes c))) as [L|L]; [|now rewrite nth_overflow by lia].
    rewrite forallb_forall in F. pose proof (F _ (nth_In _ NoneVariableType L)) as Hk.
    destruct (nth (2 * k) (varTypes c) NoneVariableType); try discriminate Hk; reflexivity.
  Qed.
  Lemma ord_wf c : forallb eTy (varTypes c) = true -> (exists kinds, varTypes c = typesOf kinds /\ forallb estKind kinds = true) ->
    wf (withLive (ordCtx c)) -> wfE c.
  Proof.
    intros F K W.
    assert (EO : forall k, isOut (withLive (ordCtx c)) k = isOut c k) by (intros; now apply (ord_isOut c)).
    assert (EL : length (varTypes (withLive (ordCtx c))) = length (varTypes c)) by apply map_length.
    destruct W as [W1 W2 W3 W4 W5 W6 W7 W8 W9]. constructor; auto.
    - eapply dep_weaken; [|exact W2]. intros v [[L E] O]. rewrite EL in L. rewrite EO in O. split; [split|]; auto.
    - eapply dep_weaken; [|exact W3]. intros v [L E]. rewrite EL in L. split; auto.
    - eapply dep_weaken; [|exact W4]. intros v [L E]. rewrite EL in L. rewrite EO in E. split; auto.
    - eapply dep_weaken; [|exact W5]. intros v L. unfold isAnyV in *. now rewrite EL in L.
  Qed.
End SIM.

(** ** Adding the printed text to a slugsin file *)
Lemma lines_snoc base rest : file_lines (base ++ nl ++ rest) = (file_lines (base ++ nl) ++ file_lines rest)%list.
Proof.
  induction base as [|a base IH].
  - cbn [append]. change (file_lines (nl ++ rest)) with (file_lines ("" ++ nl ++ rest)). rewrite file_lines_line by (intros ? []). reflexivity.
  - change (String a base ++ nl ++ rest) with (String a (base ++ nl ++ rest)). change (String a base ++ nl) with (String a (base ++ nl)).
    destruct (a =? "010")%char eqn:E; [now rewrite !file_lines_nl, IH by exact E|].
    rewrite !file_lines_chr by exact E.
    assert (N1 : exists x y, base ++ nl ++ rest = String x y) by (destruct base; do 2 eexists; reflexivity).
    assert (N2 : exists x y, base ++ nl = String x y) by (destruct base; do 2 eexists; reflexivity).
    destruct N1 as (x & y & N1), N2 as (x' & y' & N2). rewrite N1, N2 in *. rewrite IH.
    destruct (file_lines (String x' y')) as [|l ls] eqn:EF; [|reflexivity].
    exfalso. destruct (x' =? "010")%char eqn:E'; [rewrite file_lines_nl in EF by exact E'; discriminate|].
    rewrite file_lines_chr in EF by exact E'. destruct y'; [discriminate|]. destruct (file_lines _); discriminate.
Qed.
Lemma processLines_app ord l1 l2 : forall st, processLines ord st (l1 ++ l2) = pbind (processLines ord st l1) (fun st => processLines ord st l2).
Proof.
  induction l1 as [|l l1 IH]; intros st; [reflexivity|]. cbn [app processLines]. destruct (processLine ord st l); cbn [pbind]; auto.
Qed.
Definition withTrans (c : ctx) (env sys : BF) : ctx :=
  mkCtx (varNames c) (varTypes c) (livenessAssumptions c) (livenessGuarantees c) (initEnv c) (initSys c) (band (safetyEnv c) env) (band (safetySys c) sys).

Lemma add_text ord base c1 text sys env : initContext ord (base ++ nl) = POk c1 ->
  file_lines text = ["#======================================================="; "#= Belief Space Abstraction                            =";
    "#======================================================="; "# --- End of the specification for the report";
    "[SYS_TRANS]"; sys; "[ENV_TRANS]"; env] ->
  (exists r, sys = String "$" r) -> (exists r, env = String "$" r) -> forall bs be,
  parseFormula (varNames c1) (varTypes c1) [PreInput; PreOutput; PostInput; PostOutput] ord (strip sys) = POk (Some bs) ->
  parseFormula (varNames c1) (varTypes c1) [PreInput; PreOutput; PostInput] ord (strip env) = POk (Some be) ->
  initContext ord (base ++ nl ++ text) = POk (withTrans c1 be bs).
Proof.
  intros E1 EL (r1 & ->) (r2 & ->) bs be P1 P2. destruct (strip_dollar r1) as (r1' & S1). destruct (strip_dollar r2) as (r2' & S2).
  rewrite S1 in P1. rewrite S2 in P2.
  unfold initContext in *. rewrite getlines_spec in *. rewrite lines_snoc, EL, processLines_app.
  destruct (processLines ord (MNone, emptyCtx) (file_lines (base ++ nl))) as [[m c0]|e| |]; try discriminate. cbn [pbind] in *.
  unfold finish in E1. destruct (setSize (varNames c0) =? length (varNames c0))%nat eqn:EN; [|discriminate].
  assert (EQ : varNames c1 = varNames c0 /\ varTypes c1 = varTypes c0) by (injection E1 as <-; split; reflexivity).
  destruct EQ as [Q1 Q2]. rewrite Q1, Q2 in P1, P2.
  assert (X : forall st l ls, processLines ord st (l :: ls) = pbind (processLine ord st l) (fun st => processLines ord st ls)) by reflexivity.
  rewrite X. replace (processLine ord (m, c0) "#=======================================================") with (POk (m, c0)) by reflexivity. cbn [pbind].
  rewrite X. replace (processLine ord (m, c0) "#= Belief Space Abstraction                            =") with (POk (m, c0)) by reflexivity. cbn [pbind].
  rewrite X. replace (processLine ord (m, c0) "#=======================================================") with (POk (m, c0)) by reflexivity. cbn [pbind].
  rewrite X. replace (processLine ord (m, c0) "# --- End of the specification for the report") with (POk (m, c0)) by reflexivity. cbn [pbind].
  rewrite X. replace (processLine ord (m, c0) "[SYS_TRANS]") with (POk (MSysTrans, c0)) by reflexivity. cbn [pbind].
  rewrite X. unfold processLine at 1. rewrite trim_spec, S1. change ("$" =? "#")%char with false. change ("$" =? "[")%char with false. cbv iota.
  unfold formula at 1. rewrite P1. cbn [pbind].
  rewrite X. match goal with |- context[processLine ord (MSysTrans, ?c) "[ENV_TRANS]"] => change (processLine ord (MSysTrans, c) "[ENV_TRANS]") with (POk (MEnvTrans, c)) end. cbn [pbind].
  rewrite X. unfold processLine at 1. rewrite trim_spec, S2. change ("$" =? "#")%char with false. change ("$" =? "[")%char with false. cbv iota.
  unfold formula at 1. cbn [varNames varTypes]. rewrite P2. cbn [pbind]. cbn [processLines pbind].
  unfold finish. cbn [varNames]. rewrite EN. unfold withTrans. injection E1 as <-. reflexivity.
Qed.
