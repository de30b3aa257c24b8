(** * Reading specifications of robots with uncertain motion *)

From Coq Require Import String Ascii Arith NArith List Bool Lia.
From Verif Require Import BDD Loop Spec VarTypes Synth Sem FixBase Parser ParserProofs Motion MotionProofs.
Import ListNotations.
Local Open Scope string_scope.

(** Reading a BDD file gives a function of the given variables. *)
Definition honest (readBDD : string -> list nat -> option BF) : Prop :=
  forall file vars b, readBDD file vars = Some b -> dep (fun v => In v vars) b.

Section REC.
  Variable names : list string.
  Variable types allowed : list VariableType.
  Variable bdds : bddMap.
  Variable ord : nat -> bool.
  Local Notation prec := (parseRecEx names types allowed bdds ord).

  Lemma parseRecEx_eq fuel mem s : prec (S fuel) mem s =
    let '(op, s1) := readToken s in
    if String.eqb op "" then PErr PrematureEnd
    else if String.eqb op "|" then binF ord (prec fuel) mem s1 bor
    else if String.eqb op "^" then binF ord (prec fuel) mem s1 bxor
    else if String.eqb op "&" then binF ord (prec fuel) mem s1 band
    else if String.eqb op "!" then
      pbind (prec fuel mem s1) (fun '(v, s2) => pbind (op1 bnot v) (fun v => POk (v, s2)))
    else if String.eqb op "1" then POk (Some btrue, s1)
    else if String.eqb op "0" then POk (Some bfalse, s1)
    else if String.eqb op "$" then
      match readUnsigned s1 with
      | None => PErr ExpectedBufferSize
      | Some (n, s2) => elemsF (prec fuel) n (S (String.length s2)) n [] s2
      end
    else if String.eqb op "?" then
      match readUnsigned s1 with
      | None => PErr ExpectedRecallNumber
      | Some (k, s2) => if (msize mem <=? k)%N then PErr RecallNotStored else POk (recall mem k, s2)
      end
    else match findBDD bdds op with
         | Some b => POk (Some b, s1)
         | None =>
             match findVar names 0 op with
             | None => PErr NotFound
             | Some i =>
                 if existsb (vt_eqb (nth i types NoneVariableType)) allowed then POk (Some (bvar i), s1)
                 else PErr NotAllowed
             end
         end.
  Proof. reflexivity. Qed.

  (** What may occur in a formula: permitted variables and the variables of named BDDs. *)
  Variable P : nat -> Prop.
  Hypothesis HV : forall i, i < length names -> In (nth i types NoneVariableType) allowed -> P i.
  Hypothesis HB : Forall (fun nb => dep P (snd nb)) bdds.
  Definition depP (v : option BF) : Prop := match v with Some b => dep P b | None => True end.

  Lemma findBDD_in m w b : findBDD m w = Some b -> exists n, In (n, b) m.
  Proof.
    induction m as [|[n b'] m IH]; cbn [findBDD]; [discriminate|]. destruct (String.eqb n w); [intros E; injection E as ->; exists n; now left|].
    intros E. destruct (IH E) as (n' & H). exists n'. now right.
  Qed.
  Lemma recall_depP n vals k : Forall depP vals -> depP (recall (mkMem n vals) k).
  Proof.
    intros H. unfold recall. cbn. rewrite nthN_spec. destruct (nth_error vals _) as [v|] eqn:E; [|exact I].
    apply nth_error_In in E. rewrite Forall_forall in H. auto.
  Qed.
  Lemma elems_depP Q n :
    (forall mem s v r, Forall depP (mvals mem) -> Q mem s = POk (v, r) -> depP v) ->
    forall k left vals s v r, Forall depP vals -> elemsF Q n k left vals s = POk (v, r) -> depP v.
  Proof.
    intros HP. induction k as [|k IH]; intros left vals s v r Hv; cbn [elemsF]; destruct (left =? 0)%N.
    - destruct (n =? 0)%N; [discriminate|]. intros E. injection E as <- <-. now apply recall_depP.
    - discriminate.
    - destruct (n =? 0)%N; [discriminate|]. intros E. injection E as <- <-. now apply recall_depP.
    - destruct (Q (mkMem n vals) s) as [[v' s']|e| |] eqn:EP; cbn; try discriminate.
      apply IH. apply Forall_app. split; auto. constructor; auto. eapply HP; [|exact EP]. exact Hv.
  Qed.

  Lemma parseRecEx_dep fuel : forall mem s v r, Forall depP (mvals mem) -> prec fuel mem s = POk (v, r) -> depP v.
  Proof.
    induction fuel as [|fuel IH]; intros mem s v r Hm; [discriminate|].
    rewrite parseRecEx_eq. destruct (readToken s) as [op s1].
    destruct (String.eqb op ""); [discriminate|].
    assert (Hbin : forall f, (forall a b, dep P a -> dep P b -> dep P (f a b)) ->
       binF ord (prec fuel) mem s1 f = POk (v, r) -> depP v).
    { intros f Hf. unfold binF. destruct (prec fuel mem s1) as [[v1 s2]|e| |] eqn:E1; cbn; try discriminate.
      destruct (prec fuel mem s2) as [[v2 s3]|e| |] eqn:E2; cbn; try discriminate.
      apply IH in E1; auto. apply IH in E2; auto.
      destruct (ord _), v1, v2; cbn; try discriminate; intros E; injection E as <- <-; cbn; auto. }
    destruct (String.eqb op "|"); [apply Hbin; intros; now apply dep_or|].
    destruct (String.eqb op "^"); [apply Hbin; intros; now apply dep_xor|].
    destruct (String.eqb op "&"); [apply Hbin; intros; now apply dep_and|].
    destruct (String.eqb op "!").
    { destruct (prec fuel mem s1) as [[v1 s2]|e| |] eqn:E1; cbn; try discriminate.
      apply IH in E1; auto. destruct v1; cbn; try discriminate; intros E; injection E as <- <-.
      cbn. now apply dep_not. }
    destruct (String.eqb op "1"); [intros E; injection E as <- <-; apply dep_true|].
    destruct (String.eqb op "0"); [intros E; injection E as <- <-; apply dep_false|].
    destruct (String.eqb op "$").
    { destruct (readUnsigned s1) as [[n s2]|]; [|discriminate]. apply (elems_depP (prec fuel) n); auto. }
    destruct (String.eqb op "?").
    { destruct (readUnsigned s1) as [[n s2]|]; [|discriminate].
      destruct (_ <=? n)%N; [discriminate|]. intros E; injection E as <- <-. destruct mem. now apply recall_depP. }
    destruct (findBDD bdds op) as [b|] eqn:FB.
    { intros E; injection E as <- <-. apply findBDD_in in FB. destruct FB as (n & H). rewrite Forall_forall in HB. exact (HB _ H). }
    destruct (findVar names 0 op) as [i|] eqn:F; [|discriminate].
    destruct (existsb _ _) eqn:X; [|discriminate]. intros E; injection E as <- <-.
    cbn. apply dep_var, HV.
    - apply findVar_0 in F. destruct F as [F _]. apply nth_error_Some. congruence.
    - now apply ParserProofs.allowed_spec.
  Qed.

  Lemma parseRecEx_fuel fuel : forall mem s, String.length s < fuel -> consumes s (prec fuel mem s).
  Proof.
    induction fuel as [|fuel IH]; intros mem s Hf; [lia|].
    rewrite parseRecEx_eq. destruct (readToken s) as [op s1] eqn:T.
    destruct (String.eqb_spec op "") as [->|Hop]; [exact I|].
    pose proof (readToken_length s op s1 T Hop) as L.
    assert (Hbin : forall f, consumes s (binF ord (prec fuel) mem s1 f)).
    { intros f. unfold binF. pose proof (IH mem s1 ltac:(lia)) as H1.
      destruct (prec fuel mem s1) as [[v1 s2]|e| |]; cbn in *; auto.
      pose proof (IH mem s2 ltac:(lia)) as H2.
      destruct (prec fuel mem s2) as [[v2 s3]|e| |]; cbn in *; auto.
      destruct (ord _); destruct v1, v2; cbn; auto; lia. }
    destruct (String.eqb op "|"); [apply Hbin|].
    destruct (String.eqb op "^"); [apply Hbin|].
    destruct (String.eqb op "&"); [apply Hbin|].
    destruct (String.eqb op "!").
    { pose proof (IH mem s1 ltac:(lia)) as H1.
      destruct (prec fuel mem s1) as [[v1 s2]|e| |]; cbn in *; auto. destruct v1; cbn; auto. lia. }
    destruct (String.eqb op "1"); [cbn; lia|].
    destruct (String.eqb op "0"); [cbn; lia|].
    destruct (String.eqb op "$").
    { destruct (readUnsigned s1) as [[n s2]|] eqn:U; [|exact I]. apply readUnsigned_length in U.
      pose proof (elems_fuel (prec fuel) n fuel IH (S (String.length s2)) n [] s2 ltac:(lia) ltac:(lia)) as E.
      destruct (elemsF _ _ _ _ _ _) as [[v s']|e| |]; cbn; auto. lia. }
    destruct (String.eqb op "?").
    { destruct (readUnsigned s1) as [[n s2]|] eqn:U; [|exact I]. apply readUnsigned_length in U.
      destruct (_ <=? n)%N; cbn; auto. lia. }
    destruct (findBDD bdds op); cbn; auto. destruct (findVar names 0 op); cbn; auto. destruct (existsb _ _); cbn; auto.
  Qed.
End REC.

(** Without named BDDs, formulas are those of ordinary input files. *)
Lemma parseRecEx_nil names types allowed ord fuel : forall mem s,
  parseRecEx names types allowed [] ord fuel mem s = parseRec names types allowed ord fuel mem s.
Proof.
  induction fuel as [|fuel IH]; intros mem s; [reflexivity|].
  rewrite parseRecEx_eq, (parseRec_eq names types). cbn [findBDD]. destruct (readToken s) as [op s1].
  assert (Hbin : forall f, binF ord (parseRecEx names types allowed [] ord fuel) mem s1 f = binF ord (parseRec names types allowed ord fuel) mem s1 f).
  { intros f. unfold binF. rewrite IH. destruct (parseRec names types allowed ord fuel mem s1) as [[v1 s2]|e| |]; cbn [pbind]; rewrite ?IH; reflexivity. }
  rewrite !Hbin, IH. destruct (readUnsigned s1) as [[n s2]|]; [|reflexivity]. now rewrite (elemsF_ext _ _ n IH).
Qed.

Definition motKind' (t : VariableType) : bool := motKind t || vt_eqb t PreOtherOutput.

Section FILE.
  Variable ord : nat -> bool.
  Variable readBDD : string -> list nat -> option BF.
  Hypothesis Hread : honest readBDD.

  Definition anyCtx (c : ctx) : Prop :=
    (exists kinds, varTypes c = typesOf kinds /\ forallb motKind' kinds = true) /\ length (varNames c) = length (varTypes c) /\
    dep (isAnyV c) (initEnv c) /\ dep (isAnyV c) (initSys c) /\ dep (isAnyV c) (safetyEnv c) /\ dep (isAnyV c) (safetySys c) /\
    Forall (dep (isAnyV c)) (livenessAssumptions c) /\ Forall (dep (isAnyV c)) (livenessGuarantees c).
  Definition InvM (st : modeM * ctx * bddMap) : Prop :=
    let '(_, c, bs) := st in anyCtx c /\ Forall (fun nb => dep (isAnyV c) (snd nb)) bs.

  Lemma formulaEx_dep c bs al line b : length (varNames c) = length (varTypes c) -> Forall (fun nb => dep (isAnyV c) (snd nb)) bs ->
    formulaEx ord c bs al line = inl b -> dep (isAnyV c) b.
  Proof.
    intros HL HB. unfold formulaEx, parseFormulaEx. destruct (parseRecEx _ _ _ _ _ _ _ _) as [[v r]|e| |] eqn:E; cbn; try discriminate.
    destruct (String.eqb _ _); cbn; try discriminate. destruct v as [b'|]; cbn; try discriminate. intros X. injection X as <-.
    eapply (parseRecEx_dep _ _ _ _ _ (isAnyV c)) in E; [exact E| |exact HB|constructor].
    intros i Hi _. unfold isAnyV. now rewrite <- HL.
  Qed.

  Lemma isAny_addVars c t t' l v : isAnyV c v -> isAnyV (addVars c t t' l) v.
  Proof. unfold isAnyV, addVars. cbn. rewrite app_length. lia. Qed.

  Lemma motKind'_pre kinds : forallb motKind' kinds = true -> forallb isPreKind kinds = true.
  Proof. rewrite !forallb_forall. intros H t Ht. specialize (H t Ht). now destruct t. Qed.

  Lemma in_exactly c t v : In v (exactly c t) -> isAnyV c v.
  Proof. unfold exactly. rewrite <- in_rev, filter_In, in_seq. unfold isAnyV. lia. Qed.

  Lemma addVars_inv c bs t l m : motKind' t = true -> anyCtx c -> Forall (fun nb => dep (isAnyV c) (snd nb)) bs -> InvM (m, addVars c t (postOf t) l, bs).
  Proof.
    intros Ht ((kinds & E & F) & HL & D1 & D2 & D3 & D4 & D5 & D6) HB.
    assert (W : forall f, dep (isAnyV c) f -> dep (isAnyV (addVars c t (postOf t) l)) f) by (intros f; apply dep_weaken; intros v; apply isAny_addVars).
    split; [split; [|split; [|split; [|split; [|split; [|split; [|split]]]]]]|].
    - exists (kinds ++ [t])%list. split; [cbn; rewrite E; unfold typesOf; now rewrite flat_map_app|]. rewrite forallb_app, F. cbn. now rewrite Ht.
    - cbn. rewrite !app_length, HL. reflexivity.
    - apply W, D1.
    - apply W, D2.
    - apply W, D3.
    - apply W, D4.
    - eapply Forall_impl; [|exact D5]. auto.
    - eapply Forall_impl; [|exact D6]. auto.
    - eapply Forall_impl; [|exact HB]. cbv beta. auto.
  Qed.

  Lemma processLineM_inv st line st' : InvM st -> processLineM ord readBDD st line = inl st' -> InvM st'.
  Proof.
    destruct st as [[m c] bs]. intros [HC HB]. unfold processLineM. destruct (trim line) as [|a l] eqn:ET; [intros E; injection E as <-; now split|].
    set (ln := String a l). destruct (a =? "#")%char; [intros E; injection E as <-; now split|].
    destruct (a =? "[")%char; [destruct (categoryM ln); [intros E; injection E as <-; now split|discriminate]|].
    assert (HL : length (varNames c) = length (varTypes c)) by apply HC.
    assert (FF : forall al (k : BF -> ctx) m', (forall b, dep (isAnyV c) b -> anyCtx (k b) /\ varTypes (k b) = varTypes c) ->
      mbind (formulaEx ord c bs al ln) (fun b => inl (m', k b, bs)) = inl st' -> InvM st').
    { intros al k m' HK E. destruct (formulaEx ord c bs al ln) as [b|] eqn:EF; cbn in E; [|discriminate]. injection E as <-.
      apply formulaEx_dep in EF; auto. destruct (HK b EF) as [H1 H2]. split; auto.
      eapply Forall_impl; [|exact HB]. cbv beta. intros nb. apply dep_weaken. intros v. unfold isAnyV. now rewrite H2. }
    destruct HC as ((kinds & EK & F) & _ & D1 & D2 & D3 & D4 & D5 & D6).
    assert (AC : forall iE iS sE sS lA lG, dep (isAnyV c) iE -> dep (isAnyV c) iS -> dep (isAnyV c) sE -> dep (isAnyV c) sS ->
      Forall (dep (isAnyV c)) lA -> Forall (dep (isAnyV c)) lG ->
      anyCtx (mkCtx (varNames c) (varTypes c) lA lG iE iS sE sS) /\ varTypes (mkCtx (varNames c) (varTypes c) lA lG iE iS sE sS) = varTypes c).
    { intros. split; [|reflexivity]. split; [exists kinds; auto|]. split; [exact HL|]. repeat (split; [assumption|]). assumption. }
    assert (HC : anyCtx c).
    { split; [exists kinds; auto|]. split; [exact HL|]. repeat (split; [assumption|]). assumption. }
    destruct m as [[]| | | |].
    - discriminate.
    - intros E; injection E as <-. change PostInput with (postOf PreInput). now apply addVars_inv.
    - discriminate.
    - apply FF. intros b Hb. apply AC; auto. now apply dep_and.
    - apply FF. intros b Hb. apply AC; auto. now apply dep_and.
    - apply FF. intros b Hb. apply AC; auto. now apply dep_and.
    - apply FF. intros b Hb. apply AC; auto. now apply dep_and.
    - apply FF. intros b Hb. apply AC; auto. apply Forall_app. auto.
    - apply FF. intros b Hb. apply AC; auto. apply Forall_app. auto.
    - intros E; injection E as <-. change PostMotionState with (postOf PreMotionState). now apply addVars_inv.
    - intros E; injection E as <-. change PostMotionControlOutput with (postOf PreMotionControlOutput). now apply addVars_inv.
    - intros E; injection E as <-. change PostOtherOutput with (postOf PreOtherOutput). now apply addVars_inv.
    - destruct (splitSpace ln) as [[n file]|]; [|discriminate]. destruct (readBDD file _) as [b|] eqn:ER; [|discriminate].
      destruct (findBDD bs n); [discriminate|]. intros E. injection E as <-. split; auto.
      assert (Db : dep (isAnyV c) b) by (eapply dep_weaken; [|exact (Hread _ _ _ ER)]; intros v; apply in_exactly).
      constructor; [|constructor; auto]. cbn [snd]. apply dep_swapPrePost; auto. exists kinds. split; auto. now apply motKind'_pre.
  Qed.

  Lemma processLinesM_inv lines : forall st st', InvM st -> processLinesM ord readBDD st lines = inl st' -> InvM st'.
  Proof.
    induction lines as [|l lines IH]; intros st st' H; cbn [processLinesM]; [intros E; injection E as <-; auto|].
    destruct (processLineM ord readBDD st l) as [st1|] eqn:E1; cbn [mbind]; [|discriminate]. apply IH. eapply processLineM_inv; eauto.
  Qed.

  Lemma readM_accepted content robotFile c robot : readM ord readBDD content robotFile = inl (c, robot) -> anyCtx c /\ dep (isAnyV c) robot.
  Proof.
    unfold readM. destruct (processLinesM ord readBDD _ _) as [[[m c'] bs]|] eqn:E; cbn [mbind]; [|discriminate].
    destruct (readBDD robotFile (robotVars c')) as [r|] eqn:ER; [|discriminate]. intros X. injection X as -> ->.
    apply processLinesM_inv in E.
    - destruct E as [H _]. split; auto. eapply dep_weaken; [|exact (Hread _ _ _ ER)]. intros v. unfold robotVars. rewrite !in_app_iff.
      intros [H'|[H'|H']]; now apply in_exactly in H'.
    - split; [|constructor]. split; [now exists []|]. split; [reflexivity|]. unfold emptyCtx; cbn. repeat split; try apply dep_true; constructor.
  Qed.

  (** The robot's behaviour depends on the current and next motion state and the next controls only. *)
  Lemma readM_wf content robotFile c robot : readM ord readBDD content robotFile = inl (c, robot) ->
    ~ In PreOtherOutput (varTypes c) -> dep (isPreInV c) (initEnv c) -> dep (isPreV c) (initSys c) -> dep (isPrePostInV c) (safetyEnv c) -> wfM c robot.
  Proof.
    intros E NO H1 H2 H3. apply readM_accepted in E. destruct E as [((kinds & EK & F) & _ & _ & _ & _ & D4 & D5 & D6) DR].
    constructor; auto. exists kinds. split; auto. rewrite forallb_forall in *. intros t Ht. specialize (F t Ht). unfold motKind' in F.
    apply orb_true_iff in F. destruct F as [F|F]; auto. exfalso. apply NO. rewrite EK. unfold typesOf. apply in_flat_map.
    exists t. split; auto. left. apply vt_eqb_eq. exact F.
  Qed.

  (** The reader never runs out of steps. *)
  Lemma formulaEx_fuel c bs al line : formulaEx ord c bs al line <> inr MOutOfFuel.
  Proof.
    unfold formulaEx, parseFormulaEx. pose proof (parseRecEx_fuel (varNames c) (varTypes c) al bs ord (S (String.length line)) (mkMem 0 []) line ltac:(lia)) as H.
    destruct (parseRecEx _ _ _ _ _ _ _ _) as [[v r]|e| |]; cbn; try discriminate; [|destruct H].
    destruct (String.eqb _ _); cbn; try discriminate. destruct v; discriminate.
  Qed.
  Lemma readM_fuel content robotFile : readM ord readBDD content robotFile <> inr MOutOfFuel.
  Proof.
    unfold readM. assert (G : forall lines st, processLinesM ord readBDD st lines <> inr MOutOfFuel).
    { induction lines as [|l lines IH]; intros st; cbn [processLinesM]; [discriminate|].
      assert (X : processLineM ord readBDD st l <> inr MOutOfFuel).
      { destruct st as [[m c] bs]. unfold processLineM. destruct (trim l) as [|a s]; [discriminate|]. destruct (a =? "#")%char; [discriminate|].
        destruct (a =? "[")%char; [destruct (categoryM _); discriminate|].
        destruct m as [[]| | | |]; try discriminate;
          try (match goal with |- mbind (formulaEx ord c bs ?al ?x) _ <> _ => pose proof (formulaEx_fuel c bs al x); destruct (formulaEx ord c bs al x); cbn; [discriminate|congruence] end).
        destruct (splitSpace _) as [[n f]|]; [|discriminate]. destruct (readBDD f _); [|discriminate]. destruct (findBDD bs n); discriminate. }
      destruct (processLineM ord readBDD st l); cbn [mbind]; [apply IH|congruence]. }
    specialize (G (getlines content) (GMode MNone, emptyCtx, [])). destruct (processLinesM _ _ _ _) as [[[m c] bs]|]; cbn [mbind]; [|congruence].
    destruct (readBDD robotFile _); discriminate.
  Qed.
End FILE.
