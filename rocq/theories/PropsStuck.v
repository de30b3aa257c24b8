(** * Property C83: constants for variables

    tools/analyzeStuckAtConstant.py: the report lists exactly the values to which the variable can be fixed
    without changing the verdict. *)

From Coq Require Import String Ascii List Bool Arith NArith ZArith Lia.
From Verif Require Import Synth FormulaSpec Parser Spec FileSpec Execute ParserProofs FileProofs OutputProofs StructuredProofs MonoProofs MinCoreProofs
  StructuredSpec Structured StructGrammar StructFileSpec StructFile StructGameProofs StructFileProofs StructDeclProofs StructLineProofs StructConvProofs StructMain PropsStructured PropsStructFile StuckSpec Stuck StuckProofs.
Import ListNotations.
Local Open Scope list_scope.

(** The sections for the constraints of a player. *)
Definition transOf (bySystem : bool) : section := if bySystem then SSysTrans else SEnvTrans.
Definition initOf (bySystem : bool) : section := if bySystem then SSysInit else SEnvInit.

(** No translation that the tool makes is longer than the greatest number that slugs reads. *)
Definition shortTranslations (content : string) (ds : list declaration) : Prop :=
  (forall out, performConversion true content = Ret out -> (N.of_nat (String.length out) < maxNumber)%N) /\
  (forall original bySystem d v out, readSlugsFile "" emptyDict (getlines content) = Ret original -> In d ds -> fits d v ->
    performConversion true (modifiedText original (header (transOf bySystem)) (header (initOf bySystem)) (lineFor true (nameOfDecl d) v) (lineFor false (nameOfDecl d) v)) = Ret out ->
    (N.of_nat (String.length out) < maxNumber)%N).

Lemma check_spec ord text r : checkRealizability ord text = Ret r -> exists out v, performConversion true text = Ret out /\ executeFile ord out = POk v /\ (r = true <-> v = Realizable) /\ (r = false <-> v = Unrealizable).
Proof.
  unfold checkRealizability. destruct (performConversion true text) as [out| |] eqn:E1; cbn [pybind]; try discriminate.
  destruct (executeFile ord out) as [v|e| |] eqn:E2; try discriminate. intros E. exists out, v. split; [reflexivity|]. split; [exact E2|]. destruct v; try discriminate E; apply (f_equal (fun q => match q with Ret b => b | _ => false end)) in E; cbv beta iota in E; subst r; intuition (try discriminate; try reflexivity).
Qed.

Section FILE.
  Variables (ord : nat -> bool) (text : string) (original : lineDict) (L : items) (ins outs : list declaration) (m : section -> list (position -> position -> bool)).
  Let ds := ins ++ outs.
  Hypothesis HR : readSlugsFile "" emptyDict (getlines text) = Ret original.
  Hypothesis HL : layout None (file_lines text) = Some L.
  Hypothesis HI : Forall2 declares (linesOf SInput L) ins.
  Hypothesis HO : Forall2 declares (linesOf SOutput L) outs.
  Hypothesis HT : forall d, In d ds -> isWordToken (nameOfDecl d) = true /\ ~ In (nameOfDecl d) keyWords /\ ~ occursIn "@" (nameOfDecl d).
  Hypothesis ND : NoDup (map nameOfDecl ds).
  Hypothesis HMin : forall x mn mx, In (DInt x mn mx) ds -> (0 <= mn)%Z.
  Hypothesis HB : forall s line, formulaSection s = true -> In (s, line) L -> blanksOnly line.
  Hypothesis HPl : plain_file L.
  Hypothesis HS : shortTranslations text ds.
  Hypothesis HM : forall s, formulaSection s = true -> Forall2 (line_means ins outs) (linesOf s L) (m s).

  Lemma original_spec : forall s, Forall tidy (original (header s)) /\ filter content (original (header s)) = linesOf s L /\ ~ In ""%string (original (header s)).
  Proof.
    intros s. rewrite getlines_spec in HR. destruct (readSlugs_spec (file_lines text) None emptyDict L original (FastSlowFile.file_lines_noNl _) HL HR) as (add & A1 & A2 & A3 & A4).
    rewrite A1. cbn [emptyDict app]. rewrite A3, keyLines_header. auto.
  Qed.
  Lemma tokens : forall x mn mx, In (DInt x mn mx) ds -> isWordToken x = true.
  Proof. intros x mn mx H. apply (HT _ H). Qed.

  Lemma plain_check r : checkRealizability ord text = Ret r -> (r = true <-> intRealizable ins outs m) /\ (r = false <-> intUnrealizable ins outs m).
  Proof.
    intros E. destruct (check_spec _ _ _ E) as (out & v & E1 & E2 & R1 & R2).
    destruct (C81_exact true ord text out v L ins outs m E1 HL HI HO tokens (integers_nodup ins outs ND) HB HPl (proj1 HS out E1) E2 HM) as [V1 V2]. tauto.
  Qed.

  Hypothesis HQ : forall d, In d ds -> noQuote (nameOfDecl d) = true.
  Lemma fixed_check bySystem A d B v r : ds = A ++ d :: B -> fits d v ->
    checkRealizability ord (modifiedText original (header (transOf bySystem)) (header (initOf bySystem)) (lineFor true (nameOfDecl d) v) (lineFor false (nameOfDecl d) v)) = Ret r ->
    (r = true <-> intRealizable ins outs (fixedGame bySystem (length A) v m)) /\ (r = false <-> intUnrealizable ins outs (fixedGame bySystem (length A) v m)).
  Proof.
    intros ED Fv E. assert (Hd : In d ds) by (rewrite ED; apply in_app_iff; right; now left). destruct (HT d Hd) as (T & _).
    destruct (check_spec _ _ _ E) as (out & w & E1 & E2 & R1 & R2).
    assert (HT' : forall d, In d (ins ++ outs) -> isWordToken (nameOfDecl d) = true /\ ~ In (nameOfDecl d) keyWords /\ ~ occursIn "@" (nameOfDecl d) /\ noQuote (nameOfDecl d) = true) by (intros e He; destruct (HT e He) as (? & ? & ?); auto).
    set (l := fun next => lineFor next (nameOfDecl d) v).
    destruct (new_line true (nameOfDecl d) v T) as (Tt & Ct & Bt & Pt), (new_line false (nameOfDecl d) v T) as (Ti & Ci & Bi & Pi).
    assert (MIN : forall x mn mx, d = DInt x mn mx -> (0 <= mn)%Z) by (intros x mn mx ->; eapply HMin; eauto).
    destruct (line_meaning ins outs HT' ND A d B ED true v Fv MIN) as (ct & Mt & St), (line_meaning ins outs HT' ND A d B ED false v Fv MIN) as (ci & Mi & Si).
    set (add := fun (s : section) => (if sec_eqb s (transOf bySystem) then [l true] else []) ++ (if sec_eqb s (initOf bySystem) then [l false] else [])).
    set (addM := fun (s : section) => (if sec_eqb s (transOf bySystem) then [ct] else []) ++ (if sec_eqb s (initOf bySystem) then [ci] else [])).
    set (d' := pushLine (pushLine original (header (transOf bySystem)) (l true)) (header (initOf bySystem)) (l false)).
    assert (ADD : forall s, d' (header s) = original (header s) ++ add s).
    { intros s. unfold d', pushLine, add. destruct bySystem, s; cbn; now rewrite ?app_nil_r. }
    assert (TA : forall s, Forall tidy (add s)) by (intros s; unfold add, l; destruct (sec_eqb s (transOf bySystem)), (sec_eqb s (initOf bySystem)); repeat constructor; apply Tt || apply Ti).
    assert (CA : forall s, filter content (add s) = add s).
    { intros s. unfold add, l. destruct (sec_eqb s (transOf bySystem)), (sec_eqb s (initOf bySystem)); cbn [app filter]; now rewrite ?Ct, ?Ci. }
    assert (TD : forall s, Forall tidy (d' (header s))) by (intros s; rewrite ADD; apply Forall_app; split; [apply original_spec|apply TA]).
    destruct (written_spec d') as (L' & HL' & LS).
    { intros s. eapply Forall_impl; [|apply TD]. exact tidy_ok. }
    assert (LN : forall s, linesOf s L' = linesOf s L ++ add s).
    { intros s. rewrite LS, map_strip_tidy by apply TD. rewrite ADD, filter_app, CA. f_equal. apply original_spec. }
    assert (AN : forall s, formulaSection s = false -> add s = []) by (intros s; unfold add; destruct bySystem, s; cbn; congruence).
    assert (INL : forall s line, In (s, line) L' -> In (s, line) L \/ line = l true \/ line = l false).
    { intros s line H. apply in_linesOf in H. rewrite LN in H. apply in_app_iff in H. destruct H as [H|H]; [left; now apply in_linesOf|right].
      unfold add in H. apply in_app_iff in H. destruct H as [H|H]; [destruct (sec_eqb s (transOf bySystem))|destruct (sec_eqb s (initOf bySystem))]; cbn in H; intuition. }
    destruct (C81_exact true ord (modifiedText original (header (transOf bySystem)) (header (initOf bySystem)) (l true) (l false)) out w L' ins outs (fun s => m s ++ addM s) E1) as [V1 V2].
    - exact HL'.
    - rewrite LN, (AN SInput eq_refl), app_nil_r. exact HI.
    - rewrite LN, (AN SOutput eq_refl), app_nil_r. exact HO.
    - exact tokens.
    - apply integers_nodup. exact ND.
    - intros s line Hs H. destruct (INL s line H) as [H'|[->| ->]]; [now apply (HB s)|exact Bt|exact Bi].
    - intros s line Hs H. destruct (INL s line H) as [H'|[->| ->]]; [now apply (HPl s)|exact Pt|exact Pi].
    - eapply (proj2 HS); eauto.
    - exact E2.
    - intros s Hs. rewrite LN. apply Forall2_app; [now apply HM|]. unfold add, addM. apply Forall2_app; [destruct (sec_eqb s (transOf bySystem))|destruct (sec_eqb s (initOf bySystem))]; repeat constructor; auto.
    - assert (EQ : forall s, formulaSection s = true -> Forall2 (sameMeaning ins outs) (m s ++ addM s) (fixedGame bySystem (length A) v m s)).
      { intros s Hs. assert (RF : forall cs, Forall2 (sameMeaning ins outs) cs cs) by (induction cs; constructor; auto; intros p q _ _; reflexivity).
        unfold addM, fixedGame. destruct s, bySystem; cbn [sec_eqb transOf initOf app]; rewrite ?app_nil_r; try apply RF; (apply Forall2_app; [apply RF|]); repeat constructor; assumption. }
      assert (EQ' : forall s, formulaSection s = true -> Forall2 (sameMeaning ins outs) (fixedGame bySystem (length A) v m s) (m s ++ addM s)) by (intros s Hs; apply same_sym; auto).
      split.
      + rewrite R1, V1. split; [now apply realizable_ext|now apply realizable_ext].
      + rewrite R2, V2. split; [now apply unrealizable_ext|now apply unrealizable_ext].
  Qed.
End FILE.

(** ** The report *)

Lemma F2_nth {A B} (R : A -> B -> Prop) l l' : Forall2 R l l' -> forall i b, nth_error l' i = Some b -> exists a, nth_error l i = Some a /\ R a b.
Proof. induction 1 as [|a b l l' H F IH]; intros [|i] c E; try discriminate; cbn in *; [injection E as <-; eauto|eauto]. Qed.

Theorem C83_report : forall ord content isRealizable report L ins outs m,
  analyzeStuckAtConstant ord content = Ret (isRealizable, report) ->
  layout None (file_lines content) = Some L ->
  Forall2 declares (linesOf SInput L) ins -> Forall2 declares (linesOf SOutput L) outs ->
  (forall d, In d (ins ++ outs) -> isWordToken (nameOfDecl d) = true /\ ~ In (nameOfDecl d) keyWords /\ ~ occursIn "@" (nameOfDecl d)) ->
  NoDup (map nameOfDecl (ins ++ outs)) ->
  (forall x mn mx, In (DInt x mn mx) (ins ++ outs) -> (0 <= mn)%Z) ->
  (forall s line, formulaSection s = true -> In (s, line) L -> blanksOnly line) ->
  plain_file L ->
  shortTranslations content (ins ++ outs) ->
  (forall s, formulaSection s = true -> Forall2 (line_means ins outs) (linesOf s L) (m s)) ->
  let variables := if isRealizable then outs else ins in
  let first := if isRealizable then length ins else 0 in
  (isRealizable = true <-> intRealizable ins outs m) /\ (isRealizable = false <-> intUnrealizable ins outs m) /\
  length report = length variables /\
  forall i d x good, nth_error variables i = Some d -> nth_error report i = Some (x, good) ->
    x = nameOfDecl d /\ exists vs, good = map showValue vs /\ forall v, In v vs <-> fits d v /\
      (if isRealizable then intRealizable ins outs (fixedGame true (first + i) v m) else intUnrealizable ins outs (fixedGame false (first + i) v m)).
Proof.
  intros ord content isReal report L ins outs m E HL HI HO HT ND HMin HB HPl HS HM variables first. unfold analyzeStuckAtConstant in E.
  destruct (readSlugsFile "" emptyDict (getlines content)) as [original| |] eqn:HR; cbn [pybind] in E; try discriminate.
  destruct (checkRealizability ord content) as [r| |] eqn:CK; cbn [pybind] in E; try discriminate.
  assert (TK : forall x mn mx, In (DInt x mn mx) (ins ++ outs) -> isWordToken x = true) by (intros x mn mx H; apply (HT _ H)).
  destruct (plain_check ord content L ins outs m HL HI HO HT ND HB HPl HS HM r CK) as [V1 V2].
  assert (HQ : forall d, In d (ins ++ outs) -> noQuote (nameOfDecl d) = true).
  { destruct (check_spec _ _ _ CK) as (out & v & E1 & _). destruct (conversion_file true content out L ins outs E1 HL HI HO TK (integers_nodup ins outs ND) HB HPl (proj1 HS out E1)) as (HG & _).
    rewrite Forall_forall in HG. intros d Hd. specialize (HG d Hd). destruct d; cbn in *; tauto. }
  set (sA := if r then SOutput else SInput).
  assert (AN : exists rep, analyzeLines ord original (header (transOf r)) (header (initOf r)) r (original (header sA)) = Ret rep /\ (isReal, report) = (r, rep)).
  { unfold sA. destruct r; cbn [transOf initOf header]; (destruct (analyzeLines ord original _ _ _ _) as [rep| |] eqn:X in E; cbn [pybind] in E; try discriminate E; exists rep; split; [exact X|now injection E as -> ->]). }
  destruct AN as (rep & AN & ER). injection ER as -> ->. split; [exact V1|]. split; [exact V2|].
  destruct (original_spec content original L HR HL sA) as (O1 & O2 & O3). apply analyzeLines_spec in AN; [|exact O1|exact O3]. rewrite O2 in AN.
  assert (HV : Forall2 declares (linesOf sA L) variables) by (unfold sA, variables; destruct r; assumption).
  split. { rewrite <- (F2_length _ _ _ AN). exact (F2_length _ _ _ HV). }
  intros i d x good Hd Hx. destruct (F2_nth _ _ _ AN i _ Hx) as (line & Hl & es & VL & TV). cbn [fst snd] in VL, TV.
  destruct (F2_nth _ _ _ HV i _ Hd) as (line' & Hl' & HD). rewrite Hl in Hl'. injection Hl' as <-.
  assert (TL : strip line = line).
  { apply nth_error_In in Hl. rewrite <- O2 in Hl. apply filter_In in Hl. rewrite Forall_forall in O1. now apply O1. }
  destruct (values_spec line x es d TL VL HD) as [-> ->]. split; [reflexivity|].
  destruct (testValues_spec _ _ _ _ _ _ _ _ TV) as (vs & -> & G1 & G2). exists vs. split; [reflexivity|].
  assert (SP : exists A B, ins ++ outs = A ++ d :: B /\ length A = first + i).
  { apply nth_error_split in Hd. destruct Hd as (A & B & EV & LA). unfold variables, first in *. destruct r.
    - exists (ins ++ A), B. rewrite EV, <- app_assoc, app_length, LA. auto.
    - exists A, (B ++ outs). rewrite EV, <- app_assoc. auto. }
  destruct SP as (A & B & ED & LA). rewrite <- LA. intros v.
  assert (KEY : fits d v -> (In v vs <-> (if r then intRealizable ins outs (fixedGame true (length A) v m) else intUnrealizable ins outs (fixedGame false (length A) v m)))).
  { intros Fv. destruct (G1 v (proj2 (valuesOf_spec d v) Fv)) as (r' & CK' & I). rewrite I.
    destruct (fixed_check ord content original L ins outs m HR HL HI HO HT ND HMin HB HPl HS HM HQ r A d B v r' ED Fv CK') as [F1 F2]. destruct r; [exact F1|exact F2]. }
  split.
  - intros Hv. assert (Fv : fits d v) by (apply valuesOf_spec; auto). split; [exact Fv|now apply KEY].
  - intros [Fv H]. now apply KEY.
Qed.

(** ** An example: if r holds, the system has to keep y above x and to set b. *)

Definition stuckText : string := String.concat (String "010" "")
  ["[INPUT]"; "x:1...2"; "r"; ""; "[OUTPUT]"; "y : 2...5"; "b"; "[SYS_TRANS]"; "# follow"; "y' > x' | ! r'"; "b' | ! r'"; "[SYS_LIVENESS]"; "y < 5"]%string.
Definition stuckIns : list declaration := [DInt "x" 1 2; DBool "r"].
Definition stuckOuts : list declaration := [DInt "y" 2 5; DBool "b"].
Definition stuckReport : list (string * list string) := [("y", ["3"; "4"]); ("b", ["True"])]%string.

Lemma stuckIns_ok L : layout None (file_lines stuckText) = Some L -> Forall2 declares (linesOf SInput L) stuckIns.
Proof.
  intros E. vm_compute in E. injection E as <-. vm_compute linesOf. constructor; [|constructor; [|constructor]].
  - apply (d_int _ "x" "1...2" "1" "2" 1 2); try reflexivity; try (cbn; intuition discriminate).
    + exists ""%string, "1"%string, 1%N. split; [reflexivity|]. split; [vm_compute; repeat split; discriminate|left; auto].
    + exists ""%string, "2"%string, 2%N. split; [reflexivity|]. split; [vm_compute; repeat split; discriminate|left; auto].
  - apply d_bool. cbn. intuition discriminate.
Qed.
Lemma stuckOuts_ok L : layout None (file_lines stuckText) = Some L -> Forall2 declares (linesOf SOutput L) stuckOuts.
Proof.
  intros E. vm_compute in E. injection E as <-. vm_compute linesOf. constructor; [|constructor; [|constructor]].
  - apply (d_int _ "y " " 2...5" "2" "5" 2 5); try reflexivity; try (cbn; intuition discriminate).
    + exists ""%string, "2"%string, 2%N. split; [reflexivity|]. split; [vm_compute; repeat split; discriminate|left; auto].
    + exists ""%string, "5"%string, 5%N. split; [reflexivity|]. split; [vm_compute; repeat split; discriminate|left; auto].
  - apply d_bool. cbn. intuition discriminate.
Qed.
Definition shortB (text : string) (bySystem : bool) (d : declaration) (v : value) : bool :=
  match readSlugsFile "" emptyDict (getlines text) with
  | Ret original =>
      match performConversion true (modifiedText original (header (transOf bySystem)) (header (initOf bySystem)) (lineFor true (nameOfDecl d) v) (lineFor false (nameOfDecl d) v)) with
      | Ret out => (N.of_nat (String.length out) <? maxNumber)%N
      | _ => true
      end
  | _ => true
  end.
Lemma stuckShort : shortTranslations stuckText (stuckIns ++ stuckOuts).
Proof.
  split.
  - intros out E. assert (B : (match performConversion true stuckText with Ret out => (N.of_nat (String.length out) <? maxNumber)%N | _ => true end) = true) by (vm_compute; reflexivity).
    rewrite E in B. now apply N.ltb_lt.
  - intros original bs d v out E Hd Fv EC.
    assert (B : forallb (fun bs => forallb (fun d => forallb (shortB stuckText bs d) (valuesOf d)) (stuckIns ++ stuckOuts)) [true; false] = true) by (vm_compute; reflexivity).
    rewrite forallb_forall in B. assert (B1 := B bs ltac:(destruct bs; cbn; auto)). cbv beta in B1. rewrite forallb_forall in B1. specialize (B1 d Hd). cbv beta in B1.
    rewrite forallb_forall in B1. specialize (B1 v (proj2 (valuesOf_spec d v) Fv)). unfold shortB in B1. rewrite E, EC in B1. now apply N.ltb_lt.
Qed.

Example C83_example : analyzeStuckAtConstant (fun _ => true) stuckText = Ret (true, stuckReport) /\
  exists L m, layout None (file_lines stuckText) = Some L /\ (forall s, formulaSection s = true -> Forall2 (line_means stuckIns stuckOuts) (linesOf s L) (m s)) /\
  intRealizable stuckIns stuckOuts (fixedGame true 2 (VInt 3) m) /\ ~ intRealizable stuckIns stuckOuts (fixedGame true 2 (VInt 5) m).
Proof.
  assert (AN : analyzeStuckAtConstant (fun _ => true) stuckText = Ret (true, stuckReport)) by (vm_compute; reflexivity). split; [exact AN|].
  destruct (layout None (file_lines stuckText)) as [L|] eqn:EL; [|vm_compute in EL; discriminate EL]. exists L.
  destruct (performConversion true stuckText) as [out| |] eqn:EP; try (vm_compute in EP; discriminate EP).
  assert (EO := EP). vm_compute in EO. apply (f_equal (fun r => match r with Ret q => q | _ => ""%string end)) in EO. cbv beta iota in EO.
  assert (TK : forall d, In d (stuckIns ++ stuckOuts) -> isWordToken (nameOfDecl d) = true /\ ~ In (nameOfDecl d) keyWords /\ ~ occursIn "@" (nameOfDecl d)).
  { intros d H. cbn in H. repeat (destruct H as [<-|H]; [split; [reflexivity|]; split; cbn; intuition discriminate|]). destruct H. }
  assert (ND : NoDup (map nameOfDecl (stuckIns ++ stuckOuts))) by (cbn; repeat (constructor; [cbn; intuition discriminate|]); constructor).
  assert (MN : forall x mn mx, In (DInt x mn mx) (stuckIns ++ stuckOuts) -> (0 <= mn)%Z) by (intros x mn mx H; cbn in H; destruct H as [H|[H|[H|[H|[]]]]]; try discriminate H; injection H as <- <- <-; lia).
  assert (EL' := EL). vm_compute in EL'. injection EL' as EL'.
  assert (BL : forall s line, formulaSection s = true -> In (s, line) L -> blanksOnly line).
  { intros s line Hs Hl. apply isBlankOnly_spec. rewrite <- EL' in Hl. cbn in Hl. repeat (destruct Hl as [Hl|Hl]; [injection Hl as <- <-; reflexivity|]). destruct Hl. }
  assert (PL : plain_file L).
  { intros s line Hs Hl. apply plainB_spec. rewrite <- EL' in Hl. cbn in Hl. repeat (destruct Hl as [Hl|Hl]; [injection Hl as <- <-; reflexivity|]). destruct Hl. }
  destruct (C81_verdict true (fun _ => true) stuckText out Realizable L stuckIns stuckOuts EP EL (stuckIns_ok L EL) (stuckOuts_ok L EL)) as (m & Hm & _).
  - intros x mn mx H. apply (TK _ H).
  - apply integers_nodup. exact ND.
  - exact BL.
  - exact PL.
  - exact (proj1 stuckShort out EP).
  - rewrite <- EO. vm_compute. reflexivity.
  - exists m. split; [reflexivity|]. split; [exact Hm|].
    destruct (C83_report (fun _ => true) stuckText true stuckReport L stuckIns stuckOuts m AN EL (stuckIns_ok L EL) (stuckOuts_ok L EL) TK ND MN BL PL stuckShort Hm) as (_ & _ & _ & H).
    destruct (H 0 (DInt "y" 2 5) "y"%string ["3"; "4"]%string eq_refl eq_refl) as (_ & vs & E & K).
    assert (VS : forall v, In v vs -> showValue v = "3"%string \/ showValue v = "4"%string) by (intros v Hv; apply (in_map showValue) in Hv; rewrite <- E in Hv; cbn in Hv; intuition).
    split.
    + apply (K (VInt 3)). assert (I : In "3"%string (map showValue vs)) by (rewrite <- E; now left). apply in_map_iff in I. destruct I as (v & S & Hv). assert (Fv := proj1 (proj1 (K v) Hv)).
      destruct v as [b|z]; [destruct Fv|]. cbn in Fv. assert (z = 2 \/ z = 3 \/ z = 4 \/ z = 5)%Z as [->|[->|[->| ->]]] by lia; try discriminate S. exact Hv.
    + intros R. destruct (VS (VInt 5)) as [X|X]; try discriminate X. apply K. split; [cbn; lia|exact R].
Qed.

(** A negative value is not readable in a formula, so that there is no report although the file has a verdict. *)
Definition negativeText : string := String.concat (String "010" "") ["[INPUT]"; "r"; "[OUTPUT]"; "x:-1...1"; "b"; "[SYS_TRANS]"; "b' | ! r'"]%string.
Theorem C83_negative_refuted : exists content ord, checkRealizability ord content = Ret true /\ analyzeStuckAtConstant ord content = Raise.
Proof. exists negativeText, (fun _ => true). split; vm_compute; reflexivity. Qed.

Print Assumptions C83_report.
Print Assumptions C83_negative_refuted.
