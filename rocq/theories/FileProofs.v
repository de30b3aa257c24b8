(** * Proofs about reading specification files *)

From Coq Require Import String Ascii List Bool Arith NArith Lia Permutation.
From Verif Require Import BDD Loop Spec VarTypes Synth Sem FormulaSpec Parser ParserProofs FileSpec GameExt.
Import ListNotations.
Open Scope string_scope.

(** ** Lines *)


Lemma pieces_cons s : exists p ps, pieces s = p :: ps.
Proof.
  induction s as [|a s (p & ps & IH)]; cbn.
  - now exists "", [].
  - rewrite IH. destruct (a =? "010")%char; eauto.
Qed.

Lemma nl_eq a : (nat_of_ascii a =? 10)%nat = (a =? "010")%char.
Proof. destruct a as [[] [] [] [] [] [] [] []]; reflexivity. Qed.

Lemma file_lines_nl a s : (a =? "010")%char = true -> file_lines (String a s) = "" :: file_lines s.
Proof.
  intros E. unfold file_lines. cbn [pieces]. rewrite E. destruct (pieces_cons s) as (p & ps & ->).
  cbn [last removelast]. destruct (String.eqb _ ""); reflexivity.
Qed.

Lemma file_lines_chr a s : (a =? "010")%char = false ->
  file_lines (String a s) = match s with
    | EmptyString => [String a ""]
    | _ => match file_lines s with l :: ls => String a l :: ls | [] => [String a ""] end
    end.
Proof.
  intros E. unfold file_lines. cbn [pieces]. rewrite E. destruct (pieces_cons s) as (p & ps & H).
  destruct s as [|b s].
  - cbn in *. injection H as <- <-. reflexivity.
  - rewrite H. destruct ps as [|p' ps].
    + cbn [last removelast]. destruct p as [|x p]; [|reflexivity].
      cbn [String.eqb]. exfalso. cbn in H. destruct (b =? "010")%char.
      * destruct (pieces_cons s) as (q & qs & E'). rewrite E' in H. discriminate.
      * destruct (pieces_cons s) as (q & qs & E'). rewrite E' in H. discriminate.
    + change (last (String a p :: p' :: ps) "") with (last (p' :: ps) "").
      change (last (p :: p' :: ps) "") with (last (p' :: ps) "").
      destruct (String.eqb (last (p' :: ps) "") ""); reflexivity.
Qed.

Lemma getlines_spec s : getlines s = file_lines s.
Proof.
  induction s as [|a s IH]; [reflexivity|]. cbn [getlines]. rewrite nl_eq.
  destruct (a =? "010")%char eqn:E.
  - now rewrite file_lines_nl, IH.
  - rewrite file_lines_chr by auto. rewrite IH. destruct s; reflexivity.
Qed.

Lemma skipWs_spec s : skipWs s = string_of_list_ascii (dropWs (list_ascii_of_string s)).
Proof.
  induction s as [|a s IH]; cbn; auto. rewrite isspace_isWs. destruct (isWs a); auto.
  cbn. now rewrite string_of_list_ascii_of_string.
Qed.

Lemma dropWs_app l a : dropWs (l ++ [a])%list =
  match dropWs l with [] => if isWs a then [] else [a] | d => (d ++ [a])%list end.
Proof.
  induction l as [|b l IH]; cbn; [reflexivity|]. destruct (isWs b); auto.
Qed.

Lemma trimRight_spec l : trimRight (string_of_list_ascii l) = string_of_list_ascii (rev (dropWs (rev l))).
Proof.
  induction l as [|a l IH]; [reflexivity|]. cbn [string_of_list_ascii trimRight rev].
  rewrite IH, dropWs_app, isspace_isWs. destruct (dropWs (rev l)) as [|b d] eqn:E.
  - cbn. destruct (isWs a); reflexivity.
  - rewrite rev_app_distr. cbn [rev app]. cbn [string_of_list_ascii].
    destruct (String.eqb_spec (string_of_list_ascii (rev d ++ [b])) "") as [X|X].
    + exfalso. destruct (rev d); discriminate.
    + now rewrite andb_false_r.
Qed.

Lemma trim_spec s : trim s = strip s.
Proof. unfold trim, strip. now rewrite skipWs_spec, trimRight_spec. Qed.

(** ** Sections *)

Definition modeOf (s : option section) : mode :=
  match s with
  | None => MNone
  | Some SInput => MInput | Some SOutput => MOutput
  | Some SEnvInit => MEnvInit | Some SSysInit => MSysInit
  | Some SEnvTrans => MEnvTrans | Some SSysTrans => MSysTrans
  | Some SEnvLive => MEnvLive | Some SSysLive => MSysLive
  end.

Lemma category_spec l : category l =
  match find (fun s => String.eqb (header s) l) sections with Some s => Some (modeOf (Some s)) | None => None end.
Proof.
  unfold category, sections. cbn [find header].
  rewrite !(String.eqb_sym l).
  repeat match goal with |- context[String.eqb ?x l] => destruct (String.eqb x l); [reflexivity|] end.
  reflexivity.
Qed.

Lemma sec_eqb_eq a b : sec_eqb a b = true <-> a = b.
Proof. destruct a, b; cbn; split; congruence. Qed.

(** The types of the declared names. *)
Definition typesF (L : items) : list VariableType :=
  flat_map (fun p => match fst p with
                     | SInput => [PreInput; PostInput]
                     | SOutput => [PreOutput; PostOutput]
                     | _ => []
                     end) L.

Definition allowedF (s : section) : list VariableType :=
  match s with
  | SEnvInit => [PreInput]
  | SSysInit => [PreInput; PreOutput]
  | SEnvTrans => [PreInput; PreOutput; PostInput]
  | SSysTrans | SSysLive => [PreInput; PreOutput; PostInput; PostOutput]
  | SEnvLive => [PreInput; PreOutput; PostOutput; PostInput]
  | _ => []
  end.

Definition bandAll (bs : list BF) : BF := fold_left band bs btrue.

(** The context after the lines [L] with the functions [bs]. *)
Definition contextOf (L : items) (bs : section -> list BF) : ctx :=
  mkCtx (declared L) (typesF L) (bs SEnvLive) (bs SSysLive)
    (bandAll (bs SEnvInit)) (bandAll (bs SSysInit)) (bandAll (bs SEnvTrans)) (bandAll (bs SSysTrans)).

(** The function of a line with the declarations [L]. *)
Definition lineVal (ord : nat -> bool) (L : items) (s : section) (line : string) : pres (option BF) :=
  parseFormula (declared L) (typesF L) (allowedF s) ord line.

Definition values (ord : nat -> bool) (D L : items) (bs : section -> list BF) : Prop :=
  forall s, formulaSection s = true ->
    Forall2 (fun line b => lineVal ord D s line = POk (Some b)) (linesOf s L) (bs s).

Definition ext (bs : section -> list BF) (s : section) (b : BF) : section -> list BF :=
  fun s' => if sec_eqb s s' then (bs s' ++ [b])%list else bs s'.

Lemma declared_app L1 L2 : declared (L1 ++ L2)%list = (declared L1 ++ declared L2)%list.
Proof. unfold declared. apply flat_map_app. Qed.
Lemma typesF_app L1 L2 : typesF (L1 ++ L2)%list = (typesF L1 ++ typesF L2)%list.
Proof. unfold typesF. apply flat_map_app. Qed.
Lemma linesOf_app s L1 L2 : linesOf s (L1 ++ L2)%list = (linesOf s L1 ++ linesOf s L2)%list.
Proof. unfold linesOf. now rewrite filter_app, map_app. Qed.
Lemma outputs_app L1 L2 : outputs (L1 ++ L2)%list = (outputs L1 ++ outputs L2)%list.
Proof. unfold outputs. apply flat_map_app. Qed.

Lemma bandAll_snoc bs b : bandAll (bs ++ [b])%list = band (bandAll bs) b.
Proof. unfold bandAll. now rewrite fold_left_app. Qed.

Lemma length_types L : length (typesF L) = length (declared L).
Proof. induction L as [|[[] l] L IH]; cbn; auto. Qed.

(** ** More declarations do not change the value of a line *)

Section MONO.
  Variables names names' : list string.
  Variables types types' : list VariableType.
  Variable allowed : list VariableType.
  Hypothesis Hlen : length types = length names.
  Variable ord : nat -> bool.

  Lemma findVar_app w : forall l k i, findVar l k w = Some i -> findVar (l ++ names')%list k w = Some i /\ i < k + length l.
  Proof.
    induction l as [|n l IH]; intros k i; cbn; [discriminate|].
    destruct (String.eqb n w).
    - intros E. injection E as <-. split; auto. lia.
    - intros E. destruct (IH _ _ E). split; auto. lia.
  Qed.

  Lemma parseRec_mono fuel : forall mem s x,
    parseRec names types allowed ord fuel mem s = POk x ->
    parseRec (names ++ names')%list (types ++ types')%list allowed ord fuel mem s = POk x.
  Proof.
    induction fuel as [|fuel IH]; intros mem s x; [discriminate|].
    rewrite (parseRec_eq names), (parseRec_eq (names ++ names')). destruct (readToken s) as [op s1].
    assert (Hbin : forall f,
       binF ord (parseRec names types allowed ord fuel) mem s1 f = POk x ->
       binF ord (parseRec (names ++ names')%list (types ++ types')%list allowed ord fuel) mem s1 f = POk x).
    { intros f. unfold binF. destruct (parseRec names types allowed ord fuel mem s1) as [[v1 s2]|e| |] eqn:E1; cbn [pbind]; try discriminate.
      rewrite (IH _ _ _ E1). cbn [pbind].
      destruct (parseRec names types allowed ord fuel mem s2) as [[v2 s3]|e| |] eqn:E2; cbn [pbind]; try discriminate.
      rewrite (IH _ _ _ E2). cbn [pbind]. auto. }
    destruct (String.eqb op ""); [discriminate|].
    destruct (String.eqb op "|"); [apply Hbin|].
    destruct (String.eqb op "^"); [apply Hbin|].
    destruct (String.eqb op "&"); [apply Hbin|].
    destruct (String.eqb op "!").
    { destruct (parseRec names types allowed ord fuel mem s1) as [[v1 s2]|e| |] eqn:E1; cbn [pbind]; try discriminate.
      rewrite (IH _ _ _ E1). auto. }
    destruct (String.eqb op "1"); [auto|].
    destruct (String.eqb op "0"); [auto|].
    destruct (String.eqb op "$").
    { destruct (readUnsigned s1) as [[n s2]|]; [|discriminate].
      assert (EL : forall k left vals s', elemsF (parseRec names types allowed ord fuel) n k left vals s' = POk x ->
        elemsF (parseRec (names ++ names')%list (types ++ types')%list allowed ord fuel) n k left vals s' = POk x).
      { induction k as [|k IHk]; intros left vals s'; cbn [elemsF]; auto.
        destruct (left =? 0)%N; auto.
        destruct (parseRec names types allowed ord fuel (mkMem n vals) s') as [[v r]|e| |] eqn:E; cbn [pbind]; try discriminate.
        rewrite (IH _ _ _ E). cbn [pbind]. auto. }
      apply EL. }
    destruct (String.eqb op "?"); [auto|].
    destruct (findVar names 0 op) as [i|] eqn:F; [|discriminate].
    destruct (findVar_app _ _ _ _ F) as [F' L]. rewrite F', app_nth1 by (cbn in L; lia). auto.
  Qed.

  Lemma parse_mono line v : parseFormula names types allowed ord line = POk v ->
    parseFormula (names ++ names')%list (types ++ types')%list allowed ord line = POk v.
  Proof.
    unfold parseFormula. destruct (parseRec names types allowed ord _ _ line) as [[w r]|e| |] eqn:E; cbn [pbind]; try discriminate.
    now rewrite (parseRec_mono _ _ _ _ E).
  Qed.
End MONO.

Lemma lineVal_mono ord L L' s line v : lineVal ord L s line = POk v -> lineVal ord (L ++ L')%list s line = POk v.
Proof.
  unfold lineVal. rewrite declared_app, typesF_app. apply parse_mono. apply length_types.
Qed.

Lemma values_mono ord D D' L bs : values ord D L bs -> values ord (D ++ D')%list L bs.
Proof.
  intros H s Hs. specialize (H s Hs). induction H; constructor; auto. now apply lineVal_mono.
Qed.

Lemma values_ext ord D L bs s line b : values ord D L bs -> lineVal ord D s line = POk (Some b) ->
  values ord D (L ++ [(s, line)])%list (ext bs s b).
Proof.
  intros H E s' Hs'. rewrite linesOf_app. unfold ext, linesOf at 2. cbn [filter fst map snd].
  destruct (sec_eqb s s') eqn:X.
  - apply sec_eqb_eq in X. subst s'. apply Forall2_app; auto. cbn. constructor; auto.
  - cbn. rewrite app_nil_r. auto.
Qed.

Lemma values_decl ord D L bs s line : formulaSection s = false -> values ord D L bs ->
  values ord D (L ++ [(s, line)])%list bs.
Proof.
  intros E H s' Hs'. rewrite linesOf_app. unfold linesOf at 2. cbn [filter fst map snd].
  destruct (sec_eqb s s') eqn:X.
  - apply sec_eqb_eq in X. congruence.
  - cbn. rewrite app_nil_r. auto.
Qed.

(** ** The loop over the lines *)

Lemma formula_val ord L bs s line : formula ord (contextOf L bs) (allowedF s) line =
  match lineVal ord L s line with
  | POk (Some b) => POk b
  | POk None => PUB
  | PErr e => PErr e
  | PUB => PUB
  | PFuel => PFuel
  end.
Proof. unfold formula, lineVal, contextOf. cbn [varNames varTypes]. destruct (parseFormula _ _ _ _ _) as [[b|]| | |]; reflexivity. Qed.

(** Treatment of a line with content. *)
Lemma content_line ord L bs s line : formulaSection s = true ->
  forall line0, strip line0 = line -> (forall a r, line = String a r -> (a =? "#")%char = false /\ (a =? "[")%char = false) ->
  line <> "" ->
  processLine ord (modeOf (Some s), contextOf L bs) line0 =
  match lineVal ord L s line with
  | POk (Some b) => POk (modeOf (Some s), contextOf (L ++ [(s, line)])%list (ext bs s b))
  | POk None => PUB
  | PErr e => PErr e
  | PUB => PUB
  | PFuel => PFuel
  end.
Proof.
  intros Hs line0 El Hc Hne. unfold processLine. rewrite trim_spec, El.
  destruct line as [|a r]; [congruence|]. destruct (Hc a r eq_refl) as [-> ->].
  assert (CE : forall b, contextOf (L ++ [(s, String a r)])%list (ext bs s b) =
    mkCtx (declared L) (typesF L) (ext bs s b SEnvLive) (ext bs s b SSysLive)
    (bandAll (ext bs s b SEnvInit)) (bandAll (ext bs s b SSysInit)) (bandAll (ext bs s b SEnvTrans)) (bandAll (ext bs s b SSysTrans))).
  { intros b. unfold contextOf. rewrite declared_app, typesF_app. destruct s; try discriminate; cbn [declared typesF flat_map fst app];
      now rewrite !app_nil_r. }
  destruct s; try discriminate; cbn [modeOf];
  match goal with |- context[lineVal ord L ?s _] =>
    change (formula ord (contextOf L bs)) with (formula ord (contextOf L bs));
    pose proof (formula_val ord L bs s (String a r)) as F; cbn [allowedF] in F; rewrite F end;
  destruct (lineVal ord L _ (String a r)) as [[b|]|e| |]; cbn [pbind]; try reflexivity; rewrite CE;
  unfold ext; cbn [sec_eqb]; rewrite ?bandAll_snoc; reflexivity.
Qed.

Lemma decl_line ord L bs s line : formulaSection s = false ->
  forall line0, strip line0 = line -> (forall a r, line = String a r -> (a =? "#")%char = false /\ (a =? "[")%char = false) ->
  line <> "" ->
  processLine ord (modeOf (Some s), contextOf L bs) line0 =
  POk (modeOf (Some s), contextOf (L ++ [(s, line)])%list bs).
Proof.
  intros Hs line0 El Hc Hne. unfold processLine. rewrite trim_spec, El.
  destruct line as [|a r]; [congruence|]. destruct (Hc a r eq_refl) as [-> ->].
  unfold contextOf, addVars. rewrite declared_app, typesF_app.
  destruct s; try discriminate; reflexivity.
Qed.

Lemma processLines_spec ord : forall lines cur L bs m c,
  values ord L L bs ->
  processLines ord (modeOf cur, contextOf L bs) lines = POk (m, c) ->
  exists L2 bs', layout cur lines = Some L2 /\ values ord (L ++ L2)%list (L ++ L2)%list bs' /\
    c = contextOf (L ++ L2)%list bs'.
Proof.
  induction lines as [|l lines IH]; intros cur L bs m c HV E.
  - cbn in E. injection E as <- <-. exists [], bs. rewrite app_nil_r. auto.
  - cbn [processLines] in E. cbn [layout].
    destruct (strip l) as [|a r] eqn:S.
    { unfold processLine in E. rewrite trim_spec, S in E. cbn [pbind] in E. eauto. }
    destruct (a =? "#")%char eqn:A1.
    { unfold processLine in E. rewrite trim_spec, S, A1 in E. cbn [pbind] in E. eauto. }
    destruct (a =? "[")%char eqn:A2.
    { unfold processLine in E. rewrite trim_spec, S, A1, A2, category_spec in E.
      destruct (find _ sections) as [s|]; [|discriminate]. cbn [pbind] in E. eauto. }
    destruct cur as [s|].
    2:{ unfold processLine in E. rewrite trim_spec, S, A1, A2 in E. discriminate. }
    assert (Hc : forall a0 r0, String a r = String a0 r0 -> (a0 =? "#")%char = false /\ (a0 =? "[")%char = false).
    { intros a0 r0 X. injection X as <- <-. auto. }
    destruct (formulaSection s) eqn:FS.
    + rewrite (content_line ord L bs s _ FS l S Hc ltac:(discriminate)) in E.
      destruct (lineVal ord L s (String a r)) as [[b|]|e| |] eqn:V; cbn [pbind] in E; try discriminate.
      apply IH in E.
      * destruct E as (L2 & bs' & El & HV' & ->). rewrite El. exists ((s, String a r) :: L2), bs'.
        rewrite <- app_assoc in HV'. rewrite <- app_assoc. auto.
      * apply values_ext.
        -- now apply values_mono.
        -- now apply lineVal_mono.
    + rewrite (decl_line ord L bs s _ FS l S Hc ltac:(discriminate)) in E. cbn [pbind] in E.
      apply IH in E.
      * destruct E as (L2 & bs' & El & HV' & ->). rewrite El. exists ((s, String a r) :: L2), bs'.
        rewrite <- app_assoc in HV'. rewrite <- app_assoc. auto.
      * apply values_decl; auto. now apply values_mono.
Qed.

Lemma processLines_accepts ord : forall lines cur L bs L2,
  values ord L L bs -> layout cur lines = Some L2 ->
  (forall A s line B, L2 = (A ++ (s, line) :: B)%list -> formulaSection s = true ->
     exists b, lineVal ord (L ++ A)%list s line = POk (Some b)) ->
  exists m bs', processLines ord (modeOf cur, contextOf L bs) lines = POk (m, contextOf (L ++ L2)%list bs').
Proof.
  induction lines as [|l lines IH]; intros cur L bs L2 HV El Hp.
  - cbn in El. injection El as <-. cbn. rewrite app_nil_r. eauto.
  - cbn [processLines]. cbn [layout] in El.
    destruct (strip l) as [|a r] eqn:S.
    { unfold processLine. rewrite trim_spec, S. cbn [pbind]. eauto. }
    destruct (a =? "#")%char eqn:A1.
    { unfold processLine. rewrite trim_spec, S, A1. cbn [pbind]. eauto. }
    destruct (a =? "[")%char eqn:A2.
    { unfold processLine. rewrite trim_spec, S, A1, A2, category_spec.
      destruct (find _ sections) as [s|]; [|discriminate]. cbn [pbind]. eauto. }
    destruct cur as [s|]; [|discriminate].
    assert (Hc : forall a0 r0, String a r = String a0 r0 -> (a0 =? "#")%char = false /\ (a0 =? "[")%char = false).
    { intros a0 r0 X. injection X as <- <-. auto. }
    destruct (layout (Some s) lines) as [L3|] eqn:El3; [|discriminate]. injection El as <-.
    assert (Hp3 : forall A s0 line B, L3 = (A ++ (s0, line) :: B)%list -> formulaSection s0 = true ->
       exists b, lineVal ord ((L ++ [(s, String a r)]) ++ A)%list s0 line = POk (Some b)).
    { intros A s0 line B E0 F0. rewrite <- app_assoc. apply (Hp ((s, String a r) :: A) s0 line B); auto.
      cbn. now rewrite E0. }
    destruct (formulaSection s) eqn:FS.
    + rewrite (content_line ord L bs s _ FS l S Hc ltac:(discriminate)).
      destruct (Hp [] s (String a r) L3 eq_refl FS) as (b & V). rewrite app_nil_r in V. rewrite V. cbn [pbind].
      assert (HV' : values ord (L ++ [(s, String a r)])%list (L ++ [(s, String a r)])%list (ext bs s b)).
      { apply values_ext; [now apply values_mono|now apply lineVal_mono]. }
      destruct (IH (Some s) _ _ L3 HV' El3 Hp3) as (m & bs' & P). rewrite <- app_assoc in P. eauto.
    + rewrite (decl_line ord L bs s _ FS l S Hc ltac:(discriminate)). cbn [pbind].
      assert (HV' : values ord (L ++ [(s, String a r)])%list (L ++ [(s, String a r)])%list bs).
      { apply values_decl; auto. now apply values_mono. }
      destruct (IH (Some s) _ _ L3 HV' El3 Hp3) as (m & bs' & P). rewrite <- app_assoc in P. eauto.
Qed.

(** ** Duplicate names *)

Lemma setSize_le l : setSize l <= length l.
Proof. induction l as [|a l IH]; cbn; auto. destruct (existsb _ _); lia. Qed.

Lemma setSize_NoDup l : setSize l = length l <-> NoDup l.
Proof.
  induction l as [|a l IH]; cbn.
  - split; [constructor|auto].
  - pose proof (setSize_le l) as Le. destruct (existsb (String.eqb a) l) eqn:E.
    + split; [lia|]. intros N. inversion N; subst. apply existsb_exists in E.
      destruct E as (x & Hx & Ex). apply String.eqb_eq in Ex. subst. contradiction.
    + split.
      * intros X. constructor; [|apply IH; lia]. intros Hin.
        assert (existsb (String.eqb a) l = true); [|congruence].
        apply existsb_exists. exists a. split; auto. apply String.eqb_refl.
      * intros N. inversion N; subst. f_equal. now apply IH.
Qed.

(** ** The result of reading a file *)

Definition orTrue (l : list BF) : list BF := match l with [] => [btrue] | _ => l end.

Definition finalContext (L : items) (bs : section -> list BF) : ctx :=
  mkCtx (declared L) (typesF L) (orTrue (bs SEnvLive)) (orTrue (bs SSysLive))
    (bandAll (bs SEnvInit)) (bandAll (bs SSysInit)) (bandAll (bs SEnvTrans)) (bandAll (bs SSysTrans)).

Lemma values_nil ord : values ord [] [] (fun _ => []).
Proof. intros s _. constructor. Qed.

Lemma initContext_inv ord content c : initContext ord content = POk c ->
  exists L bs, layout None (file_lines content) = Some L /\ NoDup (declared L) /\
    values ord L L bs /\ c = finalContext L bs.
Proof.
  unfold initContext. rewrite getlines_spec.
  destruct (processLines ord (MNone, emptyCtx) (file_lines content)) as [[m c']|e| |] eqn:E; cbn [pbind]; try discriminate.
  intros F. change (MNone, emptyCtx) with (modeOf None, contextOf [] (fun _ => [])) in E.
  apply processLines_spec in E; [|apply values_nil]. destruct E as (L & bs & El & HV & ->).
  cbn [app] in *. exists L, bs. unfold finish in F. cbn [varNames contextOf] in F.
  destruct (Nat.eqb_spec (setSize (declared L)) (length (declared L))) as [N|N]; [|discriminate].
  injection F as <-. apply setSize_NoDup in N. split; [exact El|]. split; [exact N|]. split; [exact HV|].
  unfold finalContext, orTrue. f_equal; [destruct (bs SEnvLive)|destruct (bs SSysLive)]; reflexivity.
Qed.

Lemma initContext_accepts ord content L : layout None (file_lines content) = Some L -> NoDup (declared L) ->
  (forall A s line B, L = (A ++ (s, line) :: B)%list -> formulaSection s = true ->
     exists b, lineVal ord A s line = POk (Some b)) ->
  exists c, initContext ord content = POk c.
Proof.
  intros El ND Hp. unfold initContext. rewrite getlines_spec.
  destruct (processLines_accepts ord (file_lines content) None [] (fun _ => []) L (values_nil ord) El Hp) as (m & bs & P).
  change (MNone, emptyCtx) with (modeOf None, contextOf [] (fun _ => [])). rewrite P. cbn [pbind app].
  unfold finish. cbn [varNames contextOf]. apply setSize_NoDup in ND. rewrite ND, Nat.eqb_refl. eauto.
Qed.

(** ** Types and variables *)

Definition kindsF (L : items) : list VariableType :=
  map (fun o : bool => if o then PreOutput else PreInput) (outputs L).

Lemma typesF_kinds L : typesF L = typesOf (kindsF L).
Proof.
  induction L as [|[s l] L IH]; [reflexivity|].
  unfold kindsF in *. destruct s; cbn [typesF outputs flat_map fst app map typesOf postOf] in *;
    fold (typesF L) (outputs L) in *; try exact IH; f_equal; f_equal; exact IH.
Qed.

Lemma kindsF_ok L : forallb isPreKind (kindsF L) = true.
Proof. unfold kindsF. rewrite forallb_forall. intros k H. apply in_map_iff in H. destruct H as ([] & <- & _); reflexivity. Qed.

Lemma length_outputs L : 2 * length (outputs L) = length (declared L).
Proof. rewrite <- length_types, typesF_kinds, length_typesOf. unfold kindsF. now rewrite map_length. Qed.

Lemma div2_lt i n : i < 2 * n -> Nat.div2 i < n.
Proof. intros H. destruct (even_cases i) as [[k ->]|[k ->]]; [rewrite Nat.div2_double|rewrite div2_double1]; lia. Qed.

Lemma typeF_nth L i : i < length (declared L) ->
  nth i (typesF L) NoneVariableType =
  let o := nth (Nat.div2 i) (outputs L) false in
  if Nat.odd i then if o then PostOutput else PostInput else if o then PreOutput else PreInput.
Proof.
  intros H. rewrite <- length_outputs in H. pose proof (div2_lt _ _ H) as Hd. rewrite typesF_kinds.
  assert (K : nth (Nat.div2 i) (kindsF L) NoneVariableType = if nth (Nat.div2 i) (outputs L) false then PreOutput else PreInput).
  { unfold kindsF. set (F := fun o : bool => if o then PreOutput else PreInput).
    rewrite nth_indep with (d' := F false) by (rewrite map_length; lia). now rewrite map_nth. }
  destruct (even_cases i) as [[k ->]|[k ->]].
  - rewrite nth_typesOf_even. rewrite Nat.div2_double in *. unfold Nat.odd. rewrite even_double. exact K.
  - rewrite nth_typesOf_odd. rewrite div2_double1 in *. unfold Nat.odd. rewrite even_double1. rewrite K.
    cbn. now destruct (nth k (outputs L) false).
Qed.

Lemma allowed_may_use L s i : formulaSection s = true -> i < length (declared L) ->
  (In (nth i (typesF L) NoneVariableType) (allowedF s) <->
   may_use s (nth (Nat.div2 i) (outputs L) false) (Nat.odd i) = true).
Proof.
  intros Hs Hi. rewrite typeF_nth by auto. cbn zeta.
  destruct s; try discriminate Hs; destruct (Nat.odd i), (nth (Nat.div2 i) (outputs L) false); cbn;
    split; intros H; auto; try discriminate; try tauto; intuition congruence.
Qed.

Lemma names_var_NoDup names w i : NoDup names -> (names_var names w i <-> nth_error names i = Some w).
Proof.
  intros ND. split; [now intros []|]. intros H. split; auto. intros j Hj E.
  rewrite NoDup_nth_error in ND.
  assert (i = j); [|lia]. apply ND; [|congruence]. apply nth_error_Some. congruence.
Qed.

Lemma var_ok_file L s w i : formulaSection s = true -> NoDup (declared L) ->
  (var_ok (declared L) (typesF L) (allowedF s) w i <-> file_var L s w i).
Proof.
  intros Hs ND. unfold var_ok, file_var. rewrite names_var_NoDup by auto.
  split; intros [H1 H2]; (split; [auto|]); apply (allowed_may_use L s i Hs); auto;
    apply nth_error_Some; congruence.
Qed.

(** The grammar depends on the variables only through the relation. *)
Lemma gram_var_ext (var var' : string -> nat -> Prop) bound loose :
  (forall w i, var w i -> var' w i) ->
  (forall m f ws, gram var bound loose m f ws -> gram var' bound loose m f ws) /\ 
  (forall n i fs ws, gramL var bound loose n i fs ws -> gramL var' bound loose n i fs ws).
Proof.
  intros H. apply gram_mutind; intros; econstructor; eauto.
Qed.

(** ** Accepted files are well-formed *)

Lemma dep_bandAll P bs : Forall (dep P) bs -> dep P (bandAll bs).
Proof.
  unfold bandAll. assert (G : forall bs a, dep P a -> Forall (dep P) bs -> dep P (fold_left band bs a)).
  { clear. induction bs as [|b bs IH]; cbn; intros a Ha H; auto. inversion H; subst. apply IH; auto. now apply dep_and. }
  apply G. apply dep_true.
Qed.

Lemma values_dep ord L bs s : formulaSection s = true -> values ord L L bs ->
  Forall (dep (okVar (declared L) (typesF L) (allowedF s))) (bs s).
Proof.
  intros Hs HV. specialize (HV s Hs). induction HV; constructor; auto. eapply parse_dep; eauto.
Qed.

Lemma isOut_final L bs k : isOut (finalContext L bs) k = nth k (outputs L) false.
Proof.
  unfold isOut. cbn [varTypes finalContext]. rewrite typesF_kinds, nth_typesOf_even. unfold kindsF.
  destruct (Nat.ltb_spec k (length (outputs L))) as [H|H].
  - set (F := fun o : bool => if o then PreOutput else PreInput).
    rewrite nth_indep with (d' := F false) by (rewrite map_length; lia). rewrite map_nth.
    destruct (nth k (outputs L) false); reflexivity.
  - rewrite !nth_overflow by (rewrite ?map_length; lia). reflexivity.
Qed.

Lemma final_wf ord L bs : values ord L L bs -> wf (finalContext L bs).
Proof.
  intros HV.
  assert (DV : forall s v, formulaSection s = true -> okVar (declared L) (typesF L) (allowedF s) v ->
     v < length (declared L) /\ may_use s (nth (Nat.div2 v) (outputs L) false) (Nat.odd v) = true).
  { intros s v Hs [H1 H2]. split; auto. now apply (allowed_may_use L s v Hs). }
  assert (D : forall s (P : nat -> Prop), formulaSection s = true ->
     (forall v, v < length (declared L) -> may_use s (nth (Nat.div2 v) (outputs L) false) (Nat.odd v) = true -> P v) ->
     Forall (dep P) (bs s)).
  { intros s P Hs H. pose proof (values_dep ord L bs s Hs HV) as F. rewrite Forall_forall in *. intros b Hb.
    eapply dep_weaken; [|apply F; exact Hb]. intros v Hv. destruct (DV s v Hs Hv). auto. }
  constructor.
  - exists (kindsF L). split; [apply typesF_kinds|apply kindsF_ok].
  - apply dep_bandAll, D; auto. intros v Hv Hm. unfold isPreInV, isPreV.
    rewrite isOut_final. cbn [varTypes finalContext]. rewrite length_types. cbn in Hm. apply andb_true_iff in Hm.
    destruct Hm as [M1 M2]. apply negb_true_iff in M1, M2. unfold Nat.odd in M2. apply negb_false_iff in M2. auto.
  - apply dep_bandAll, D; auto. intros v Hv Hm. unfold isPreV.
    cbn [varTypes finalContext]. rewrite length_types. cbn in Hm. apply negb_true_iff in Hm.
    unfold Nat.odd in Hm. apply negb_false_iff in Hm. auto.
  - apply dep_bandAll, D; auto. intros v Hv Hm. unfold isPrePostInV.
    rewrite isOut_final. cbn [varTypes finalContext]. rewrite length_types. split; auto. cbn in Hm.
    apply negb_true_iff, andb_false_iff in Hm. destruct Hm as [M|M]; auto.
    left. unfold Nat.odd in M. now apply negb_false_iff in M.
  - apply dep_bandAll, D; auto. intros v Hv Hm. unfold isAnyV. cbn [varTypes finalContext]. now rewrite length_types.
  - assert (F : Forall (dep (isAnyV (finalContext L bs))) (bs SEnvLive)).
    { apply D; auto. intros v Hv Hm. unfold isAnyV. cbn [varTypes finalContext]. now rewrite length_types. }
    cbn [livenessAssumptions finalContext]. unfold orTrue. destruct (bs SEnvLive); auto.
    constructor; [apply dep_true|constructor].
  - assert (F : Forall (dep (isAnyV (finalContext L bs))) (bs SSysLive)).
    { apply D; auto. intros v Hv Hm. unfold isAnyV. cbn [varTypes finalContext]. now rewrite length_types. }
    cbn [livenessGuarantees finalContext]. unfold orTrue. destruct (bs SSysLive); auto.
    constructor; [apply dep_true|constructor].
  - cbn [livenessAssumptions finalContext]. unfold orTrue. now destruct (bs SEnvLive).
  - cbn [livenessGuarantees finalContext]. unfold orTrue. now destruct (bs SSysLive).
Qed.

(** ** Meaning of an accepted file *)

Definition sameFun (b : BF) (f : fml) : Prop := forall e, den e [] f = Some (eval b e).

Lemma values_formulas ord L bs : NoDup (declared L) -> plain_file L -> values ord L L bs ->
  exists fs, formulas_of true L fs /\ forall s, formulaSection s = true -> Forall2 sameFun (bs s) (fs s).
Proof.
  intros ND PF HV.
  assert (One : forall s, exists fl, formulaSection s = true ->
     Forall2 (fun line f => gram (file_var L s) maxNumber true 0 f (words line)) (linesOf s L) fl /\ 
     Forall2 sameFun (bs s) fl).
  { intros s. destruct (formulaSection s) eqn:Hs; [|exists []; discriminate].
    specialize (HV s Hs).
    assert (PL : forall line, In line (linesOf s L) -> plain_words (words line)).
    { intros line H. unfold linesOf in H. apply in_map_iff in H. destruct H as ([s' l] & <- & H).
      apply filter_In in H. destruct H as [H1 H2]. cbn in H2. apply sec_eqb_eq in H2. cbn in *. subst s'.
      now apply (PF s). }
    induction HV as [|line b lines bl V HV IH]; [exists []; split; constructor|].
    destruct IH as (fl & IH); [intros; apply PL; now right|]. destruct (IH eq_refl) as [I1 I2].
    unfold lineVal in V. destruct (parse_sound _ _ _ _ _ _ V (PL line (or_introl eq_refl))) as (f & G & Df).
    exists (f :: fl). intros _. split; constructor; auto.
    apply (gram_var_ext (var_ok (declared L) (typesF L) (allowedF s))); auto.
    intros w i. now apply var_ok_file. }
  destruct (One SEnvInit) as (f1 & H1). destruct (One SSysInit) as (f2 & H2).
  destruct (One SEnvTrans) as (f3 & H3). destruct (One SSysTrans) as (f4 & H4).
  destruct (One SEnvLive) as (f5 & H5). destruct (One SSysLive) as (f6 & H6).
  exists (fun s => match s with SEnvInit => f1 | SSysInit => f2 | SEnvTrans => f3 | SSysTrans => f4
             | SEnvLive => f5 | SSysLive => f6 | _ => [] end).
  split; intros s Hs; destruct s; try discriminate Hs; cbn beta iota;
    match goal with |- context[?X] => idtac end;
    first [now apply H1|now apply H2|now apply H3|now apply H4|now apply H5|now apply H6].
Qed.

Lemma bandAll_eval e bs : eval (bandAll bs) e = forallb (fun b => eval b e) bs.
Proof.
  unfold bandAll. assert (G : forall bs a, eval (fold_left band bs a) e = eval a e && forallb (fun b => eval b e) bs).
  { clear. induction bs as [|b bs IH]; intros a; cbn; [now rewrite andb_true_r|].
    now rewrite IH, eval_and, andb_assoc. }
  rewrite G, eval_true. reflexivity.
Qed.

Lemma holds_same b f e : sameFun b f -> holds f e = eval b e.
Proof. intros H. unfold holds. now rewrite H. Qed.

Lemma bandAll_holds bs fs e : Forall2 sameFun bs fs -> eval (bandAll bs) e = forallb (fun f => holds f e) fs.
Proof.
  rewrite bandAll_eval. induction 1 as [|b f bs fs H HF IH]; cbn; auto. now rewrite IH, (holds_same b f).
Qed.

(** ** The game of an accepted file *)


Lemma valuation_tv s t : valuation s t = tv s t.
Proof. reflexivity. Qed.

Lemma inf_often_ext p p' pi : (forall s t, p s t = p' s t) -> inf_often p pi -> inf_often p' pi.
Proof. intros E H n. destruct (H n) as (m & Hm & X). exists m. now rewrite <- E. Qed.

(** The lists of liveness properties amount to the same along a sequence. *)
Lemma live_equiv bs fs : Forall2 sameFun bs fs -> forall pi,
  (forall p, In p (map trans (orTrue bs)) -> inf_often p pi) <->
  (forall p, In p (map (fun f st st' => holds f (valuation st st')) fs) -> inf_often p pi).
Proof.
  intros F pi.
  assert (E : (forall p, In p (map trans (orTrue bs)) -> inf_often p pi) <->
              (forall p, In p (map trans bs) -> inf_often p pi)).
  { destruct bs; [|reflexivity]. split; [intros _ p []|]. intros _ p [<-|[]] n. exists n. split; auto. }
  rewrite E. clear E. induction F as [|b f bs fs H F IH]; [split; intros ? p []|].
  cbn [map]. split; intros A p [<-|Hp].
  - apply (inf_often_ext (trans b)); [|apply A; now left]. intros s t. symmetry. now apply holds_same.
  - apply (proj1 IH); auto. intros q Hq. apply A. now right.
  - apply (inf_often_ext (fun st st' => holds f (valuation st st'))); [|apply A; now left].
    intros s t. now apply holds_same.
  - apply (proj2 IH); auto. intros q Hq. apply A. now right.
Qed.

Section GAME.
  Variable L : items.
  Variable bs : section -> list BF.
  Variable fs : section -> list fml.
  Hypothesis Hs : forall s, formulaSection s = true -> Forall2 sameFun (bs s) (fs s).

  Local Notation c := (finalContext L bs).

  Lemma file_objective pi : objective (game_of c) pi <-> objective (file_game L fs) pi.
  Proof.
    pose proof (live_equiv _ _ (Hs SEnvLive eq_refl) pi) as LA.
    pose proof (live_equiv _ _ (Hs SSysLive eq_refl) pi) as LG.
    unfold objective, safe_and_live, game_of, file_game.
    cbn [g_initE g_initS g_safeE g_safeS g_liveA g_liveG initEnv initSys safetyEnv safetySys
         livenessAssumptions livenessGuarantees finalContext].
    assert (EI : pos (bandAll (bs SEnvInit)) (pi 0) = forallb (fun f => holds f (valuation (pi 0) (pi 0))) (fs SEnvInit))
      by (apply bandAll_holds; auto).
    assert (SI : pos (bandAll (bs SSysInit)) (pi 0) = forallb (fun f => holds f (valuation (pi 0) (pi 0))) (fs SSysInit))
      by (apply bandAll_holds; auto).
    assert (ET : forall n, trans (bandAll (bs SEnvTrans)) (pi n) (pi (S n)) =
       forallb (fun f => holds f (valuation (pi n) (pi (S n)))) (fs SEnvTrans))
      by (intros; apply bandAll_holds; auto).
    assert (ST : forall n, trans (bandAll (bs SSysTrans)) (pi n) (pi (S n)) =
       forallb (fun f => holds f (valuation (pi n) (pi (S n)))) (fs SSysTrans))
      by (intros; apply bandAll_holds; auto).
    rewrite EI, SI. split; intros H HI; specialize (H HI); destruct H as (H1 & H2 & H3); (split; [auto|]); split.
    - intros n Hn. rewrite <- ST. apply H2. intros m Hm. rewrite ET. auto.
    - intros HE HA. apply LG. apply H3; [|now apply LA]. intros n. rewrite ET. auto.
    - intros n Hn. rewrite ST. apply H2. intros m Hm. rewrite <- ET. auto.
    - intros HE HA. apply LG. apply H3; [|now apply LA]. intros n. rewrite <- ET. auto.
  Qed.

  Lemma file_out k : g_out (game_of c) k = g_out (file_game L fs) k.
  Proof. apply isOut_final. Qed.
End GAME.

(** The objective depends on the declared variables only. *)
Lemma objective_agree c : wf c -> forall pi pi', agree (nvars c) pi pi' ->
  objective (game_of c) pi' -> objective (game_of c) pi.
Proof.
  intros Hwf pi pi' A. destruct Hwf as [Hk HiE HiS HsE HsS HA HG _ _].
  assert (T : forall f n, dep (isAnyV c) f -> trans f (pi n) (pi (S n)) = trans f (pi' n) (pi' (S n))).
  { intros f n D. apply (trans_ext c Hk); auto. }
  assert (P : forall f n, dep (isPreV c) f -> pos f (pi n) = pos f (pi' n)).
  { intros f n D. apply (pos_ext c Hk); auto. }
  assert (DE : dep (isAnyV c) (safetyEnv c)).
  { eapply dep_weaken; [|exact HsE]. now intros v [H _]. }
  assert (LV : forall bl, Forall (dep (isAnyV c)) bl -> forall rho rho',
     (forall f n, dep (isAnyV c) f -> trans f (rho n) (rho (S n)) = trans f (rho' n) (rho' (S n))) ->
     (forall p, In p (map trans bl) -> inf_often p rho) -> (forall p, In p (map trans bl) -> inf_often p rho')).
  { intros bl F rho rho' E H p Hp n. apply in_map_iff in Hp. destruct Hp as (b & <- & Hb).
    destruct (H (trans b) (in_map trans _ _ Hb) n) as (m & Hm & X). exists m. split; auto.
    rewrite <- E; auto. rewrite Forall_forall in F. auto. }
  unfold objective, safe_and_live, game_of. cbn [g_initE g_initS g_safeE g_safeS g_liveA g_liveG].
  intros H HI. rewrite P in HI by (eapply dep_weaken; [|exact HiE]; now intros v [? _]).
  destruct (H HI) as (H1 & H2 & H3). split; [now rewrite P|]. split.
  - intros n Hn. rewrite T by auto. apply H2. intros m Hm. rewrite <- T; auto.
  - intros HE HAs. apply (LV _ HG pi' pi); [intros; symmetry; now apply T|].
    apply H3; [intros n; rewrite <- T; auto|]. now apply (LV _ HA pi pi').
Qed.

(** ** The result depends on the content only *)

Fixpoint processItems (ord : nat -> bool) (c : ctx) (L : items) : pres ctx :=
  match L with
  | [] => POk c
  | (s, line) :: L => pbind (processLine ord (modeOf (Some s), c) line) (fun st => processItems ord (snd st) L)
  end.

Lemma strip_idem l : strip (strip l) = strip l.
Proof.
  unfold strip. rewrite list_ascii_of_string_of_list_ascii.
  set (d := dropWs (list_ascii_of_string l)).
  assert (H0 : match d with [] => True | a :: _ => isWs a = false end).
  { subst d. induction (list_ascii_of_string l) as [|a x IH]; cbn; auto. destruct (isWs a) eqn:E; auto. }
  assert (F : forall x, match x with [] => True | a :: _ => isWs a = false end -> dropWs x = x).
  { intros [|a x] H; auto. cbn. now rewrite H. }
  assert (H1 : match rev (dropWs (rev d)) with [] => True | a :: _ => isWs a = false end).
  { destruct d as [|a x]; [exact I|]. cbn [rev]. rewrite dropWs_app.
    destruct (dropWs (rev x)) as [|b y] eqn:E.
    - rewrite H0. cbn. exact H0.
    - rewrite rev_app_distr. cbn. exact H0. }
  rewrite (F _ H1), rev_involutive. f_equal. f_equal. apply F.
  clear. generalize (rev d). intros x. induction x as [|a x IH]; cbn; auto. destruct (isWs a) eqn:E; auto.
Qed.

Lemma processLine_strip ord st l : processLine ord st (strip l) = processLine ord st l.
Proof. unfold processLine. destruct st. now rewrite !trim_spec, strip_idem. Qed.

Lemma processLine_mode ord s c l m c' a r : strip l = String a r ->
  (a =? "#")%char = false -> (a =? "[")%char = false ->
  processLine ord (modeOf (Some s), c) l = POk (m, c') -> m = modeOf (Some s).
Proof.
  intros S A1 A2. unfold processLine. rewrite trim_spec, S, A1, A2.
  destruct s; cbn [modeOf]; try (intros E; injection E as <- <-; reflexivity);
    destruct (formula _ _ _ _); cbn [pbind]; try discriminate; intros E; injection E as <- <-; reflexivity.
Qed.

Lemma processLines_items ord : forall lines cur c L, layout cur lines = Some L ->
  pbind (processLines ord (modeOf cur, c) lines) (fun st => POk (snd st)) = processItems ord c L.
Proof.
  induction lines as [|l lines IH]; intros cur c L El.
  - cbn in El. injection El as <-. reflexivity.
  - cbn [processLines]. cbn [layout] in El.
    destruct (strip l) as [|a r] eqn:S.
    { unfold processLine. rewrite trim_spec, S. cbn [pbind]. eauto. }
    destruct (a =? "#")%char eqn:A1.
    { unfold processLine. rewrite trim_spec, S, A1. cbn [pbind]. eauto. }
    destruct (a =? "[")%char eqn:A2.
    { unfold processLine. rewrite trim_spec, S, A1, A2, category_spec.
      destruct (find _ sections) as [s|]; [|discriminate]. cbn [pbind]. eauto. }
    destruct cur as [s|]; [|discriminate].
    destruct (layout (Some s) lines) as [L3|] eqn:El3; [|discriminate]. injection El as <-.
    cbn [processItems]. rewrite <- S, processLine_strip.
    destruct (processLine ord (modeOf (Some s), c) l) as [[m c']|e| |] eqn:E; cbn [pbind]; auto.
    apply (processLine_mode ord s c l m c' a r) in E; auto. subst m. cbn [snd]. eauto.
Qed.

Lemma initContext_items ord content L : layout None (file_lines content) = Some L ->
  initContext ord content = pbind (processItems ord emptyCtx L) finish.
Proof.
  intros El. unfold initContext. rewrite getlines_spec.
  rewrite <- (processLines_items ord _ None emptyCtx L El).
  cbn [modeOf]. destruct (processLines ord (MNone, emptyCtx) (file_lines content)) as [[m c]|e| |]; reflexivity.
Qed.

Lemma processItems_app ord L1 : forall c L2,
  processItems ord c (L1 ++ L2)%list = pbind (processItems ord c L1) (fun c => processItems ord c L2).
Proof.
  induction L1 as [|[s l] L1 IH]; intros c L2; [reflexivity|]. cbn [app processItems].
  destruct (processLine ord (modeOf (Some s), c) l); cbn [pbind]; [apply IH|reflexivity..].
Qed.

Lemma formula_ord ord ord' c allowed line : formula ord c allowed line = formula ord' c allowed line.
Proof. unfold formula. now rewrite (parse_ord _ _ _ ord ord'). Qed.

Lemma processLine_ord ord ord' st line : processLine ord st line = processLine ord' st line.
Proof.
  unfold processLine. destruct st as [m c]. destruct (trim line) as [|a r]; [reflexivity|].
  rewrite !(formula_ord ord ord'). reflexivity.
Qed.

Lemma initContext_ord ord ord' content : initContext ord content = initContext ord' content.
Proof.
  unfold initContext. assert (E : forall lines st, processLines ord st lines = processLines ord' st lines).
  { induction lines as [|l lines IH]; intros st; [reflexivity|]. cbn [processLines]. rewrite (processLine_ord ord ord').
    destruct (processLine ord' st l); cbn [pbind]; [apply IH|reflexivity..]. }
  now rewrite E.
Qed.

Lemma initContext_no_fuel ord content : initContext ord content <> PFuel.
Proof.
  unfold initContext.
  assert (F : forall c a l, formula ord c a l <> PFuel).
  { intros c a l. unfold formula. pose proof (parse_no_fuel (varNames c) (varTypes c) a ord l).
    destruct (parseFormula _ _ _ _ _) as [[b|]|e| |]; cbn; congruence. }
  assert (P : forall st l, processLine ord st l <> PFuel).
  { intros [m c] l. unfold processLine. destruct (trim l) as [|a r]; [discriminate|].
    destruct (a =? "#")%char; [discriminate|]. destruct (a =? "[")%char; [destruct (category _); discriminate|].
    destruct m; try discriminate;
      match goal with |- context[formula ord c ?x ?y] => specialize (F c x y); destruct (formula ord c x y) end;
      cbn; congruence. }
  assert (Q : forall lines st, processLines ord st lines <> PFuel).
  { induction lines as [|l lines IH]; intros st; cbn; [discriminate|].
    specialize (P st l). destruct (processLine ord st l); cbn; try congruence. }
  specialize (Q (getlines content) (MNone, emptyCtx)).
  destruct (processLines _ _ _) as [[m c]|e| |]; cbn; try congruence.
  unfold finish. destruct (Nat.eqb _ _); congruence.
Qed.

(** ** Permutations *)

Lemma values_fun ord D L L' bs bs' s : formulaSection s = true ->
  values ord D L bs -> values ord D L' bs' -> linesOf s L = linesOf s L' -> bs s = bs' s.
Proof.
  intros Hs H H' E. specialize (H s Hs). specialize (H' s Hs). rewrite <- E in H'. clear E.
  revert H'. generalize (bs' s). induction H as [|l b ls bl V H IH]; intros b2 H'; inversion H'; subst; auto.
  f_equal; [congruence|]. now apply IH.
Qed.

Lemma Forall2_perm {A B} (R : A -> B -> Prop) l1 l2 : Permutation l1 l2 -> forall b1, Forall2 R l1 b1 ->
  exists b2, Forall2 R l2 b2 /\ Permutation b1 b2.
Proof.
  induction 1 as [|x l1 l2 P IH|x y l|l1 l2 l3 P1 IH1 P2 IH2]; intros b1 F.
  - inversion F; subst. exists []. auto.
  - inversion F as [|? b ? bl Rb Fb]; subst. destruct (IH _ Fb) as (b2 & F2 & P2). exists (b :: b2). split; constructor; auto.
  - inversion F as [|? b ? bl Rb Fb]; subst. inversion Fb as [|? b' ? bl' Rb' Fb']; subst.
    exists (b' :: b :: bl'). split; [|apply perm_swap]. repeat constructor; auto.
  - destruct (IH1 _ F) as (b2 & F2 & P2'). destruct (IH2 _ F2) as (b3 & F3 & P3). exists b3. split; auto.
    eapply perm_trans; eauto.
Qed.

Lemma bandAll_perm b1 b2 : Permutation b1 b2 -> bandAll b1 = bandAll b2.
Proof.
  intros P. apply bf_ext. intros e. rewrite !bandAll_eval. induction P; cbn; auto.
  - now rewrite IHP.
  - now rewrite !andb_assoc, (andb_comm (eval y e)).
  - congruence.
Qed.

Lemma values_perm ord D L L' bs bs' s : formulaSection s = true ->
  values ord D L bs -> values ord D L' bs' -> Permutation (linesOf s L) (linesOf s L') ->
  bandAll (bs s) = bandAll (bs' s).
Proof.
  intros Hs H H' P. destruct (Forall2_perm _ _ _ P _ (H s Hs)) as (b2 & F2 & P2).
  rewrite (bandAll_perm _ _ P2). f_equal. specialize (H' s Hs). clear P H P2.
  revert b2 F2. induction H' as [|l b ls bl V HF IH]; intros b2 F2; inversion F2; subst; auto.
  f_equal; [congruence|]. eapply IH; eauto.
Qed.
