(** * Reading files with fast and slow outputs *)

From Coq Require Import String Ascii Arith NArith List Bool Lia.
From Verif Require Import BDD Loop Spec VarTypes Synth Sem FormulaSpec Parser ParserProofs FileSpec FileProofs Explicit OutputProofs SymbolicProofs FastSlowSpec FastSlow FastSlowProofs.
Import ListNotations.
Local Open Scope string_scope.

Definition plainTy (t : VariableType) : VariableType :=
  match t with
  | PreOutputFast | PreOutputSlow => PreOutput
  | PostOutputFast | PostOutputSlow => PostOutput
  | t => t
  end.
Definition plainCtx (c : ctx) : ctx :=
  mkCtx (varNames c) (map plainTy (varTypes c)) (livenessAssumptions c) (livenessGuarantees c) (initEnv c) (initSys c) (safetyEnv c) (safetySys c).
Definition plainMode (m : modeFS) : mode := match m with FMode m => m | FFast | FSlow => MOutput end.

(** The parser looks at the types only when it checks whether a variable may be used. *)
Section EXT.
  Variables (names : list string) (types types' allowed allowed' : list VariableType) (ord : nat -> bool).
  Hypothesis H : forall i, existsb (vt_eqb (nth i types NoneVariableType)) allowed = existsb (vt_eqb (nth i types' NoneVariableType)) allowed'.


  Lemma elemsF_ext (P P' : memory -> string -> pres (option BF * string)) n : (forall mem s, P mem s = P' mem s) ->
    forall k left vals s, elemsF P n k left vals s = elemsF P' n k left vals s.
  Proof.
    intros E. induction k as [|k IH]; intros left vals s; cbn [elemsF]; destruct (left =? 0)%N; auto.
    rewrite E. destruct (P' (mkMem n vals) s) as [[v r]|e| |]; cbn [pbind]; auto.
  Qed.

  Lemma parseRec_ext fuel : forall mem s, parseRec names types allowed ord fuel mem s = parseRec names types' allowed' ord fuel mem s.
  Proof.
    induction fuel as [|fuel IH]; intros mem s; [reflexivity|].
    rewrite (parseRec_eq names types), (parseRec_eq names types'). destruct (readToken s) as [op s1].
    assert (Hbin : forall f, binF ord (parseRec names types allowed ord fuel) mem s1 f = binF ord (parseRec names types' allowed' ord fuel) mem s1 f).
    { intros f. unfold binF. rewrite IH. destruct (parseRec names types' allowed' ord fuel mem s1) as [[v1 s2]|e| |]; cbn [pbind]; auto.
      now rewrite IH. }
    rewrite !Hbin, IH.
    destruct (readUnsigned s1) as [[n s2]|]; [rewrite (elemsF_ext _ _ n IH)|]; destruct (findVar names 0 op) as [i|]; rewrite ?H; reflexivity.
  Qed.

  Lemma parse_ext line : parseFormula names types allowed ord line = parseFormula names types' allowed' ord line.
  Proof. unfold parseFormula. now rewrite parseRec_ext. Qed.
End EXT.

Definition fsTy (t : VariableType) : bool :=
  match t with PreInput | PostInput | PreOutputFast | PostOutputFast | PreOutputSlow | PostOutputSlow => true | _ => false end.

Definition pmap {A B} (f : A -> B) (r : pres A) : pres B :=
  match r with POk a => POk (f a) | PErr e => PErr e | PUB => PUB | PFuel => PFuel end.
Definition plainSt (st : modeFS * ctx) : mode * ctx := (plainMode (fst st), plainCtx (snd st)).

Section SIM.
  Variable ord : nat -> bool.

  Lemma formula_same c a a' line : forallb fsTy (varTypes c) = true ->
    (forall t, fsTy t = true -> existsb (vt_eqb (plainTy t)) a' = existsb (vt_eqb t) a) ->
    existsb (vt_eqb NoneVariableType) a' = existsb (vt_eqb NoneVariableType) a ->
    formula ord (plainCtx c) a' line = formula ord c a line.
  Proof.
    intros F HA HN. unfold formula, plainCtx. cbn [varNames varTypes].
    rewrite (parse_ext (varNames c) (map plainTy (varTypes c)) (varTypes c) a' a ord); auto.
    intros i. destruct (Nat.lt_ge_cases i (length (varTypes c))) as [L|L].
    - change NoneVariableType with (plainTy NoneVariableType) at 1. rewrite map_nth. apply HA.
      rewrite forallb_forall in F. apply F, nth_In, L.
    - rewrite !nth_overflow by (rewrite ?map_length; lia). exact HN.
  Qed.

  Lemma strip_plain l : strip (plainLine l) = if String.eqb (strip l) "[OUTPUT_F]" || String.eqb (strip l) "[OUTPUT_S]" then "[OUTPUT]" else strip l.
  Proof. unfold plainLine. destruct (_ || _); reflexivity. Qed.

  Lemma category_same l : String.eqb l "[OUTPUT]" = false ->
    category (if String.eqb l "[OUTPUT_F]" || String.eqb l "[OUTPUT_S]" then "[OUTPUT]" else l) = option_map plainMode (categoryFS l).
  Proof.
    intros H. unfold categoryFS. destruct (String.eqb_spec l "[INPUT]") as [->|NI]; [reflexivity|].
    destruct (String.eqb_spec l "[OUTPUT_F]") as [->|NF]; [reflexivity|].
    destruct (String.eqb_spec l "[OUTPUT_S]") as [->|NS]; [reflexivity|]. cbn [orb].
    unfold category. rewrite H. destruct (String.eqb_spec l "[INPUT]") as [E|_]; [congruence|].
    repeat match goal with |- context[String.eqb l ?x] => destruct (String.eqb l x); [reflexivity|] end. reflexivity.
  Qed.

  (** One line. *)
  Lemma line_same m c l : forallb fsTy (varTypes c) = true -> m <> FMode MOutput -> String.eqb (strip l) "[OUTPUT]" = false ->
    processLine ord (plainSt (m, c)) (plainLine l) = pmap plainSt (processLineFS ord (m, c) l) /\
    (forall m' c', processLineFS ord (m, c) l = POk (m', c') -> forallb fsTy (varTypes c') = true /\ m' <> FMode MOutput).
  Proof.
    intros F Hm Ho. unfold processLine, processLineFS, plainSt. cbn [fst snd]. rewrite !trim_spec, strip_plain.
    pose proof (category_same _ Ho) as EC.
    destruct (String.eqb (strip l) "[OUTPUT_F]" || String.eqb (strip l) "[OUTPUT_S]") eqn:EO.
    { assert (X : strip l = "[OUTPUT_F]" \/ strip l = "[OUTPUT_S]").
      { apply orb_true_iff in EO. destruct EO as [E|E]; apply String.eqb_eq in E; auto. }
      destruct X as [-> | ->]; cbn; split; auto; intros m' c' E; injection E as <- <-; split; auto; discriminate. }
    destruct (strip l) as [|a r] eqn:ES.
    { cbn. split; auto. intros m' c' E. injection E as <- <-. auto. }
    destruct (a =? "#")%char.
    { cbn. split; auto. intros m' c' E. injection E as <- <-. auto. }
    destruct (a =? "[")%char.
    { rewrite EC. split.
      - destruct (categoryFS (String a r)) as [m'|]; reflexivity.
      - intros m' c'. destruct (categoryFS (String a r)) as [m''|] eqn:E; [|discriminate]. intros X. injection X as <- <-.
        split; auto. unfold categoryFS in E.
        repeat match type of E with context[String.eqb (String a r) ?x] => destruct (String.eqb (String a r) x); [injection E as <-; discriminate|] end.
        discriminate. }
    set (ln := String a r) in *.
    assert (Ext : forall tp tq, fsTy tp = true -> fsTy tq = true -> forallb fsTy (varTypes (addVars c tp tq ln)) = true).
    { intros tp tq H1 H2. unfold addVars. cbn [varTypes]. rewrite forallb_app, F. cbn. now rewrite H1, H2. }
    assert (FS : forall a' a, (forall t, fsTy t = true -> existsb (vt_eqb (plainTy t)) a' = existsb (vt_eqb t) a) ->
      existsb (vt_eqb NoneVariableType) a' = existsb (vt_eqb NoneVariableType) a ->
      formula ord (plainCtx c) a' ln = formula ord c a ln) by (intros; now apply formula_same).
    destruct m as [m| |].
    2,3: cbn [plainMode]; split; [unfold plainCtx, addVars; cbn; now rewrite map_app|]; intros m' c' E; injection E as <- <-; split; [now apply Ext|discriminate].
    destruct m; cbn [plainMode]; try congruence.
    - split; auto. discriminate.
    - split; [unfold plainCtx, addVars; cbn; now rewrite map_app|]. intros m' c' E; injection E as <- <-; split; [now apply Ext|discriminate].
    - rewrite (FS [PreInput] [PreInput]) by (try (intros [] X; try discriminate X; reflexivity); reflexivity).
      destruct (formula ord c _ ln) as [b|e| |]; cbn; split; auto; try discriminate. intros m' c' E; injection E as <- <-. auto.
    - rewrite (FS [PreInput; PreOutput] [PreInput; PreOutputFast; PreOutputSlow]) by (try (intros [] X; try discriminate X; reflexivity); reflexivity).
      destruct (formula ord c _ ln) as [b|e| |]; cbn; split; auto; try discriminate. intros m' c' E; injection E as <- <-. auto.
    - rewrite (FS [PreInput; PreOutput; PostInput] [PreInput; PreOutputFast; PreOutputSlow; PostInput]) by (try (intros [] X; try discriminate X; reflexivity); reflexivity).
      destruct (formula ord c _ ln) as [b|e| |]; cbn; split; auto; try discriminate. intros m' c' E; injection E as <- <-. auto.
    - rewrite (FS [PreInput; PreOutput; PostInput; PostOutput] [PreInput; PreOutputFast; PreOutputSlow; PostInput; PostOutputFast; PostOutputSlow])
        by (try (intros [] X; try discriminate X; reflexivity); reflexivity).
      destruct (formula ord c _ ln) as [b|e| |]; cbn; split; auto; try discriminate. intros m' c' E; injection E as <- <-. auto.
    - rewrite (FS [PreInput; PreOutput; PostOutput; PostInput] [PreInput; PreOutputFast; PreOutputSlow; PostOutputFast; PostOutputSlow; PostInput])
        by (try (intros [] X; try discriminate X; reflexivity); reflexivity).
      destruct (formula ord c _ ln) as [b|e| |]; cbn; split; auto; try discriminate. intros m' c' E; injection E as <- <-. auto.
    - rewrite (FS [PreInput; PreOutput; PostInput; PostOutput] [PreInput; PreOutputFast; PreOutputSlow; PostInput; PostOutputFast; PostOutputSlow])
        by (try (intros [] X; try discriminate X; reflexivity); reflexivity).
      destruct (formula ord c _ ln) as [b|e| |]; cbn; split; auto; try discriminate. intros m' c' E; injection E as <- <-. auto.
  Qed.

  Lemma lines_same lines : forall m c, forallb fsTy (varTypes c) = true -> m <> FMode MOutput ->
    (forall l, In l lines -> strip l <> "[OUTPUT]") ->
    processLines ord (plainSt (m, c)) (map plainLine lines) = pmap plainSt (processLinesFS ord (m, c) lines) /\
    (forall m' c', processLinesFS ord (m, c) lines = POk (m', c') -> forallb fsTy (varTypes c') = true).
  Proof.
    induction lines as [|l lines IH]; intros m c F Hm Ho.
    - cbn. split; auto. intros m' c' E. injection E as <- <-. auto.
    - cbn [map processLines processLinesFS].
      destruct (line_same m c l F Hm) as [E1 E2]; [apply String.eqb_neq, Ho; now left|]. rewrite E1.
      destruct (processLineFS ord (m, c) l) as [[m' c']|e| |]; cbn [pmap pbind]; split; auto; try discriminate;
        destruct (E2 m' c' eq_refl) as [F' Hm']; apply IH; auto; intros l' Hl'; apply Ho; now right.
  Qed.

  Lemma finish_same c : finish (plainCtx c) = pmap plainCtx (finish c).
  Proof. unfold finish, plainCtx. cbn. destruct (_ =? _)%nat; reflexivity. Qed.
  Lemma finish_types c c' : finish c = POk c' -> varTypes c' = varTypes c.
  Proof. unfold finish. destruct (_ =? _)%nat; [|discriminate]. intros E. injection E as <-. reflexivity. Qed.

  (** Lines of a file have no newline characters. *)
  Lemma pieces_noNl s : Forall noNl (pieces s).
  Proof.
    induction s as [|a s IH]; cbn.
    - constructor; auto. intros x [].
    - destruct (Ascii.eqb_spec a "010") as [->|Na].
      + constructor; auto. intros x [].
      + inversion IH as [|p ps Hp Hps E]; [constructor|]. subst. constructor; auto. intros x [<-|Hx]; auto.
  Qed.
  Lemma Forall_removelast {A} (P : A -> Prop) l : Forall P l -> Forall P (removelast l).
  Proof. induction 1 as [|a l Ha H IH]; cbn; auto. destruct l; auto. Qed.
  Lemma file_lines_noNl s : Forall noNl (file_lines s).
  Proof. unfold file_lines. destruct (String.eqb _ ""); [apply Forall_removelast|]; apply pieces_noNl. Qed.

  Lemma plainFile_lines content : file_lines (plainFile content) = map plainLine (file_lines content).
  Proof.
    replace (plainFile content) with (unlines (map plainLine (file_lines content))).
    - apply file_lines_unlines. pose proof (file_lines_noNl content) as H. induction H as [|l ls Hl H IH]; cbn; constructor; auto.
      unfold plainLine. destruct (_ || _); auto. intros a Ha. cbn in Ha. repeat destruct Ha as [<-|Ha]; try discriminate. destruct Ha.
    - unfold unlines, plainFile, sconcat. now rewrite map_map.
  Qed.

  (** The whole file. *)
  Lemma init_same content : (forall l, In l (file_lines content) -> strip l <> "[OUTPUT]") ->
    initContext ord (plainFile content) = pmap plainCtx (initFS ord content) /\
    (forall c, initFS ord content = POk c -> forallb fsTy (varTypes c) = true).
  Proof.
    intros Ho. unfold initContext, initFS. rewrite !getlines_spec, plainFile_lines.
    destruct (lines_same (file_lines content) (FMode MNone) emptyCtx) as [E1 E2]; auto; [discriminate|].
    change (plainSt (FMode MNone, emptyCtx)) with (MNone, emptyCtx) in E1. rewrite E1.
    destruct (processLinesFS ord (FMode MNone, emptyCtx) (file_lines content)) as [[m c]|e| |]; cbn [pmap pbind plainSt fst snd]; split; auto; try discriminate.
    - apply finish_same.
    - intros c' E. rewrite (finish_types _ _ E). apply (E2 m c eq_refl).
  Qed.

  Lemma output_rejected lines : forall st, (exists l, In l lines /\ strip l = "[OUTPUT]") -> forall st', processLinesFS ord st lines <> POk st'.
  Proof.
    induction lines as [|l lines IH]; intros st (l0 & Hl & E) st'; [destruct Hl|]. cbn [processLinesFS].
    destruct Hl as [->|Hl].
    - destruct st as [m c]. unfold processLineFS. rewrite trim_spec, E. cbn. discriminate.
    - destruct (processLineFS ord st l) as [st1|e| |]; cbn [pbind]; try discriminate. apply IH. eauto.
  Qed.

  (** ** Slow variables *)
  Definition headerOf (m : modeFS) (sec : string) : Prop :=
    match m with
    | FSlow => sec = "[OUTPUT_S]"
    | FFast => sec = "[OUTPUT_F]"
    | FMode MInput => sec = "[INPUT]"
    | _ => sec <> "[OUTPUT_S]" /\ sec <> "[OUTPUT_F]" /\ sec <> "[INPUT]"
    end.
  Definition slowKind (k : VariableType) : bool := vt_eqb k PreOutputSlow.

  Lemma lines_slow lines : forall m c kinds sec m' c', varTypes c = typesOf kinds -> forallb fsKind kinds = true -> headerOf m sec ->
    processLinesFS ord (m, c) lines = POk (m', c') ->
    exists kinds', varTypes c' = typesOf kinds' /\ forallb fsKind kinds' = true /\
      map slowKind kinds' = (map slowKind kinds ++ slowVars sec lines)%list.
  Proof.
    induction lines as [|l lines IH]; intros m c kinds sec m' c' ET EK EH.
    - cbn. intros E. injection E as <- <-. exists kinds. now rewrite app_nil_r.
    - cbn [processLinesFS slowVars]. unfold processLineFS at 1. rewrite trim_spec.
      destruct (strip l) as [|a r] eqn:ES; [cbn [pbind]; eauto|].
      destruct (a =? "#")%char; [cbn [pbind]; eauto|].
      destruct (a =? "[")%char.
      { destruct (categoryFS (String a r)) as [m1|] eqn:EC; cbn [pbind]; [|discriminate]. apply IH; auto.
        unfold categoryFS in EC. set (hd := String a r) in *.
        repeat match type of EC with (if String.eqb hd ?x then _ else _) = _ =>
          destruct (String.eqb_spec hd x) as [Eh|_]; [injection EC as <-; rewrite Eh; cbn; try reflexivity; repeat split; discriminate|] end.
        discriminate. }
      set (ln := String a r) in *.
      assert (Add : forall m1 tp b, fsKind tp = true -> headerOf m1 sec -> slowKind tp = b ->
        processLinesFS ord (m1, addVars c tp (postOf tp) ln) lines = POk (m', c') ->
        exists kinds', varTypes c' = typesOf kinds' /\ forallb fsKind kinds' = true /\
          map slowKind kinds' = (map slowKind kinds ++ b :: slowVars sec lines)%list).
      { intros m1 tp b Hf Hh <- E. destruct (IH m1 (addVars c tp (postOf tp) ln) (kinds ++ [tp])%list sec m' c') as (ks & A & B & C); auto.
        - unfold addVars. cbn [varTypes]. rewrite ET. unfold typesOf. now rewrite flat_map_app.
        - rewrite forallb_app, EK. cbn. now rewrite Hf.
        - exists ks. split; auto. split; auto. rewrite C, map_app, <- app_assoc. reflexivity. }
      destruct m as [m| |]; cbn [headerOf] in EH.
      2:{ subst sec. cbn [String.eqb Ascii.eqb Bool.eqb orb]. apply (Add FFast PreOutputFast); reflexivity. }
      2:{ subst sec. cbn [String.eqb Ascii.eqb Bool.eqb orb]. apply (Add FSlow PreOutputSlow); reflexivity. }
      destruct m; try discriminate.
      { subst sec. cbn [String.eqb Ascii.eqb Bool.eqb orb]. apply (Add (FMode MInput) PreInput); reflexivity. }
      all: destruct EH as (N1 & N2 & N3); apply String.eqb_neq in N1, N2, N3; rewrite N1, N2, N3; cbn [orb];
        apply String.eqb_neq in N1, N2, N3;
        (destruct (formula ord c _ ln) as [b|e| |]; cbn [pbind]; try discriminate; apply IH; cbn; auto).
  Qed.

  Lemma init_slow content c : initFS ord content = POk c ->
    fsTypes c /\ forall k, isSlow c k = nth k (slowVars "" (file_lines content)) false.
  Proof.
    unfold initFS. rewrite getlines_spec.
    destruct (processLinesFS ord (FMode MNone, emptyCtx) (file_lines content)) as [[m c0]|e| |] eqn:E; cbn [pbind]; try discriminate.
    intros F. destruct (lines_slow (file_lines content) (FMode MNone) emptyCtx [] "" m c0 eq_refl eq_refl) as (kinds & A & B & C); auto; [cbn; repeat split; discriminate|].
    apply finish_types in F. split; [exists kinds; now rewrite F|].
    intros k. cbn [map app] in C. rewrite <- C. unfold isSlow. rewrite F, A, nth_typesOf_even.
    change false with (slowKind NoneVariableType). rewrite map_nth.
    destruct (Nat.lt_ge_cases k (length kinds)) as [L|L]; [|now rewrite nth_overflow by lia].
    rewrite forallb_forall in B. pose proof (B _ (nth_In kinds NoneVariableType L)) as Hk.
    destruct (nth k kinds NoneVariableType); try discriminate Hk; reflexivity.
  Qed.

  (** ** Accepted files are well-formed *)
  Lemma plain_isOut c k : forallb fsTy (varTypes c) = true -> isOut (plainCtx c) k = isOut c k.
  Proof.
    intros F. unfold isOut, plainCtx. cbn [varTypes]. change NoneVariableType with (plainTy NoneVariableType) at 1. rewrite map_nth.
    destruct (Nat.lt_ge_cases (2 * k) (length (varTypes c))) as [L|L]; [|now rewrite nth_overflow by lia].
    rewrite forallb_forall in F. pose proof (F _ (nth_In _ NoneVariableType L)) as Hk.
    destruct (nth (2 * k) (varTypes c) NoneVariableType); try discriminate Hk; reflexivity.
  Qed.
  Lemma plain_wf c : forallb fsTy (varTypes c) = true -> fsTypes c -> wf (plainCtx c) -> wf c.
  Proof.
    intros F (kinds & A & B) W.
    assert (EO : forall k, isOut (plainCtx c) k = isOut c k) by (intros; now apply plain_isOut).
    assert (EL : length (varTypes (plainCtx c)) = length (varTypes c)) by apply map_length.
    destruct W as [W1 W2 W3 W4 W5 W6 W7 W8 W9]. constructor; auto.
    - exists kinds. split; auto. rewrite forallb_forall in *. intros x Hx. specialize (B x Hx). destruct x; try discriminate B; reflexivity.
    - eapply dep_weaken; [|exact W2]. intros v [[L E] O]. rewrite EL in L. rewrite EO in O. split; [split|]; auto.
    - eapply dep_weaken; [|exact W3]. intros v [L E]. rewrite EL in L. split; auto.
    - eapply dep_weaken; [|exact W4]. intros v [L E]. rewrite EL in L. rewrite EO in E. split; auto.
    - eapply dep_weaken; [|exact W5]. intros v L. unfold isAnyV in *. now rewrite EL in L.
    - eapply Forall_impl; [|exact W6]. intros f. apply dep_weaken. intros v L. unfold isAnyV in *. now rewrite EL in L.
    - eapply Forall_impl; [|exact W7]. intros f. apply dep_weaken. intros v L. unfold isAnyV in *. now rewrite EL in L.
  Qed.
End SIM.
