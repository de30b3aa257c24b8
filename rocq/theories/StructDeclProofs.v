(** * Proofs: declarations in structured slugs files *)

From Coq Require Import String Ascii List Bool Arith NArith ZArith Lia.
From Coq Require Import DecimalString.
From Verif Require Import FormulaSpec Parser Spec FileSpec ParserProofs FileProofs OutputProofs SymbolicProofs EstimatorText MinCoreProofs
  StructuredSpec Structured StructuredProofs StructuredTrans StructuredAccept PropsStructured StructGrammar StructParse StructReadProofs StructFileSpec StructFile StructGameProofs StructFileProofs.
Import ListNotations.
Local Open Scope list_scope.

(** ** A line declares at most one variable *)

Lemma strip_in a s : occursIn a (strip s) -> occursIn a s.
Proof.
  unfold occursIn, strip. rewrite list_ascii_of_string_of_list_ascii. intros H.
  assert (D : forall x, incl (dropWs x) x).
  { induction x as [|b x IH]; cbn; [intros y []|]. destruct (isWs b); [|apply incl_refl]. now apply incl_tl. }
  apply in_rev in H. apply D in H. apply in_rev in H. now apply D in H.
Qed.
Lemma in_strip a s : isWs a = false -> occursIn a s -> occursIn a (strip s).
Proof.
  unfold occursIn, strip. rewrite list_ascii_of_string_of_list_ascii. intros W H.
  assert (D : forall x, In a x -> In a (dropWs x)).
  { induction x as [|b x IH]; cbn; [intros []|]. intros [->|Hx]; [rewrite W; now left|]. destruct (isWs b); [auto|now right]. }
  apply -> in_rev. apply D. apply -> in_rev. now apply D.
Qed.
Lemma first_occurrence c : forall x y r s, ~ occursIn c x -> ~ occursIn c y -> (x ++ String c r = y ++ String c s)%string -> x = y /\ r = s.
Proof.
  unfold occursIn. induction x as [|a x IH]; intros [|b y] r s N M E; cbn [append] in E; injection E; intros; subst; cbn [list_ascii_of_string In] in *; auto; try tauto.
  destruct (IH y r s) as [-> ->]; auto.
Qed.
Lemma wu_in a s : a <> "_"%char -> occursIn a s -> occursIn a (withoutUnderscores s).
Proof.
  unfold occursIn, withoutUnderscores. rewrite list_ascii_of_string_of_list_ascii. intros N H. apply filter_In. split; auto. destruct (Ascii.eqb_spec a "_"); [congruence|reflexivity].
Qed.
Lemma digits_in a s : allDigits s = true -> occursIn a s -> isDigit a = true.
Proof. unfold occursIn. induction s as [|b s IH]; [intros _ []|]. cbn [allDigits list_ascii_of_string In]. intros H. apply andb_prop in H. destruct H. intros [->|X]; auto. Qed.
Lemma sign_digits w n a : numeral (withoutUnderscores w) n -> occursIn a w -> a = "_"%char \/ isDigit a = true.
Proof.
  intros (_ & D & _) H. destruct (Ascii.eqb_spec a "_") as [->|N]; auto. right. eapply digits_in; [exact D|]. now apply wu_in.
Qed.
Lemma integer_noDot a z : integer a z -> ~ occursIn "." a.
Proof.
  intros (sign & w & n & E & Hn & S) H. apply in_strip in H; [|reflexivity]. rewrite E in H. apply occurs_app in H. destruct H as [H|H].
  - destruct S as [[[->| ->] _]|[-> _]]; cbn in H; intuition discriminate.
  - destruct (sign_digits _ _ _ Hn H); discriminate.
Qed.
Lemma numeral_fun w n m : numeral w n -> numeral w m -> n = m.
Proof. intros (_ & _ & E) (_ & _ & F). congruence. Qed.
Lemma integer_fun a z z' : integer a z -> integer a z' -> z = z'.
Proof.
  intros (sign & w & n & E & Hn & S) (sign' & w' & n' & E' & Hn' & S'). rewrite E in E'.
  assert (F : forall c x v m, numeral (withoutUnderscores v) m -> c = "+"%char \/ c = "-"%char -> v <> String c x).
  { intros c x v m Hv Hc ->. destruct (sign_digits _ _ c Hv) as [X|X]; [now left| |]; destruct Hc as [-> | ->]; discriminate. }
  assert (EQ : w = w' -> n = n') by (intros ->; eapply numeral_fun; eauto).
  destruct S as [[[->| ->] ->]|[-> ->]], S' as [[[->| ->] ->]|[-> ->]]; cbn [append] in E'.
  all: try (apply EQ in E'; congruence).
  all: try (injection E' as E'; apply EQ in E'; congruence).
  all: try discriminate.
  all: exfalso; first [eapply F; [exact Hn| |exact E'] | eapply F; [exact Hn'| |symmetry; exact E']]; auto.
Qed.
Lemma declares_unique line d d' : declares line d -> declares line d' -> d = d'.
Proof.
  intros H H'. destruct H as [N|x r a b mn mx E N R Ia Ib LE], H' as [N'|x' r' a' b' mn' mx' E' N' R' Ia' Ib' LE'].
  - reflexivity.
  - elim N. rewrite E'. apply occurs_app. right. now left.
  - elim N'. rewrite E. apply occurs_app. right. now left.
  - rewrite E in E'. apply first_occurrence in E'; auto. destruct E' as [-> ->]. rewrite R in R'.
    apply first_occurrence in R'; try (eapply integer_noDot; eauto). destruct R' as [-> E']. injection E' as <-.
    rewrite (integer_fun _ _ _ Ia Ia'), (integer_fun _ _ _ Ib Ib'). reflexivity.
Qed.

(** ** Printed lines *)

Definition contentS (l : string) : bool := content (strip l).
Definition lineOK (l : string) : Prop := noNl l /\ firstIs "[" (strip l) = false.

Lemma strip_first a r : isWs a = false -> exists r', strip (String a r) = String a r'.
Proof.
  intros W. unfold strip. cbn [list_ascii_of_string dropWs]. rewrite W. cbn [rev]. rewrite dropWs_app, W.
  destruct (dropWs (rev (list_ascii_of_string r))) as [|b d]; cbn [rev app string_of_list_ascii]; [eauto|].
  rewrite rev_app_distr. cbn. eauto.
Qed.
Lemma strip_ws a r : isWs a = true -> strip (String a r) = strip r.
Proof. intros W. unfold strip. cbn [list_ascii_of_string dropWs]. now rewrite W. Qed.
Lemma words_first a r : isWs a = false -> exists w ws, words (String a r) = String a w :: ws.
Proof.
  intros W. cbn [words]. rewrite W. destruct r as [|b r]; [eauto|]. destruct (isWs b); [eauto|]. destruct (words (String b r)); eauto.
Qed.
Lemma first_word l w ws : words l = w :: ws -> exists a r r', w = String a r /\ strip l = String a r' /\ isWs a = false.
Proof.
  induction l as [|a l IH]; [discriminate|]. destruct (isWs a) eqn:W.
  - cbn [words]. rewrite W. rewrite strip_ws by auto. exact IH.
  - destruct (words_first a l W) as (v & vs & E). rewrite E. intros X. injection X as <- <-. destruct (strip_first a l W) as (r' & ->). eauto 6.
Qed.
Lemma strip_noWs s : noWs s = true -> strip s = s.
Proof.
  intros H. unfold strip.
  assert (F : Forall (fun a => isWs a = false) (list_ascii_of_string s)).
  { unfold noWs in H. induction s as [|a s IH]; cbn in *; constructor; apply andb_prop in H; destruct H; auto. now apply negb_true_iff. }
  assert (D : forall l, Forall (fun a => isWs a = false) l -> dropWs l = l) by (intros l X; destruct X as [|a l X _]; [reflexivity|]; cbn; now rewrite X).
  rewrite (D _ F). apply Forall_rev in F. rewrite (D _ F), rev_involutive. apply string_of_list_ascii_of_string.
Qed.
Lemma noWs_noNl s : noWs s = true -> noNl s.
Proof.
  unfold noWs, noNl. induction s as [|b s IH]; [intros _ a []|]. cbn [allChars list_ascii_of_string In]. intros H a. apply andb_prop in H. destruct H as [H1 H2].
  intros [<-|X]; [intros ->; discriminate|auto].
Qed.
Lemma noWs_bit x mn mx i : isWordToken x = true -> noWs (bitName x mn mx i) = true.
Proof.
  intros H. unfold bitName. rewrite !noWs_app, (token_noWs _ H), noWs_uint. change (noWs "@") with true. cbn [andb]. destruct (Nat.eqb i 0); auto. now rewrite !noWs_app, !noWs_showZ.
Qed.
Lemma wordStart_first a : isWordStart a = true -> (a =? "#")%char = false /\ (a =? "[")%char = false.
Proof. intros H. split; destruct (Ascii.eqb_spec a "#"), (Ascii.eqb_spec a "["); subst; try discriminate; auto. Qed.
Lemma bit_first x mn mx i : isWordToken x = true -> exists a r, bitName x mn mx i = String a r /\ isWordStart a = true.
Proof.
  destruct x as [|a x]; [discriminate|]. cbn [isWordToken]. intros H. apply andb_prop in H. destruct H as [H _]. unfold bitName. cbn [append]. eauto.
Qed.
Lemma start_line s a r : s = String a r -> isWordStart a = true -> content s = true /\ firstIs "[" s = false.
Proof. intros -> H. apply wordStart_first in H. destruct H as [H1 H2]. unfold content. cbn [String.eqb firstIs orb]. now rewrite H1, H2. Qed.

(** ** Declarations *)

Definition apWords (d : declaration) : list string := match d with DBool x => [x; (x ++ "'")%string] | DInt x mn mx => bitNames x mn mx end.
Definition good (d : declaration) : Prop :=
  match d with
  | DBool x => noQuote x = true /\ tidy x /\ content x = true
  | DInt x mn mx => (mn <= mx)%Z /\ isWordToken x = true /\ noQuote x = true
  end.
(** Lines for the limits of a variable that are added to a section. *)
Definition limKey (thoroughly : bool) (k k' : string) (d : declaration) : list string :=
  match d with
  | DBool _ => []
  | DInt x mn mx =>
      if String.eqb k' ("[" ++ destination k ++ "_INIT]") then fst (limitLines thoroughly x mn mx)
      else if String.eqb k' ("[" ++ destination k ++ "_TRANS]") then snd (limitLines thoroughly x mn mx)
      else []
  end.

Lemma noQuote_spec s : hasChar "'" s = false <-> noQuote s = true.
Proof.
  unfold hasChar, noQuote, quoteChar. induction s as [|a s IH]; cbn [list_ascii_of_string existsb allChars]; [tauto|].
  rewrite (Ascii.eqb_sym "'" a). destruct (Ascii.eqb a "'"); cbn [orb negb andb]; [split; discriminate|exact IH].
Qed.
Lemma hasChar_false c s : hasChar c s = false <-> ~ occursIn c s.
Proof. rewrite <- hasChar_spec. destruct (hasChar c s); split; congruence. Qed.
Lemma pushAll_spec ls : forall d k k', pushAll d k ls k' = if String.eqb k' k then d k' ++ ls else d k'.
Proof.
  unfold pushAll. induction ls as [|l ls IH]; intros d k k'; cbn [fold_left]; [rewrite app_nil_r; now destruct (String.eqb k' k)|].
  rewrite IH. unfold pushLine. destruct (String.eqb k' k); auto. now rewrite <- app_assoc.
Qed.

Lemma limit_first L : forall ws i t ts, In (String.substring 0 1 t) ["|"; "&"; "0"]%string -> exists t' ts', limitTokens L i ws (t :: ts) = t' :: ts' /\ In (String.substring 0 1 t') ["|"; "&"; "0"]%string.
Proof.
  induction ws as [|w ws IH]; intros i t ts H; cbn [limitTokens]; [eauto|].
  destruct (Z.testbit L (Z.of_nat i)); cbn [app]; apply IH; cbn; tauto.
Qed.
Lemma concat_first t ts : exists r, String.concat " " (t :: ts) = (t ++ r)%string.
Proof. cbn [String.concat]. destruct ts as [|u ts]; [exists ""%string; now rewrite sapp_nil|]. eexists. reflexivity. Qed.

Lemma noNl_join ts : Forall noNl ts -> noNl (String.concat " " ts).
Proof.
  induction 1 as [|t ts Ht H IH]; [intros a []|]. cbn [String.concat]. destruct ts as [|u ts]; auto.
  apply noNl_app; auto. apply noNl_app; auto. now apply noNl_lit.
Qed.
Lemma limit_noNl L : forall ws i ts, Forall noNl ws -> Forall noNl ts -> Forall noNl (limitTokens L i ws ts).
Proof.
  induction ws as [|w ws IH]; intros i ts Hw Ht; cbn [limitTokens]; auto. inversion Hw; subst. apply IH; auto.
  destruct (Z.testbit L (Z.of_nat i)); cbn [app]; (constructor; [now apply noNl_lit|constructor; auto]).
Qed.
Lemma limit_line L ws : Forall noNl ws -> let l := String.concat " " (limitTokens L 0 ws ["0"%string]) in lineOK l /\ contentS l = true.
Proof.
  intros H l. destruct (limit_first L ws 0 "0"%string []) as (t & ts & E & F); [cbn; tauto|]. unfold l. rewrite E.
  assert (N : noNl (String.concat " " (t :: ts))).
  { apply noNl_join. rewrite <- E. apply limit_noNl; auto. constructor; [now apply noNl_lit|constructor]. }
  destruct (concat_first t ts) as (r & ER). rewrite ER in *. destruct t as [|a t]; [cbn in F; intuition discriminate|].
  assert (A : a = "|"%char \/ a = "&"%char \/ a = "0"%char) by (cbn in F; intuition congruence).
  unfold lineOK, contentS, content. cbn [append] in *. destruct (strip_first a (t ++ r)) as (r' & S); [intuition (subst; reflexivity)|]. rewrite S.
  split; [split; [exact N|]|]; cbn [firstIs String.eqb]; intuition (subst; reflexivity).
Qed.
Lemma comment_line s : noNl s -> lineOK (String "#" s) /\ contentS (String "#" s) = false.
Proof.
  intros H. destruct (strip_first "#" s eq_refl) as (r & S). unfold lineOK, contentS, content. rewrite S. repeat split.
  intros a [<-|X]; [discriminate|auto].
Qed.
Lemma bits_noNl x mn mx : isWordToken x = true -> Forall noNl (translatedNames x mn mx) /\ Forall noNl (map (fun w => w ++ "'")%string (translatedNames x mn mx)).
Proof.
  intros H. change (translatedNames x mn mx) with (bitNames x mn mx). unfold bitNames. rewrite map_map. split; apply Forall_map, Forall_forall; intros i _.
  - now apply noWs_noNl, noWs_bit.
  - apply noWs_noNl. rewrite noWs_app, noWs_bit; auto.
Qed.
Lemma noNl_showZ z : noNl (showZ z).
Proof. apply noWs_noNl, noWs_showZ. Qed.

Lemma addLimits_spec th k x mn mx lines : isWordToken x = true -> exists pA, (forall k', addLimits th k x mn mx lines k' = lines k' ++ pA k') /\
  (forall k', Forall lineOK (pA k')) /\ (forall k', filter contentS (pA k') = limKey th k k' (DInt x mn mx)).
Proof.
  intros H. unfold addLimits, limKey, limitLines. cbv zeta.
  destruct (2 ^ Z.of_nat (nofBits mn mx) =? mx - mn + 1)%Z.
  { exists (fun _ => []). repeat split; intros k'; [now rewrite app_nil_r|constructor|]. cbn [fst snd filter]. repeat match goal with |- context [if ?c then _ else _] => destruct c end; reflexivity. }
  destruct (bits_noNl x mn mx H) as [B1 B2].
  pose proof (limit_line (mx - mn + 1) _ B1) as I. pose proof (limit_line (mx - mn + 1) _ B2) as X. cbv zeta in I, X.
  set (init := String.concat " " (limitTokens (mx - mn + 1) 0 (translatedNames x mn mx) ["0"%string])) in *.
  set (next := String.concat " " (limitTokens (mx - mn + 1) 0 (map (fun w => w ++ "'")%string (translatedNames x mn mx)) ["0"%string])) in *.
  clearbody init next.
  assert (C : forall y, noNl y -> let c := ("## Variable limits: " ++ showZ mn ++ "<=" ++ y ++ "<=" ++ showZ mx)%string in lineOK c /\ contentS c = false).
  { intros y Hy c. apply (comment_line ("# Variable limits: " ++ showZ mn ++ "<=" ++ y ++ "<=" ++ showZ mx)).
    repeat (apply noNl_app; [first [now apply noNl_lit|apply noNl_showZ|exact Hy]|]). apply noNl_showZ. }
  pose proof (noWs_noNl _ (token_noWs _ H)) as NX.
  pose proof (C x NX) as C1. pose proof (C (x ++ "'")%string (noNl_app _ _ NX (noNl_lit "'" eq_refl))) as C2. cbv zeta in C1, C2. clear C.
  set (c1 := ("## Variable limits: " ++ showZ mn ++ "<=" ++ x ++ "<=" ++ showZ mx)%string) in *.
  set (c2 := ("## Variable limits: " ++ showZ mn ++ "<=" ++ (x ++ "'") ++ "<=" ++ showZ mx)%string) in *.
  clearbody c1 c2. destruct I as [I1 I2], X as [X1 X2], C1 as [C1 C1'], C2 as [C2 C2'].
  exists (fun k' => if String.eqb k' ("[" ++ destination k ++ "_INIT]") then [c1; init]
    else if String.eqb k' ("[" ++ destination k ++ "_TRANS]") then (if th then [c1; init] else []) ++ [c2; next] else []).
  assert (NE : String.eqb ("[" ++ destination k ++ "_INIT]") ("[" ++ destination k ++ "_TRANS]") = false) by (unfold destination; destruct (String.eqb k "[OUTPUT]"); reflexivity).
  cbn [fst snd]. repeat split; intros k'.
  - destruct th; rewrite !pushAll_spec; destruct (String.eqb_spec k' ("[" ++ destination k ++ "_INIT]")) as [->|N1]; rewrite ?NE; auto;
      destruct (String.eqb k' ("[" ++ destination k ++ "_TRANS]")); rewrite ?app_nil_r; auto. cbn [app]. now rewrite <- app_assoc.
  - destruct (String.eqb k' _); [repeat constructor; auto|]; try (apply C1 || apply I1). destruct (String.eqb k' _); [|constructor].
    destruct th; cbn [app]; repeat (constructor; [assumption|]); constructor.
  - destruct (String.eqb k' _); [cbn [filter]; now rewrite C1', I2|]. destruct (String.eqb k' _); [|reflexivity].
    destruct th; cbn [app filter]; rewrite ?C1', ?C2', ?I2, ?X2; reflexivity.
Qed.

Definition step (th : bool) (k : string) (ls : list string) (st st' : convState) : Prop :=
  exists ioA pA ds,
    (forall k', translatedIOLines st' k' = if String.eqb k' k then translatedIOLines st k' ++ ioA else translatedIOLines st k') /\
    Forall lineOK ioA /\ map strip (filter contentS ioA) = flat_map namesOfBits ds /\
    booleanAPs st' = booleanAPs st ++ flat_map apWords ds /\ numberAPLimits st' = rev (integers ds) ++ numberAPLimits st /\
    (forall k', propertyLines st' k' = propertyLines st k' ++ pA k') /\ (forall k', Forall lineOK (pA k')) /\
    (forall k', filter contentS (pA k') = flat_map (limKey th k k') ds) /\
    Forall2 declares (filter content ls) ds /\ Forall good ds.

Lemma declareLine_spec th k line st st' : tidy line -> (content line = true -> forall x mn mx, declares line (DInt x mn mx) -> isWordToken x = true) ->
  declareLine th k line st = Ret st' -> step th k [line] st st'.
Proof.
  intros (T1 & T2 & T3) HW. unfold declareLine, step. destruct (String.eqb line "" || firstIs "#" line) eqn:C.
  { intros E. apply (f_equal (fun r => match r with Ret q => q | _ => st end)) in E. subst st'. exists [line], (fun _ => []), []. cbn [translatedIOLines booleanAPs numberAPLimits propertyLines flat_map integers rev app filter].
    assert (LO : lineOK line) by (split; auto; now rewrite T1).
    unfold contentS, content. rewrite T1, C. cbn [negb map]. repeat split; auto; intros; now rewrite ?app_nil_r. }
  assert (CT : content line = true) by (unfold content; now rewrite C).
  destruct (hasChar "'" line) eqn:Q; [discriminate|]. apply noQuote_spec in Q. destruct (hasChar "@" line) eqn:QA; [discriminate|].
  destruct (hasChar ":" line) eqn:Col.
  - destruct (map trim (splitChar ":" line)) as [|variable [|range [|]]] eqn:SP; try discriminate.
    destruct (splitDots3 range) as [|low [|high [|]]] eqn:SD; try discriminate.
    destruct (pyInt low) as [mn|] eqn:P1; [|discriminate]. destruct (pyInt high) as [mx|] eqn:P2; [|discriminate].
    destruct (Z.ltb_spec mx mn) as [LT|LE]; [discriminate|].
    intros E. apply (f_equal (fun r => match r with Ret q => q | _ => st end)) in E. subst st'.
    destruct (splitChar ":" line) as [|p1 [|p2 [|]]] eqn:SC; try discriminate. cbn [map] in SP. injection SP as E1 E2. rewrite trim_spec in E1, E2.
    apply splitChar_two in SC. destruct SC as (EL & N1 & N2). apply splitDots3_two in SD. apply pyInt_spec in P1, P2.
    assert (DC : declares line (DInt variable mn mx)).
    { rewrite <- E1. apply (d_int line p1 p2 low high); auto. now rewrite E2. }
    pose proof (HW CT _ _ _ DC) as HT.
    destruct (addLimits_spec th k variable mn mx (propertyLines st) HT) as (pA & A1 & A2 & A3).
    exists (translatedNames variable mn mx), pA, [DInt variable mn mx]. cbn [translatedIOLines booleanAPs numberAPLimits propertyLines flat_map integers rev app filter].
    rewrite CT, !app_nil_r. split; [intros k'; apply pushAll_spec|].
    assert (BN : forall w, In w (translatedNames variable mn mx) -> strip w = w /\ noNl w /\ content w = true /\ firstIs "[" w = false).
    { intros w Hw. change (In w (bitNames variable mn mx)) in Hw. unfold bitNames in Hw. apply in_map_iff in Hw. destruct Hw as (i & <- & _).
      pose proof (noWs_bit variable mn mx i HT) as NW. split; [now apply strip_noWs|]. split; [now apply noWs_noNl|].
      destruct (bit_first variable mn mx i HT) as (a & r & ER & Ha). eapply start_line; eauto. }
    split; [|split; [|repeat split; auto]].
    + apply Forall_forall. intros w Hw. destruct (BN w Hw) as (B1 & B2 & B3 & B4). split; auto. now rewrite B1.
    + change (bitNames variable mn mx) with (translatedNames variable mn mx). cbn [namesOfBits]. change (bitNames variable mn mx) with (translatedNames variable mn mx).
      induction (translatedNames variable mn mx) as [|w ws IH]; [reflexivity|]. cbn [filter]. destruct (BN w (or_introl eq_refl)) as (B1 & B2 & B3 & B4).
      unfold contentS. rewrite B1, B3. cbn [map]. rewrite B1. f_equal. apply IH. intros w' Hw'. apply BN. now right.
    + intros k'. rewrite A3. now rewrite app_nil_r.
    + constructor; auto. cbn [good]. repeat split; auto. apply noQuote_spec, hasChar_false. intros O. rewrite <- E1 in O. apply strip_in in O.
      assert (O2 : occursIn "'" line) by (rewrite EL; apply occurs_app; now left). apply hasChar_spec in O2. apply noQuote_spec in Q. congruence.
  - intros E. apply (f_equal (fun r => match r with Ret q => q | _ => st end)) in E. subst st'.
    exists [line], (fun _ => []), [DBool line]. cbn [translatedIOLines booleanAPs numberAPLimits propertyLines flat_map integers rev app filter namesOfBits apWords limKey].
    assert (LO : lineOK line) by (split; auto; now rewrite T1).
    unfold contentS. rewrite T1, CT. cbn [map]. rewrite T1. repeat split; auto; try (intros; now rewrite ?app_nil_r).
    + constructor; auto. apply d_bool. now apply hasChar_false.
    + constructor; auto. cbn [good]. repeat split; auto.
Qed.

Lemma integers_app a b : integers (a ++ b) = integers a ++ integers b.
Proof. unfold integers. apply flat_map_app. Qed.
Lemma step_trans th k l1 l2 st st1 st2 : step th k l1 st st1 -> step th k l2 st1 st2 -> step th k (l1 ++ l2) st st2.
Proof.
  intros (io1 & p1 & d1 & A1 & A2 & A3 & A4 & A5 & A6 & A7 & A8 & A9 & A10) (io2 & p2 & d2 & B1 & B2 & B3 & B4 & B5 & B6 & B7 & B8 & B9 & B10).
  exists (io1 ++ io2), (fun k' => p1 k' ++ p2 k'), (d1 ++ d2). rewrite !filter_app, !map_app, !flat_map_app, integers_app, rev_app_distr.
  split; [intros k'; rewrite B1, A1; destruct (String.eqb k' k); auto; now rewrite app_assoc|].
  split; [apply Forall_app; auto|]. split; [now rewrite A3, B3|]. split; [rewrite B4, A4; now rewrite app_assoc|]. split; [rewrite B5, A5; now rewrite app_assoc|].
  split; [intros k'; rewrite B6, A6; now rewrite app_assoc|]. split; [intros k'; apply Forall_app; auto|].
  split; [intros k'; now rewrite filter_app, flat_map_app, A8, B8|]. split; [apply Forall2_app; auto|apply Forall_app; auto].
Qed.
Lemma declareLines_spec th k ls : Forall tidy ls -> (forall line x mn mx, In line (filter content ls) -> declares line (DInt x mn mx) -> isWordToken x = true) ->
  forall st st', declareLines th k ls st = Ret st' -> step th k ls st st'.
Proof.
  induction 1 as [|l ls Hl H IH]; intros HW st st' E; cbn [declareLines] in E.
  - injection E as <-. exists [], (fun _ => []), []. cbn. repeat split; auto; intros; rewrite ?app_nil_r; auto; match goal with |- context [if ?c then _ else _] => now destruct c end.
  - destruct (declareLine th k l st) as [st1| |] eqn:E1; cbn [pybind] in E; try discriminate.
    apply (step_trans th k [l] ls st st1 st').
    + apply declareLine_spec; auto. intros C x mn mx Hd. apply (HW l x mn mx); auto. cbn [filter]. rewrite C. now left.
    + apply IH; auto. intros line x mn mx Hi. apply HW. cbn [filter]. destruct (content l); auto. now right.
Qed.
