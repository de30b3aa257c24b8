(** * Proofs: the formulas that the translator for structured slugs files writes have single blanks *)

From Coq Require Import String Ascii List Bool Arith NArith ZArith Lia.
From Verif Require Import FormulaSpec FileSpec StructuredSpec Structured StructuredProofs StructuredAccept StructuredTrans EstimatorText StructFileProofs StructTokenProofs AigProofs AigFile GraphProofs.
Import ListNotations.
Local Open Scope string_scope.
Local Open Scope list_scope.

Definition wd (w : string) : Prop := w <> "" /\ noWs w = true.
(** Words with single blanks between them. *)
Definition solid (t : string) : Prop := exists ws, ws <> [] /\ Forall wd ws /\ t = join ws.
Lemma wd_words w : wd w -> words w = [w].
Proof. intros [H1 H2]. destruct w as [|a w]; [now elim H1|]. now apply words_noWs. Qed.
Lemma join_words ws : Forall wd ws -> words (join ws) = ws.
Proof. intros H. unfold join. rewrite words_join. induction H as [|w ws H F IH]; [reflexivity|]. cbn [flat_map]. now rewrite wd_words, IH. Qed.
Lemma solid_words t : solid t -> words t <> [] /\ join (words t) = t.
Proof. intros (ws & H1 & H2 & ->). now rewrite join_words. Qed.
Lemma solid_wd w : wd w -> solid w.
Proof. intros H. exists [w]. split; [discriminate|]. split; [now constructor|reflexivity]. Qed.
Lemma solid_join ts : ts <> [] -> Forall solid ts -> solid (String.concat " " ts).
Proof.
  intros NE F. exists (flat_map words ts). assert (S1 : Forall (fun l => words l <> [] /\ join (words l) = l) ts) by (eapply Forall_impl; [|exact F]; intros t; apply solid_words). split; [|split].
  - destruct F as [|t ts' H F]; [now elim NE|]. cbn [flat_map]. intros E. apply app_eq_nil in E. apply (proj1 (solid_words t H)). apply E.
  - apply Forall_forall. intros w Hw. apply in_flat_map in Hw. destruct Hw as (t & Ht & Hw). rewrite Forall_forall in F. destruct (F t Ht) as (ws & _ & W & ->). rewrite join_words in Hw by exact W. rewrite Forall_forall in W. now apply W.
  - symmetry. now apply join_lines.
Qed.
Lemma wd_first w : wd w -> exists a r, w = String a r /\ isWs a = false.
Proof. intros [H1 H2]. destruct w as [|a r]; [now elim H1|]. exists a, r. split; [reflexivity|]. unfold noWs in H2. cbn [allChars] in H2. apply andb_prop in H2. now apply negb_true_iff. Qed.
Lemma wd_last w : wd w -> exists r b, w = (r ++ String b "")%string /\ isWs b = false.
Proof.
  intros [H1 H2]. induction w as [|a w IH]; [now elim H1|]. unfold noWs in *. cbn [allChars] in H2. apply andb_prop in H2. destruct H2 as [W1 W2]. destruct w as [|a' w].
  - exists "", a. split; [reflexivity|]. now apply negb_true_iff.
  - destruct IH as (r & b & E & B); [discriminate|exact W2|]. exists (String a r), b. split; [cbn [append]; now rewrite <- E|exact B].
Qed.
Lemma solid_strip t : solid t -> strip t = t.
Proof.
  intros (ws & NE & F & ->). destruct (exists_last NE) as (vs & w & ->). apply Forall_app in F. destruct F as [F1 F2]. inversion F2 as [|? ? W _]; subst. destruct (wd_last w W) as (r & b & -> & B).
  destruct vs as [|v vs].
  - change (join ([] ++ [(r ++ String b "")%string])) with (r ++ String b "")%string. apply strip_solid; [|exact B]. destruct (wd_first _ W) as (a & q & E & A). destruct r as [|a' r]; [exact I|]. cbn [append] in E. injection E as -> _. exact A.
  - rewrite join_app by discriminate. change (join [(r ++ String b "")%string]) with (r ++ String b "")%string. change (String " " (r ++ String b ""))%string with (String " " r ++ String b "")%string. rewrite <- append_assoc. apply strip_solid; [|exact B].
    inversion F1 as [|? ? V _]; subst. destruct (wd_first v V) as (a & q & -> & A). destruct vs as [|v' vs]; [exact A|]. exact A.
Qed.

(** ** Tokens *)
Ltac word := apply solid_wd; split; [discriminate|reflexivity].
Ltac op ws := exists ws; split; [discriminate|]; split; [repeat (constructor; [split; [discriminate|reflexivity]|]); constructor|reflexivity].
Lemma solid_str n : solid (str n).
Proof. apply solid_wd. split; [|apply noWs_uint]. intros E. pose proof (words_str n) as W. rewrite E in W. discriminate W. Qed.
Lemma solid_recall n : solid ("? " ++ str n).
Proof. exists ["?"; str n]. split; [discriminate|]. split; [|reflexivity]. constructor; [split; [discriminate|reflexivity]|]. constructor; [|constructor]. split; [|apply noWs_uint]. intros E. pose proof (words_str n) as W. rewrite E in W. discriminate W. Qed.
Ltac tok := first [assumption | apply solid_str | apply solid_recall | word | op ["|"; "!"] | op ["&"; "!"] | op ["^"; "^"] | op ["|"; "|"; "&"] | op ["&"; "?"] | op ["&"; "|"; "!"] | op ["&"; "|"] | op ["!"; "^"]].
Ltac toks := repeat (constructor; [tok|]); try assumption; try constructor.

Lemma limit_solid d names : Forall solid names -> forall i ts, Forall solid ts -> Forall solid (limitTokens d i names ts).
Proof.
  induction 1 as [|x names Hx F IH]; intros i ts Ht; cbn [limitTokens]; [exact Ht|]. apply IH. destruct (Z.testbit _ _); cbn [app]; toks.
Qed.
Lemma limit_ne d names : forall i ts, ts <> [] -> limitTokens d i names ts <> [].
Proof. induction names as [|x names IH]; intros i ts H; cbn [limitTokens]; [exact H|]. apply IH. destruct (Z.testbit _ _); discriminate. Qed.
Notation psolid := (Forall (Forall solid)).
Lemma push_solid ps t : psolid ps -> Forall solid t -> psolid (pushPart ps t).
Proof. intros H1 H2. unfold pushPart. apply Forall_app. auto. Qed.
Lemma rest_solid p2 : Forall solid p2 -> forall ps, psolid ps -> psolid (addRest p2 ps).
Proof. induction 1 as [|b p2 Hb F IH]; intros ps H; cbn [addRest]; [exact H|]. apply IH. apply push_solid; [apply push_solid; [exact H|]|]; toks. Qed.
Lemma joint_solid p1 : Forall solid p1 -> forall p2 ps, Forall solid p2 -> psolid ps -> psolid (addJoint p1 p2 ps).
Proof.
  induction 1 as [|a p1 Ha F IH]; intros p2 ps H2 H; [destruct p2; now apply rest_solid|]. destruct H2 as [|b p2 Hb H2]; [now apply (rest_solid [])|]. cbn [addJoint]. apply IH; [exact H2|]. apply push_solid; [apply push_solid; [exact H|]|]; toks.
Qed.
Lemma tl_solid (p : list string) : Forall solid p -> Forall solid (tl p).
Proof. destruct 1; cbn; auto. Qed.
Lemma hd_solid (p : list string) : Forall solid p -> Nat.eqb (length p) 0 = false -> solid (hd "" p).
Proof. destruct 1; cbn; auto. discriminate. Qed.
Lemma add_solid p1 p2 ps : Forall solid p1 -> Forall solid p2 -> psolid ps -> Forall solid (fst (addBits p1 p2 ps)) /\ psolid (snd (addBits p1 p2 ps)).
Proof.
  intros H1 H2 H. unfold addBits. destruct (Nat.eqb (length p1) 0) eqn:E1; [auto|]. destruct (Nat.eqb (length p2) 0) eqn:E2; [auto|].
  assert (X : forall q1 q2, Forall solid q1 -> Forall solid q2 -> Nat.eqb (length q1) 0 = false -> Nat.eqb (length q2) 0 = false ->
    let ps' := addJoint (tl q1) (tl q2) (pushPart (pushPart ps ["^"; hd "" q1; hd "" q2]) ["&"; hd "" q1; hd "" q2]) in
    Forall solid (map (fun i => "? " ++ str (i * 2 + length ps))%string (seq 0 (length q2)) ++ [("? " ++ str (length ps' - 1))%string]) /\ psolid ps').
  { intros q1 q2 Q1 Q2 N1 N2 ps'. split.
    - apply Forall_app. split; [|toks]. apply Forall_forall. intros w Hw. apply in_map_iff in Hw. destruct Hw as (i & <- & _). apply solid_recall.
    - apply joint_solid; try now apply tl_solid. pose proof (hd_solid q1 Q1 N1). pose proof (hd_solid q2 Q2 N2). apply push_solid; [apply push_solid; [exact H|]|]; toks. }
  destruct (Nat.ltb (length p2) (length p1)); cbn [fst snd]; now apply X.
Qed.
Lemma bits_solid p : Forall solid (posBits p).
Proof. induction p; cbn [posBits]; toks. Qed.
Lemma words_wd s : Forall wd (words s).
Proof.
  induction s as [|a s IH]; [constructor|]. cbn [words]. destruct (isWs a) eqn:W; [exact IH|].
  assert (N : forall r, noWs r = true -> wd (String a r)) by (intros r H; split; [discriminate|]; unfold noWs in *; cbn [allChars]; now rewrite W, H).
  destruct s as [|b s]; [constructor; [now apply N|constructor]|]. destruct (isWs b) eqn:Wb.
  - constructor; [now apply N|exact IH].
  - destruct (words (String b s)) as [|w ws]; [constructor; [now apply N|constructor]|]. inversion IH as [|? ? H1 H2]; subst. constructor; [apply N, H1|exact H2].
Qed.
Lemma plain_solid w : words w = [w] -> solid w.
Proof. intros W. pose proof (words_wd w) as B. rewrite W in B. inversion B; subst. now apply solid_wd. Qed.
Lemma names_solid y mn mx p : y = "" \/ isWordToken y = true -> Forall solid (map (prime p) (bitNames y mn mx)).
Proof.
  intros H. apply Forall_forall. intros w Hw. apply in_map_iff in Hw. destruct Hw as (v & <- & Hv). unfold bitNames in Hv. apply in_map_iff in Hv. destruct Hv as (i & <- & _).
  apply plain_solid. apply (bitName_plain y mn mx i p H).
Qed.

Section FORMULAS.
  Variable D : limits.
  Lemma calc_solid primed a : forall ps p ps', calculation D primed a ps = Ret (p, ps') -> Forall solid (numSignals D primed a) -> psolid ps -> Forall solid p /\ psolid ps'.
  Proof.
    induction a as [x|n|a IHa b IHb|a IHa b IHb|a IHa|a IHa b IHb]; intros ps p ps' E HS HP; cbn [calculation] in E; cbn [numSignals] in HS.
    - rewrite unprime_spec in HS. destruct (lastIsPrime x && primed) eqn:LP; [discriminate|].
      destruct (limitsOf D (if lastIsPrime x then withoutLast x else x)) as [[mn mx]|]; [|discriminate].
      apply (f_equal (fun r => match r with Ret q => q | _ => ([], []) end)) in E. cbv beta iota in E. apply pair_equal_spec in E. destruct E as [<- <-]. split; auto.
      change (translatedNames (if lastIsPrime x then withoutLast x else x) mn mx) with (bitNames (if lastIsPrime x then withoutLast x else x) mn mx).
      destruct (lastIsPrime x), primed; cbn [orb andb negb] in *; try discriminate; try exact HS. rewrite prime_false in HS. exact HS.
    - unfold numeralBits in E. destruct n; try discriminate; injection E as <- <-; split; auto. apply bits_solid.
    - apply Forall_app in HS. destruct HS as [S1 S2]. destruct (calculation D primed a ps) as [[p1 ps1]| |] eqn:E1; cbn [pybind] in E; try discriminate.
      destruct (calculation D primed b ps1) as [[p2 ps2]| |] eqn:E2; cbn [pybind] in E; try discriminate.
      destruct (IHa _ _ _ E1 S1 HP) as [A1 A2]. destruct (IHb _ _ _ E2 S2 A2) as [B1 B2]. destruct (add_solid p1 p2 ps2 A1 B1 B2) as [C1 C2]. injection E as E. rewrite E in C1, C2. auto.
    - discriminate.
    - eapply IHa; eauto.
    - apply Forall_app in HS. destruct HS as [S1 S2]. destruct (calculation D primed a ps) as [[p1 ps1]| |] eqn:E1; cbn [pybind] in E; try discriminate.
      destruct (calculation D primed b ps1) as [[p2 ps2]| |] eqn:E2; cbn [pybind] in E; try discriminate.
      destruct (IHa _ _ _ E1 S1 HP) as [A1 A2]. destruct (IHb _ _ _ E2 S2 A2) as [B1 B2].
      destruct (Nat.ltb (length p1) (length p2)); [|discriminate]. injection E as <- <-. split; auto. apply Forall_app. split; auto.
      rewrite <- (firstn_skipn (length p1) p2) in B1. apply Forall_app in B1. apply B1.
  Qed.
  Lemma fold_solid (ops : string -> list string) p : Forall solid p -> (forall b, solid b -> Forall solid (ops b)) -> forall ts, Forall solid ts -> Forall solid (fold_left (fun this b => ops b ++ this) p ts).
  Proof. intros F HO. induction F as [|b p Hb F IH]; intros ts Ht; cbn [fold_left]; [exact Ht|]. apply IH. apply Forall_app. auto. Qed.
  Lemma greater_solid p1 : Forall solid p1 -> forall p2 ts, Forall solid p2 -> Forall solid ts -> Forall solid (greaterParts p1 p2 ts).
  Proof.
    induction 1 as [|a p1 Ha F IH]; intros p2 ts H2 Ht.
    - cbn [greaterParts]. apply (fold_solid (fun b => ["& !"; b])); auto. intros; toks.
    - destruct H2 as [|b p2 Hb H2]; cbn [greaterParts]; [apply (fold_solid (fun a => ["|"; a]) (a :: p1)); [now constructor|intros; toks|exact Ht]|]. apply IH; [exact H2|]. cbn [app]; toks.
  Qed.
  Lemma smaller_solid p1 : Forall solid p1 -> forall p2 ts, Forall solid p2 -> Forall solid ts -> Forall solid (smallerParts p1 p2 ts).
  Proof.
    induction 1 as [|a p1 Ha F IH]; intros p2 ts H2 Ht.
    - cbn [smallerParts]. apply (fold_solid (fun b => ["|"; b])); auto. intros; toks.
    - destruct H2 as [|b p2 Hb H2]; cbn [smallerParts]; [apply (fold_solid (fun a => ["& !"; a]) (a :: p1)); [now constructor|intros; toks|exact Ht]|]. apply IH; [exact H2|]. cbn [app]; toks.
  Qed.
  Lemma equal_solid p1 : Forall solid p1 -> forall p2 ts, Forall solid p2 -> Forall solid ts -> Forall solid (equalParts p1 p2 ts).
  Proof.
    induction 1 as [|a p1 Ha F IH]; intros p2 ts H2 Ht.
    - cbn [equalParts]. apply (fold_solid (fun b => ["& !"; b])); auto. intros; toks.
    - destruct H2 as [|b p2 Hb H2]; cbn [equalParts]; [apply (fold_solid (fun a => ["& !"; a]) (a :: p1)); [now constructor|intros; toks|exact Ht]|]. apply IH; [exact H2|]. cbn [app]; toks.
  Qed.
  Lemma comparison_solid c p1 p2 : Forall solid p1 -> Forall solid p2 -> Forall solid (comparison c p1 p2).
  Proof.
    intros H1 H2. assert (O1 : Forall solid ["1"]) by toks. assert (O0 : Forall solid ["0"]) by toks.
    destruct c; cbn [comparison]; try (now apply greater_solid); try (now apply smaller_solid); try (now apply equal_solid). constructor; [word|now apply equal_solid].
  Qed.
  Lemma minimum_solid primed a : forall a', addMinimum D a = Ret a' -> Forall solid (numSignals D primed a) -> Forall solid (numSignals D primed a').
  Proof.
    induction a as [x|n|a IHa b IHb|a IHa b IHb|a IHa|a IHa b IHb]; intros a' E HS; cbn [addMinimum] in E; cbn [numSignals] in HS;
      try (destruct (addMinimum D a) as [a1| |]; cbn [pybind] in E; try discriminate; try (destruct (addMinimum D b) as [b1| |]; cbn [pybind] in E; try discriminate);
           injection E as <-; cbn [numSignals]; rewrite ?Forall_app in *; intuition; fail).
    - destruct (limitsOf D (if lastIsPrime x then withoutLast x else x)) as [[mn mx]|] eqn:EL; [|discriminate]. destruct (mn =? 0)%Z; injection E as <-; cbn [numSignals]; auto. now rewrite app_nil_r.
    - injection E as <-. constructor.
  Qed.
  Lemma calcSub_solid a c b primed ts : calculationSubformula D a c b primed = Ret ts -> Forall solid (numSignals D primed a ++ numSignals D primed b) -> ts <> [] /\ Forall solid ts.
  Proof.
    unfold calculationSubformula. intros E HS. apply Forall_app in HS. destruct HS as [S1 S2].
    destruct (addMinimum D a) as [a'| |] eqn:EA; cbn [pybind] in E; try discriminate.
    destruct (calculation D primed a' []) as [[p1 ps1]| |] eqn:E1; cbn [pybind] in E; try discriminate.
    destruct (addMinimum D b) as [b'| |] eqn:EB; cbn [pybind] in E; try discriminate.
    destruct (calculation D primed b' ps1) as [[p2 ps2]| |] eqn:E2; cbn [pybind] in E; try discriminate.
    apply (f_equal (fun r => match r with Ret q => q | _ => [] end)) in E. cbv beta iota in E. subst ts.
    destruct (calc_solid _ _ _ _ _ E1 (minimum_solid _ _ _ EA S1)) as [A1 A2]; [constructor|].
    destruct (calc_solid _ _ _ _ _ E2 (minimum_solid _ _ _ EB S2) A2) as [B1 B2].
    split; [discriminate|]. apply Forall_app. split; [toks|]. unfold pushPart. rewrite concat_app. apply Forall_app. split; [|cbn; rewrite app_nil_r; now apply comparison_solid].
    clear - B2. induction B2; cbn; auto. apply Forall_app; auto.
  Qed.
  Lemma simple_solid t : forall primed ts, simpleFormula D primed t = Ret ts -> Forall solid (treeSignals D primed t) -> ts <> [] /\ Forall solid ts.
  Proof.
    assert (NARY : forall op primed fs, solid op -> Forall (fun t => forall primed ts, simpleFormula D primed t = Ret ts -> Forall solid (treeSignals D primed t) -> ts <> [] /\ Forall solid ts) fs ->
      Forall solid (flat_map (treeSignals D primed) fs) -> forall acc ts, (forall r, acc = Ret r -> r <> [] /\ Forall solid r) ->
      fold_left (fun ret f => pybind ret (fun ret => pybind (simpleFormula D primed f) (fun b => Ret ([op] ++ ret ++ b)))) fs acc = Ret ts -> ts <> [] /\ Forall solid ts).
    { intros op primed fs Hop HF. induction HF as [|f fs Hf HF IH]; intros HS acc ts HA E; cbn [fold_left] in E; [auto|]. cbn [flat_map] in HS. apply Forall_app in HS. destruct HS as [S1 S2].
      eapply IH; [exact S2| |exact E]. intros r Er. destruct acc as [r0| |]; cbn [pybind] in Er; try discriminate. destruct (simpleFormula D primed f) as [b| |] eqn:Eb; cbn [pybind] in Er; try discriminate.
      injection Er as <-. split; [discriminate|]. constructor; auto. apply Forall_app. split; [now apply HA|]. eapply Hf; eauto. }
    induction t as [f g IHf IHg|f g IHf IHg|fs IH|fs IH|fs IH| |o f IHf| | |x|a c b] using tree_rec'; intros primed ts E HS; cbn [simpleFormula] in E; try discriminate; cbn [treeSignals] in HS.
    - apply Forall_app in HS. destruct HS as [S1 S2].
      destruct (simpleFormula D primed f) as [b1| |] eqn:E1; cbn [pybind] in E; try discriminate.
      destruct (simpleFormula D primed g) as [b2| |] eqn:E2; cbn [pybind] in E; try discriminate.
      apply (f_equal (fun r => match r with Ret q => q | _ => [] end)) in E. cbv beta iota in E. subst ts.
      destruct (IHf _ _ E1 S1) as [N1 G1]. destruct (IHg _ _ E2 S2) as [N2 G2]. split; [discriminate|]. rewrite !Forall_app. repeat split; auto; toks.
    - apply Forall_app in HS. destruct HS as [S1 S2].
      destruct (simpleFormula D primed f) as [b1| |] eqn:E1; cbn [pybind] in E; try discriminate.
      destruct (simpleFormula D primed g) as [b2| |] eqn:E2; cbn [pybind] in E; try discriminate.
      apply (f_equal (fun r => match r with Ret q => q | _ => [] end)) in E. cbv beta iota in E. subst ts.
      destruct (IHf _ _ E1 S1) as [N1 G1]. destruct (IHg _ _ E2 S2) as [N2 G2]. split; [discriminate|]. rewrite !Forall_app. repeat split; auto; toks.
    - destruct fs as [|f fs]; [discriminate|]. inversion IH; subst. cbn [flat_map] in HS. apply Forall_app in HS. destruct HS as [S1 S2].
      eapply (NARY "|"%string primed fs); eauto. word.
    - destruct fs as [|f fs]; [discriminate|]. inversion IH; subst. cbn [flat_map] in HS. apply Forall_app in HS. destruct HS as [S1 S2].
      eapply (NARY "&"%string primed fs); eauto. word.
    - destruct o; try discriminate.
      + destruct (simpleFormula D primed f) as [b1| |] eqn:E1; cbn [pybind] in E; try discriminate. injection E as <-. split; [discriminate|]. constructor; [word|]. eapply IHf; eauto.
      + destruct primed; [discriminate|]. eapply IHf; eauto.
    - injection E as <-. split; [discriminate|]. toks.
    - injection E as <-. split; [discriminate|]. toks.
    - pose proof (prime_unprime x) as PU. destruct (unprime x) as [y p] eqn:U. cbn [fst snd] in PU. inversion HS as [|? ? S1 _]; subst.
      destruct primed.
      + destruct (existsb _ _) eqn:EX; [discriminate|]. injection E as <-. split; [discriminate|]. destruct p; cbn [prime orb] in *; auto.
        exfalso. assert (X : existsb (Ascii.eqb "'"%char) (list_ascii_of_string (y ++ "'")) = true) by (rewrite las_app, existsb_app; cbn; apply orb_true_r). congruence.
      + injection E as <-. split; [discriminate|]. rewrite orb_false_r in S1. auto.
    - eapply calcSub_solid; eauto.
  Qed.
  Lemma translate_solid f line : translate D f = Ret line -> tokens f = true -> solid line.
  Proof.
    unfold translate. intros E HT. destruct (simpleFormula D false (flatten (clean f))) as [ts| |] eqn:ES; cbn [pybind] in E; try discriminate. injection E as <-.
    destruct (simple_solid _ _ _ ES) as [N1 N2]; [|now apply solid_join]. apply Forall_forall. intros w Hw. apply flatten_signals, clean_signals in Hw.
    apply plain_solid. apply (signals_plain D f HT false w Hw).
  Qed.
End FORMULAS.
