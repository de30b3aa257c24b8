(** * Proofs: the text of translated formulas *)

From Coq Require Import String Ascii List Bool Arith NArith ZArith Lia.
From Coq Require Import DecimalString.
From Verif Require Import FormulaSpec Parser Spec FileSpec ParserProofs FileProofs OutputProofs SymbolicProofs EstimatorText Sem MonoProofs MinCoreProofs AigMain
  StructuredSpec Structured StructuredProofs StructuredTrans StructuredAccept PropsStructured StructGrammar StructParse StructReadProofs StructFileSpec StructFile StructGameProofs StructFileProofs StructDeclProofs StructLineProofs.
Import ListNotations.
Local Open Scope list_scope.

(** ** The meaning depends on limits and values *)

Lemma width_ext D D' : (forall x, limitsOf D x = limitsOf D' x) -> forall a, width D a = width D' a.
Proof. intros H. induction a; cbn [width]; rewrite ?H; congruence. Qed.
Lemma numValue_ext D D' nv nv' : (forall x, limitsOf D x = limitsOf D' x) -> (forall p x, nv p x = nv' p x) ->
  forall a next, numValue D nv next a = numValue D' nv' next a.
Proof.
  intros H HN. induction a; intros next; cbn [numValue]; rewrite ?(width_ext D D' H); try (rewrite IHa1, IHa2); auto.
  destruct (unprime x). apply HN.
Qed.
Lemma truth_ext D D' bv nv nv' : (forall x, limitsOf D x = limitsOf D' x) -> (forall p x, nv p x = nv' p x) ->
  forall f next, truth D bv nv next f = truth D' bv nv' next f.
Proof.
  intros H HN. induction f; intros next; cbn [truth]; rewrite ?(numValue_ext D D' nv nv' H HN); try (rewrite IHf1, IHf2); auto.
  destruct o; auto. now rewrite IHf.
Qed.

(** ** Words of formulas that have been read *)

Fixpoint assigned (f : sfml) : list string :=
  match f with
  | SBiimp f g | SImp f g | SXor f g | SOr f g | SAnd f g | STemporal _ f g => assigned f ++ assigned g
  | SUnary _ f | SBrackets f => assigned f
  | SFalse | STrue | SCalc _ _ _ => []
  | SAssign x => [x]
  end.
Definition tokOK (bools : list string) (t : token) : Prop :=
  (fst t = "boolID"%string -> isWordToken (snd t) = true /\ In (snd t) bools) /\ (fst t = "numID"%string -> isWordToken (snd t) = true).
Lemma key_sym bools w : In w keyWords -> tokOK bools (sym w).
Proof. intros H. split; cbn [sym fst snd]; intros ->; cbn in H; intuition discriminate. Qed.
Lemma lexes_tok bools line ts : lexes bools line ts -> Forall (tokOK bools) ts.
Proof.
  induction 1 as [|a s ts Ha H IH|w s t ts Hw He Ht H IH|w s ts Hw Hd He H IH|a s ts H1 H2 H3 H IH]; auto; constructor; auto.
  - destruct Ht as [K|K B|K B]; [now apply key_sym| |]; split; cbn [fst snd]; auto; discriminate.
  - split; cbn; discriminate.
  - split; cbn [sym fst snd]; intros E; injection E as _ E; discriminate.
Qed.
Lemma number_tokens bools l ts a : number l ts a -> Forall (tokOK bools) ts -> numTokens a = true.
Proof.
  induction 1; intros F; cbn [numTokens]; rewrite ?Forall_app in F; try (inversion F; subst); auto.
  - match goal with X : tokOK _ _ |- _ => now apply X end.
  - apply Z.leb_le. lia.
  - match goal with X : Forall _ (_ ++ _) |- _ => apply Forall_app in X; destruct X as [X _]; auto end.
  - destruct F as [F1 F2]. inversion F2; subst. now rewrite IHnumber1, IHnumber2.
  - destruct F as [F1 F2]. inversion F2; subst. now rewrite IHnumber1, IHnumber2.
  - destruct F as [F1 F2]. inversion F2; subst. now rewrite IHnumber1, IHnumber2.
Qed.
Lemma formula_tokens bools l ts f : formula l ts f -> Forall (tokOK bools) ts -> tokens f = true /\ forall x, In x (assigned f) -> In x bools.
Proof.
  induction 1 as [| |x|ts f H IH|ts f H IH|ts os us a c b H1 H2 H3|os ts o f H1 H2 IH|l ts f Hl H IH|l os c ts us f g H1 H2 IH2 H3 IH3]; intros F; cbn [tokens assigned]; auto.
  - split; [auto|intros x []].
  - split; [auto|intros x []].
  - inversion F as [|? ? F1 _]; subst. destruct F1 as [F1 _]. specialize (F1 eq_refl). split; [apply F1|]. intros y [<-|[]]. apply F1.
  - inversion F as [|? ? _ F1]; subst. apply Forall_app in F1. apply IH. apply F1.
  - inversion F as [|? ? _ F1]; subst. apply Forall_app in F1. apply IH. apply F1.
  - apply Forall_app in F. destruct F as [F1 F2]. apply Forall_app in F2. destruct F2 as [_ F2]. split; [|intros x []].
    rewrite (number_tokens _ _ _ _ H1 F1), (number_tokens _ _ _ _ H3 F2). reflexivity.
  - apply Forall_app in F. apply IH, F.
  - apply Forall_app in F. destruct F as [F1 F2]. apply Forall_app in F2. destruct F2 as [_ F2]. destruct (IH2 F1) as [A1 A2]. destruct (IH3 F2) as [B1 B2].
    assert (G : tokens f && tokens g = true /\ forall x, In x (assigned f ++ assigned g) -> In x bools).
    { rewrite A1, B1. split; auto. intros x Hx. apply in_app_or in Hx. destruct Hx; auto. }
    inversion H1; subst; exact G.
Qed.
Lemma reads_tokens bools line f : reads bools line f -> tokens f = true /\ forall x, In x (assigned f) -> In x bools.
Proof. intros (ts & H1 & H2). eapply formula_tokens; eauto. eapply lexes_tok; eauto. Qed.

Lemma unprime_start x : isWordToken x = true -> let (y, p) := unprime x in y = ""%string \/ exists a r, y = String a r /\ isWordStart a = true.
Proof.
  intros H. apply unprime_token in H. destruct (unprime x) as [y p]. destruct H as [H|H]; auto. right. destruct y as [|a y]; [discriminate|]. cbn [isWordToken] in H. apply andb_prop in H. destruct H. eauto.
Qed.
Lemma bit_start y mn mx i p : y = ""%string \/ (exists a r, y = String a r /\ isWordStart a = true) -> exists a r, prime p (bitName y mn mx i) = String a r /\ isWordStart a = true.
Proof.
  unfold bitName. intros [->|(a & r & -> & H)]; destruct p; cbn [prime append]; eexists _, _; split; try reflexivity; auto.
Qed.
Lemma numSignals_start D a : numTokens a = true -> forall next w, In w (numSignals D next a) -> exists a r, w = String a r /\ isWordStart a = true.
Proof.
  induction a as [x|n|a IHa b IHb|a IHa b IHb|a IHa|a IHa b IHb]; cbn [numTokens numSignals]; intros H next w Hw; eauto; try easy;
    try (apply andb_prop in H; destruct H; apply in_app_or in Hw; destruct Hw; eauto; fail).
  apply unprime_start in H. destruct (unprime x) as [y p]. destruct (limitsOf D y) as [[mn mx]|]; [|easy].
  unfold bitNames in Hw. rewrite map_map in Hw. apply in_map_iff in Hw. destruct Hw as (i & <- & _). now apply bit_start.
Qed.
Lemma signals_start D f : tokens f = true -> forall next w, In w (signals D next f) -> exists a r, w = String a r /\ isWordStart a = true.
Proof.
  induction f as [f IHf g IHg|f IHf g IHg|f IHf g IHg|f IHf g IHg|f IHf g IHg|wk f IHf g IHg|o f IHf| | |f IHf|x|a c b]; cbn [tokens signals]; intros H next w Hw; eauto; try easy;
    try (apply andb_prop in H; destruct H; apply in_app_or in Hw; destruct Hw; eauto using numSignals_start; fail).
  - destruct o; eauto.
  - pose proof (unprime_start x H) as H0. destruct (unprime x) as [y p] eqn:U. destruct Hw as [<-|[]]. pose proof (prime_unprime x) as PU. rewrite U in PU. cbn [fst snd] in PU.
    destruct H0 as [->|(a & r & -> & Ha)].
    + destruct p; [|cbn in PU; subst x; discriminate]. cbn. eauto.
    + destruct (p || next); cbn [prime append]; eauto.
Qed.

(** ** No newlines *)

Lemma noNl_str n : noNl (str n).
Proof. apply noWs_noNl, noWs_uint. Qed.
Local Ltac nl := repeat (first [assumption | apply Forall_nil | apply Forall_cons; [first [assumption|apply noNl_str|apply noNl_lit; reflexivity]|] ]).
Lemma posBits_noNl p : Forall noNl (posBits p).
Proof. induction p; cbn; nl. Qed.
Lemma addRest_noNl p2 : forall ps, Forall noNl p2 -> Forall (Forall noNl) ps -> Forall (Forall noNl) (addRest p2 ps).
Proof.
  induction p2 as [|b p2 IH]; intros ps H1 H2; cbn [addRest]; auto. inversion H1; subst. apply IH; auto. unfold pushPart. rewrite !Forall_app. repeat split; auto; (constructor; [nl|constructor]).
Qed.
Lemma addJoint_noNl p1 : forall p2 ps, Forall noNl p1 -> Forall noNl p2 -> Forall (Forall noNl) ps -> Forall (Forall noNl) (addJoint p1 p2 ps).
Proof.
  induction p1 as [|a p1 IH]; intros [|b p2] ps H1 H2 H3; cbn [addJoint]; try (apply addRest_noNl; auto; fail).
  inversion H1; inversion H2; subst. apply IH; auto. unfold pushPart. rewrite !Forall_app. repeat split; auto; (constructor; [nl|constructor]).
Qed.
Lemma hd_noNl l : Forall noNl l -> noNl (hd EmptyString l) /\ Forall noNl (tl l).
Proof. destruct 1; cbn; split; auto. intros a []. Qed.
Lemma addBits_noNl p1 p2 ps p ps' : Forall noNl p1 -> Forall noNl p2 -> Forall (Forall noNl) ps -> addBits p1 p2 ps = (p, ps') -> Forall noNl p /\ Forall (Forall noNl) ps'.
Proof.
  intros H1 H2 H3. unfold addBits. destruct (Nat.eqb (length p1) 0); [intros E; injection E as <- <-; auto|]. destruct (Nat.eqb (length p2) 0); [intros E; injection E as <- <-; auto|].
  assert (G : forall q1 q2, Forall noNl q1 -> Forall noNl q2 ->
    forall start, Forall noNl (map (fun i => "? " ++ str (i * 2 + start))%string (seq 0 (length q2)) ++ [("? " ++ str (length (addJoint (tl q1) (tl q2) (pushPart (pushPart ps ["^"; hd EmptyString q1; hd EmptyString q2]%string) ["&"; hd EmptyString q1; hd EmptyString q2]%string)) - 1))%string]) /\
    Forall (Forall noNl) (addJoint (tl q1) (tl q2) (pushPart (pushPart ps ["^"; hd EmptyString q1; hd EmptyString q2]%string) ["&"; hd EmptyString q1; hd EmptyString q2]%string))).
  { intros q1 q2 K1 K2 start. apply hd_noNl in K1. apply hd_noNl in K2. destruct K1, K2. split.
    - apply Forall_app. split; [apply Forall_map, Forall_forall; intros i _|constructor; [|constructor]]; (apply noNl_app; [now apply noNl_lit|apply noNl_str]).
    - apply addJoint_noNl; auto. unfold pushPart. rewrite !Forall_app. repeat split; auto; (constructor; [nl|constructor]). }
  destruct (Nat.ltb (length p2) (length p1)); intros E; apply pair_equal_spec in E; destruct E as [<- <-]; now apply G.
Qed.

Section NL.
  Variable D : limits.
  Lemma calculation_noNl primed a : forall ps p ps', calculation D primed a ps = Ret (p, ps') -> Forall noNl (numSignals D primed a) ->
    Forall (Forall noNl) ps -> Forall noNl p /\ Forall (Forall noNl) ps'.
  Proof.
    induction a as [x|n|a IHa b IHb|a IHa b IHb|a IHa|a IHa b IHb]; intros ps p ps' E HS HP; cbn [calculation] in E; cbn [numSignals] in HS.
    - rewrite unprime_spec in HS. destruct (lastIsPrime x && primed) eqn:LP; [discriminate|].
      destruct (limitsOf D (if lastIsPrime x then withoutLast x else x)) as [[mn mx]|]; [|discriminate].
      apply (f_equal (fun r => match r with Ret q => q | _ => ([], []) end)) in E. cbv beta iota in E. apply pair_equal_spec in E. destruct E as [<- <-]. split; auto.
      change (translatedNames (if lastIsPrime x then withoutLast x else x) mn mx) with (bitNames (if lastIsPrime x then withoutLast x else x) mn mx).
      destruct (lastIsPrime x), primed; cbn [orb andb negb] in *; try discriminate; try exact HS. rewrite prime_false in HS. exact HS.
    - unfold numeralBits in E. destruct n; try discriminate; injection E as <- <-; split; auto. apply posBits_noNl.
    - apply Forall_app in HS. destruct HS as [S1 S2]. destruct (calculation D primed a ps) as [[p1 ps1]| |] eqn:E1; cbn [pybind] in E; try discriminate.
      destruct (calculation D primed b ps1) as [[p2 ps2]| |] eqn:E2; cbn [pybind] in E; try discriminate.
      destruct (IHa _ _ _ E1 S1 HP) as [A1 A2]. destruct (IHb _ _ _ E2 S2 A2) as [B1 B2]. eapply addBits_noNl; [exact A1|exact B1|exact B2|]. injection E as ->. reflexivity.
    - discriminate.
    - eapply IHa; eauto.
    - apply Forall_app in HS. destruct HS as [S1 S2]. destruct (calculation D primed a ps) as [[p1 ps1]| |] eqn:E1; cbn [pybind] in E; try discriminate.
      destruct (calculation D primed b ps1) as [[p2 ps2]| |] eqn:E2; cbn [pybind] in E; try discriminate.
      destruct (IHa _ _ _ E1 S1 HP) as [A1 A2]. destruct (IHb _ _ _ E2 S2 A2) as [B1 B2].
      destruct (Nat.ltb (length p1) (length p2)); [|discriminate]. injection E as <- <-. split; auto. apply Forall_app. split; auto.
      rewrite <- (firstn_skipn (length p1) p2) in B1. apply Forall_app in B1. apply B1.
  Qed.
  Lemma foldl_noNl (f : list string -> string -> list string) : (forall this b, Forall noNl this -> noNl b -> Forall noNl (f this b)) ->
    forall l this, Forall noNl l -> Forall noNl this -> Forall noNl (fold_left f l this).
  Proof. intros Hf. induction l as [|b l IH]; intros this H1 H2; cbn [fold_left]; auto. inversion H1; subst. apply IH; auto. Qed.
  Lemma greater_noNl p1 : forall p2 t, Forall noNl p1 -> Forall noNl p2 -> Forall noNl t -> Forall noNl (greaterParts p1 p2 t).
  Proof.
    induction p1 as [|a p1 IH]; intros [|b p2] t H1 H2 H3; cbn [greaterParts]; try (apply foldl_noNl; auto; intros; cbn [app]; nl; fail); auto.
    inversion H1; inversion H2; subst. apply IH; auto. cbn [app]. nl.
  Qed.
  Lemma smaller_noNl p1 : forall p2 t, Forall noNl p1 -> Forall noNl p2 -> Forall noNl t -> Forall noNl (smallerParts p1 p2 t).
  Proof.
    induction p1 as [|a p1 IH]; intros [|b p2] t H1 H2 H3; cbn [smallerParts]; try (apply foldl_noNl; auto; intros; cbn [app]; nl; fail); auto.
    inversion H1; inversion H2; subst. apply IH; auto. cbn [app]. nl.
  Qed.
  Lemma equal_noNl p1 : forall p2 t, Forall noNl p1 -> Forall noNl p2 -> Forall noNl t -> Forall noNl (equalParts p1 p2 t).
  Proof.
    induction p1 as [|a p1 IH]; intros [|b p2] t H1 H2 H3; cbn [equalParts]; try (apply foldl_noNl; auto; intros; cbn [app]; nl; fail); auto.
    inversion H1; inversion H2; subst. apply IH; auto. cbn [app]. nl.
  Qed.
  Lemma comparison_noNl c p1 p2 : Forall noNl p1 -> Forall noNl p2 -> Forall noNl (comparison c p1 p2).
  Proof.
    intros H1 H2. assert (L0 : Forall noNl ["0"%string]) by nl. assert (L1 : Forall noNl ["1"%string]) by nl.
    destruct c; cbn [comparison]; auto using greater_noNl, smaller_noNl, equal_noNl. constructor; [now apply noNl_lit|]. now apply equal_noNl.
  Qed.
  Lemma minimum_signals primed a : forall a', addMinimum D a = Ret a' -> Forall noNl (numSignals D primed a) -> Forall noNl (numSignals D primed a').
  Proof.
    induction a as [x|n|a IHa b IHb|a IHa b IHb|a IHa|a IHa b IHb]; intros a' E HS; cbn [addMinimum] in E; cbn [numSignals] in HS;
      try (destruct (addMinimum D a) as [a1| |]; cbn [pybind] in E; try discriminate; try (destruct (addMinimum D b) as [b1| |]; cbn [pybind] in E; try discriminate);
           injection E as <-; cbn [numSignals]; rewrite ?Forall_app in *; intuition; fail).
    - destruct (limitsOf D (if lastIsPrime x then withoutLast x else x)) as [[mn mx]|] eqn:EL; [|discriminate]. destruct (mn =? 0)%Z; injection E as <-; cbn [numSignals]; auto. now rewrite app_nil_r.
    - injection E as <-. constructor.
  Qed.
  Lemma calcSub_noNl a c b primed ts : calculationSubformula D a c b primed = Ret ts -> Forall noNl (numSignals D primed a ++ numSignals D primed b) -> Forall noNl ts.
  Proof.
    unfold calculationSubformula. intros E HS. apply Forall_app in HS. destruct HS as [S1 S2].
    destruct (addMinimum D a) as [a'| |] eqn:EA; cbn [pybind] in E; try discriminate.
    destruct (calculation D primed a' []) as [[p1 ps1]| |] eqn:E1; cbn [pybind] in E; try discriminate.
    destruct (addMinimum D b) as [b'| |] eqn:EB; cbn [pybind] in E; try discriminate.
    destruct (calculation D primed b' ps1) as [[p2 ps2]| |] eqn:E2; cbn [pybind] in E; try discriminate.
    apply (f_equal (fun r => match r with Ret q => q | _ => [] end)) in E. cbv beta iota in E. subst ts.
    destruct (calculation_noNl _ _ _ _ _ E1 (minimum_signals _ _ _ EA S1)) as [A1 A2]; [constructor|].
    destruct (calculation_noNl _ _ _ _ _ E2 (minimum_signals _ _ _ EB S2) A2) as [B1 B2].
    apply Forall_app. split; [nl|]. unfold pushPart. rewrite concat_app. apply Forall_app. split; [|cbn; rewrite app_nil_r; now apply comparison_noNl].
    clear - B2. induction B2; cbn; auto. apply Forall_app; auto.
  Qed.
  Lemma simple_noNl t : forall primed ts, simpleFormula D primed t = Ret ts -> Forall noNl (treeSignals D primed t) -> Forall noNl ts.
  Proof.
    assert (NARY : forall op primed fs, noNl op -> Forall (fun t => forall primed ts, simpleFormula D primed t = Ret ts -> Forall noNl (treeSignals D primed t) -> Forall noNl ts) fs ->
      Forall noNl (flat_map (treeSignals D primed) fs) -> forall acc ts, (forall r, acc = Ret r -> Forall noNl r) ->
      fold_left (fun ret f => pybind ret (fun ret => pybind (simpleFormula D primed f) (fun b => Ret ([op] ++ ret ++ b)))) fs acc = Ret ts -> Forall noNl ts).
    { intros op primed fs Hop HF. induction HF as [|f fs Hf HF IH]; intros HS acc ts HA E; cbn [fold_left] in E; [auto|]. cbn [flat_map] in HS. apply Forall_app in HS. destruct HS as [S1 S2].
      eapply IH; [exact S2| |exact E]. intros r Er. destruct acc as [r0| |]; cbn [pybind] in Er; try discriminate. destruct (simpleFormula D primed f) as [b| |] eqn:Eb; cbn [pybind] in Er; try discriminate.
      injection Er as <-. constructor; auto. apply Forall_app. split; [now apply HA|]. eapply Hf; eauto. }
    induction t as [f g IHf IHg|f g IHf IHg|fs IH|fs IH|fs IH| |o f IHf| | |x|a c b] using tree_rec'; intros primed ts E HS; cbn [simpleFormula] in E; try discriminate; cbn [treeSignals] in HS.
    - apply Forall_app in HS. destruct HS as [S1 S2].
      destruct (simpleFormula D primed f) as [b1| |] eqn:E1; cbn [pybind] in E; try discriminate.
      destruct (simpleFormula D primed g) as [b2| |] eqn:E2; cbn [pybind] in E; try discriminate.
      apply (f_equal (fun r => match r with Ret q => q | _ => [] end)) in E. cbv beta iota in E. subst ts.
      specialize (IHf _ _ E1 S1). specialize (IHg _ _ E2 S2). rewrite !Forall_app. repeat split; auto; nl.
    - apply Forall_app in HS. destruct HS as [S1 S2].
      destruct (simpleFormula D primed f) as [b1| |] eqn:E1; cbn [pybind] in E; try discriminate.
      destruct (simpleFormula D primed g) as [b2| |] eqn:E2; cbn [pybind] in E; try discriminate.
      apply (f_equal (fun r => match r with Ret q => q | _ => [] end)) in E. cbv beta iota in E. subst ts.
      specialize (IHf _ _ E1 S1). specialize (IHg _ _ E2 S2). rewrite !Forall_app. repeat split; auto; nl.
    - destruct fs as [|f fs]; [discriminate|]. inversion IH; subst. cbn [flat_map] in HS. apply Forall_app in HS. destruct HS as [S1 S2].
      eapply (NARY "|"%string primed fs); eauto. now apply noNl_lit.
    - destruct fs as [|f fs]; [discriminate|]. inversion IH; subst. cbn [flat_map] in HS. apply Forall_app in HS. destruct HS as [S1 S2].
      eapply (NARY "&"%string primed fs); eauto. now apply noNl_lit.
    - destruct o; try discriminate.
      + destruct (simpleFormula D primed f) as [b1| |] eqn:E1; cbn [pybind] in E; try discriminate. injection E as <-. constructor; [now apply noNl_lit|]. eapply IHf; eauto.
      + destruct primed; [discriminate|]. eapply IHf; eauto.
    - injection E as <-. nl.
    - injection E as <-. nl.
    - pose proof (prime_unprime x) as PU. destruct (unprime x) as [y p] eqn:U. cbn [fst snd] in PU. inversion HS as [|? ? S1 _]; subst.
      destruct primed.
      + destruct (existsb _ _) eqn:EX; [discriminate|]. injection E as <-. destruct p; cbn [prime orb] in *; auto.
        exfalso. assert (X : existsb (Ascii.eqb "'"%char) (list_ascii_of_string (y ++ "'")) = true) by (rewrite las_app, existsb_app; cbn; apply orb_true_r). congruence.
      + injection E as <-. rewrite orb_false_r in S1. auto.
    - eapply calcSub_noNl; eauto.
  Qed.
  Lemma translate_noNl f line : translate D f = Ret line -> tokens f = true -> noNl line.
  Proof.
    unfold translate. intros E HT. destruct (simpleFormula D false (flatten (clean f))) as [ts| |] eqn:ES; cbn [pybind] in E; try discriminate. injection E as <-.
    apply noNl_join. eapply simple_noNl; [exact ES|]. apply Forall_forall. intros w Hw. apply flatten_signals, clean_signals in Hw.
    apply word_noNl. apply (signals_plain D f HT false w Hw).
  Qed.
End NL.
