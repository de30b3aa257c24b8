(** * Which structured slugs formulas are translated, names of bits, and limits *)

From Coq Require Import String Ascii List Bool Arith NArith ZArith Lia.
From Coq Require Import DecimalString.
From Verif Require Import FormulaSpec ParserProofs StructuredSpec Structured StructuredProofs StructuredTrans.
Import ListNotations.
Local Open Scope list_scope.

(** ** Acceptance *)
Section ACCEPT.
  Variable D : limits.
  Local Notation rawWidth := (width (rawLimits D)).

  Fixpoint rawOK (next : bool) (a : num) : Prop :=
    match a with
    | NumID x => let (y, p) := unprime x in p && next = false /\ exists mn mx, limitsOf D y = Some (mn, mx)
    | Numeral n => (0 <= n)%Z
    | Add a b => rawOK next a /\ rawOK next b
    | Mul a b => False
    | NumBrackets a => rawOK next a
    | Overwrite a b => rawOK next a /\ rawOK next b /\ rawWidth a < rawWidth b
    end.

  Lemma addBits_length p1 p2 ps p ps' : addBits p1 p2 ps = (p, ps') -> length p = widthAdd (length p1) (length p2).
  Proof.
    unfold addBits. destruct (Nat.eqb_spec (length p1) 0) as [E1|E1]; [intros E; injection E as <- <-; now rewrite E1|].
    destruct (Nat.eqb_spec (length p2) 0) as [E2|E2]; [intros E; injection E as <- <-; rewrite E2; now destruct (length p1)|].
    assert (W : widthAdd (length p1) (length p2) = S (Nat.max (length p1) (length p2))) by (destruct (length p1), (length p2); lia || reflexivity).
    rewrite W. destruct (Nat.ltb_spec (length p2) (length p1)); intros E; apply pair_equal_spec in E; destruct E as [<- _]; rewrite app_length, map_length, seq_length; cbn [length]; lia.
  Qed.
  Lemma calculation_length primed a : forall ps p ps', calculation D primed a ps = Ret (p, ps') -> length p = rawWidth a.
  Proof.
    induction a as [x|n|a IHa b IHb|a IHa b IHb|a IHa|a IHa b IHb]; intros ps p ps' E; cbn [calculation] in E.
    - cbn [width]. rewrite unprime_spec, limitsOf_raw. cbn [fst].
      destruct (lastIsPrime x && primed); [discriminate|]. destruct (limitsOf D _) as [[mn mx]|]; [|discriminate].
      rewrite bitsFor_0, widthAdd_0, Z.sub_0_r.
      apply (f_equal (fun r => match r with Ret (q, _) => q | _ => [] end)) in E. cbv beta iota in E. subst p.
      destruct (_ && _); rewrite ?map_length; unfold translatedNames; now rewrite map_length, seq_length.
    - destruct (numeralBits n) as [q| |] eqn:EN; cbn in E; try discriminate. injection E as <- <-.
      destruct (numeral_spec (fun _ _ => False) 0%N [] n q EN) as (_ & _ & _ & L). exact L.
    - destruct (calculation D primed a ps) as [[p1 ps1]| |] eqn:E1; cbn [pybind] in E; try discriminate.
      destruct (calculation D primed b ps1) as [[p2 ps2]| |] eqn:E2; cbn [pybind] in E; try discriminate.
      apply IHa in E1. apply IHb in E2. injection E as E. apply addBits_length in E. cbn [width]. congruence.
    - discriminate.
    - cbn [width]. eauto.
    - destruct (calculation D primed a ps) as [[p1 ps1]| |] eqn:E1; cbn [pybind] in E; try discriminate.
      destruct (calculation D primed b ps1) as [[p2 ps2]| |] eqn:E2; cbn [pybind] in E; try discriminate.
      apply IHb in E2. destruct (Nat.ltb_spec (length p1) (length p2)); [|discriminate].
      apply (f_equal (fun r => match r with Ret (q, _) => q | _ => [] end)) in E. cbv beta iota in E. subst p. cbn [width]. rewrite app_length, skipn_length. lia.
  Qed.

  Lemma calculation_ok primed a : forall ps, (exists p ps', calculation D primed a ps = Ret (p, ps')) <-> rawOK primed a.
  Proof.
    induction a as [x|n|a IHa b IHb|a IHa b IHb|a IHa|a IHa b IHb]; intros ps; cbn [calculation rawOK].
    - rewrite unprime_spec. destruct (lastIsPrime x && primed).
      { split; [intros (p & ps' & E)|intros [E _]]; discriminate. }
      destruct (limitsOf D _) as [[mn mx]|].
      + split; [intros _; split; eauto|intros _; eauto].
      + split; [intros (p & ps' & E)|intros (_ & mn & mx & E)]; discriminate.
    - destruct n as [|q|q]; cbn [numeralBits pybind].
      + split; [lia|eauto].
      + split; [lia|eauto].
      + split; [intros (p & ps' & E); discriminate|lia].
    - split.
      + intros (p & ps' & E). destruct (calculation D primed a ps) as [[p1 ps1]| |] eqn:E1; cbn [pybind] in E; try discriminate.
        destruct (calculation D primed b ps1) as [[p2 ps2]| |] eqn:E2; cbn [pybind] in E; try discriminate. split; [apply (IHa ps)|apply (IHb ps1)]; eauto.
      + intros [Ha Hb]. apply (IHa ps) in Ha. destruct Ha as (p1 & ps1 & E1). rewrite E1. cbn [pybind]. apply (IHb ps1) in Hb. destruct Hb as (p2 & ps2 & E2). rewrite E2. cbn [pybind].
        destruct (addBits p1 p2 ps2) as [p ps']. eauto.
    - split; [intros (p & ps' & E); discriminate|easy].
    - apply IHa.
    - split.
      + intros (p & ps' & E). destruct (calculation D primed a ps) as [[p1 ps1]| |] eqn:E1; cbn [pybind] in E; try discriminate.
        destruct (calculation D primed b ps1) as [[p2 ps2]| |] eqn:E2; cbn [pybind] in E; try discriminate.
        destruct (Nat.ltb_spec (length p1) (length p2)) as [L|L]; [|discriminate]. split; [apply (IHa ps); eauto|]. split; [apply (IHb ps1); eauto|].
        apply calculation_length in E1, E2. congruence.
      + intros (Ha & Hb & L). apply (IHa ps) in Ha. destruct Ha as (p1 & ps1 & E1). rewrite E1. cbn [pybind]. apply (IHb ps1) in Hb. destruct Hb as (p2 & ps2 & E2). rewrite E2. cbn [pybind].
        apply calculation_length in E1, E2. destruct (Nat.ltb_spec (length p1) (length p2)); [eauto|lia].
  Qed.

  Lemma addMinimum_ok primed a : numSupported D primed a <-> exists a', addMinimum D a = Ret a' /\ rawOK primed a'.
  Proof.
    induction a as [x|n|a IHa b IHb|a IHa b IHb|a IHa|a IHa b IHb]; cbn [numSupported addMinimum].
    - pose proof (unprime_spec x) as US. rewrite US. set (y := if lastIsPrime x then withoutLast x else x) in *.
      destruct (limitsOf D y) as [[mn mx]|] eqn:EL.
      + split.
        * intros (H1 & mn' & mx' & E & H2). injection E as <- <-. destruct (Z.eqb_spec mn 0); eexists; (split; [reflexivity|]); cbn [rawOK]; rewrite US; eauto 6.
        * intros (a' & E & H). destruct (Z.eqb_spec mn 0) as [->|N]; injection E as <-; cbn [rawOK] in H; rewrite US in H.
          -- destruct H as (H1 & _). split; auto. exists 0%Z, mx. split; auto. lia.
          -- destruct H as ((H1 & _) & H2). split; auto. eauto.
      + split; [intros (_ & mn & mx & E & _); discriminate|intros (a' & E & _); discriminate].
    - split; [intros H; exists (Numeral n); auto|intros (a' & E & H); now injection E as <-].
    - rewrite IHa, IHb. split.
      + intros ((a' & -> & Ha) & (b' & -> & Hb)). cbn [pybind]. exists (Add a' b'). cbn. auto.
      + intros (c & E & H). destruct (addMinimum D a) as [a'| |]; cbn [pybind] in E; try discriminate. destruct (addMinimum D b) as [b'| |]; cbn [pybind] in E; try discriminate.
        injection E as <-. destruct H as [HA HB]. split; [exists a'|exists b']; auto.
    - split; [easy|]. intros (c & E & H). destruct (addMinimum D a) as [a'| |]; cbn [pybind] in E; try discriminate. destruct (addMinimum D b) as [b'| |]; cbn [pybind] in E; try discriminate.
      injection E as <-. exact H.
    - rewrite IHa. split.
      + intros (a' & -> & Ha). cbn [pybind]. exists (NumBrackets a'). auto.
      + intros (c & E & H). destruct (addMinimum D a) as [a'| |]; cbn [pybind] in E; try discriminate. injection E as <-. eauto.
    - rewrite IHa, IHb. split.
      + intros ((a' & EA & Ha) & (b' & EB & Hb) & L). rewrite EA, EB. cbn [pybind]. exists (Overwrite a' b'). split; auto. cbn [rawOK].
        destruct (addMinimum_spec [] D primed a a' EA) as (_ & -> & _). destruct (addMinimum_spec [] D primed b b' EB) as (_ & -> & _). auto.
      + intros (c & E & H). destruct (addMinimum D a) as [a'| |] eqn:EA; cbn [pybind] in E; try discriminate. destruct (addMinimum D b) as [b'| |] eqn:EB; cbn [pybind] in E; try discriminate.
        injection E as <-. cbn [rawOK] in H.
        destruct (addMinimum_spec [] D primed a a' EA) as (_ & WA & _). destruct (addMinimum_spec [] D primed b b' EB) as (_ & WB & _). rewrite WA, WB in H.
        destruct H as (H1 & H2 & H3). eauto 8.
  Qed.

  Lemma calc_ok a c b primed : (exists ts, calculationSubformula D a c b primed = Ret ts) <-> numSupported D primed a /\ numSupported D primed b.
  Proof.
    rewrite !addMinimum_ok. unfold calculationSubformula. split.
    - intros (ts & E). destruct (addMinimum D a) as [a'| |] eqn:EA; cbn [pybind] in E; try discriminate.
      destruct (calculation D primed a' []) as [[p1 ps1]| |] eqn:E1; cbn [pybind] in E; try discriminate.
      destruct (addMinimum D b) as [b'| |] eqn:EB; cbn [pybind] in E; try discriminate.
      destruct (calculation D primed b' ps1) as [[p2 ps2]| |] eqn:E2; cbn [pybind] in E; try discriminate.
      split; [exists a'|exists b']; (split; [auto|]); eapply calculation_ok; eauto.
    - intros ((a' & EA & Ha) & (b' & EB & Hb)). rewrite EA. cbn [pybind].
      apply (calculation_ok primed a' []) in Ha. destruct Ha as (p1 & ps1 & E1). rewrite E1. cbn [pybind]. rewrite EB. cbn [pybind].
      apply (calculation_ok primed b' ps1) in Hb. destruct Hb as (p2 & ps2 & E2). rewrite E2. cbn [pybind]. eauto.
  Qed.

  Definition succ (primed : bool) (t : tree) : Prop := exists ts, simpleFormula D primed t = Ret ts.
  Lemma nary_ok primed op fs : forall r, (exists ts, fold_left (naryStep D primed op) fs (Ret r) = Ret ts) <-> Forall (succ primed) fs.
  Proof.
    induction fs as [|f fs IH]; intros r; cbn [fold_left].
    - split; [constructor|eauto].
    - unfold naryStep at 2. cbn [pybind]. split.
      + intros (ts & E). destruct (simpleFormula D primed f) as [b| |] eqn:EF; cbn [pybind] in E; try (exfalso; eapply nary_stuck; [|exact E]; discriminate).
        constructor; [now exists b|]. apply (IH ([op] ++ r ++ b)). eauto.
      + intros H. inversion H as [|f' fs' [b Hb] Hfs]; subst. rewrite Hb. cbn [pybind]. now apply IH.
  Qed.
  Lemma succ_nary primed op fs :
    ((exists ts, match fs with [] => Raise | f :: fs => fold_left (naryStep D primed op) fs (simpleFormula D primed f) end = Ret ts) <-> fs <> [] /\ Forall (succ primed) fs).
  Proof.
    destruct fs as [|f fs]; [split; [intros (ts & E); discriminate|easy]|]. split.
    - intros (ts & E). split; [easy|]. destruct (simpleFormula D primed f) as [b| |] eqn:EF; try (exfalso; eapply nary_stuck; [|exact E]; discriminate).
      constructor; [now exists b|]. eapply nary_ok; eauto.
    - intros (_ & H). inversion H as [|f' fs' [b Hb] Hfs]; subst. rewrite Hb. now apply nary_ok.
  Qed.
  Lemma succ_and primed fs : succ primed (TAnd fs) <-> fs <> [] /\ Forall (succ primed) fs.
  Proof. apply (succ_nary primed "&"%string). Qed.
  Lemma succ_or primed fs : succ primed (TOr fs) <-> fs <> [] /\ Forall (succ primed) fs.
  Proof. apply (succ_nary primed "|"%string). Qed.

  Definition ands (t : tree) : list tree :=
    match t with TBiimp f g => [TBiimp f g] | TImp f g => [TImp f g] | TXor fs => [TXor fs] | TOr fs => [TOr fs] | TAnd gs => gs | TTemporal => [TTemporal] | TUnary o f => [TUnary o f] | TFalse => [TFalse] | TTrue => [TTrue] | TAssign x => [TAssign x] | TCalc a c b => [TCalc a c b] end.
  Definition ors (t : tree) : list tree :=
    match t with TBiimp f g => [TBiimp f g] | TImp f g => [TImp f g] | TXor fs => [TXor fs] | TOr gs => gs | TAnd fs => [TAnd fs] | TTemporal => [TTemporal] | TUnary o f => [TUnary o f] | TFalse => [TFalse] | TTrue => [TTrue] | TAssign x => [TAssign x] | TCalc a c b => [TCalc a c b] end.
  Lemma nonempty f : ands (flatten (clean f)) <> [] /\ ors (flatten (clean f)) <> [].
  Proof.
    induction f as [f IHf g IHg|f IHf g IHg|f IHf g IHg|f IHf g IHg|f IHf g IHg|wk f IHf g IHg|o f IHf| | |f IHf|x|a c b]; cbn [clean flatten ands ors]; try (split; discriminate); auto.
    - split; [discriminate|]. cbn [flat_map]. destruct IHf as [_ H]. intros E. apply app_eq_nil in E. destruct E as [E _]. exact (H E).
    - split; [|discriminate]. cbn [flat_map]. destruct IHf as [H _]. intros E. apply app_eq_nil in E. destruct E as [E _]. exact (H E).
  Qed.
  Lemma succ_ands primed t : ands t <> [] -> (Forall (succ primed) (ands t) <-> succ primed t).
  Proof.
    intros N. destruct t; cbn [ands] in *; try (split; [intros H; now inversion H|intros H; constructor; auto]). rewrite succ_and. tauto.
  Qed.
  Lemma succ_ors primed t : ors t <> [] -> (Forall (succ primed) (ors t) <-> succ primed t).
  Proof.
    intros N. destruct t; cbn [ors] in *; try (split; [intros H; now inversion H|intros H; constructor; auto]). rewrite succ_or. tauto.
  Qed.

  Lemma supported_spec f : forall primed, succ primed (flatten (clean f)) <-> supported D primed f.
  Proof.
    induction f as [f IHf g IHg|f IHf g IHg|f IHf g IHg|f IHf g IHg|f IHf g IHg|wk f IHf g IHg|o f IHf| | |f IHf|x|a c b]; intros primed; cbn [clean flatten supported].
    - rewrite <- IHf, <- IHg. unfold succ at 1. cbn [simpleFormula]. split.
      + intros (ts & E). destruct (simpleFormula D primed (flatten (clean f))) eqn:E1; cbn [pybind] in E; try discriminate.
        destruct (simpleFormula D primed (flatten (clean g))) eqn:E2; cbn [pybind] in E; try discriminate. split; eexists; eauto.
      + intros ((b1 & ->) & (b2 & ->)). cbn [pybind]. eauto.
    - rewrite <- IHf, <- IHg. unfold succ at 1. cbn [simpleFormula]. split.
      + intros (ts & E). destruct (simpleFormula D primed (flatten (clean f))) eqn:E1; cbn [pybind] in E; try discriminate.
        destruct (simpleFormula D primed (flatten (clean g))) eqn:E2; cbn [pybind] in E; try discriminate. split; eexists; eauto.
      + intros ((b1 & ->) & (b2 & ->)). cbn [pybind]. eauto.
    - split; [intros (ts & E); discriminate|easy].
    - rewrite succ_or. cbn [flat_map]. rewrite app_nil_r, Forall_app.
      fold (ors (flatten (clean f))) (ors (flatten (clean g))).
      rewrite !succ_ors by apply nonempty. rewrite IHf, IHg. split; [tauto|]. intros H. split; auto. intros E. apply app_eq_nil in E. destruct E as [E _]. exact (proj2 (nonempty f) E).
    - rewrite succ_and. cbn [flat_map]. rewrite app_nil_r, Forall_app.
      fold (ands (flatten (clean f))) (ands (flatten (clean g))).
      rewrite !succ_ands by apply nonempty. rewrite IHf, IHg. split; [tauto|]. intros H. split; auto. intros E. apply app_eq_nil in E. destruct E as [E _]. exact (proj1 (nonempty f) E).
    - split; [intros (ts & E); discriminate|easy].
    - destruct o; unfold succ; cbn [simpleFormula].
      + rewrite <- IHf. split.
        * intros (ts & E). destruct (simpleFormula D primed (flatten (clean f))) eqn:E1; cbn [pybind] in E; try discriminate. eexists; eauto.
        * intros (b1 & ->). cbn [pybind]. eauto.
      + destruct primed; [split; [intros (ts & E); discriminate|intros [E _]; discriminate]|]. rewrite <- IHf. unfold succ. tauto.
      + split; [intros (ts & E); discriminate|easy].
      + split; [intros (ts & E); discriminate|easy].
    - split; auto. intros _. now exists ["0"%string].
    - split; auto. intros _. now exists ["1"%string].
    - apply IHf.
    - unfold succ. cbn [simpleFormula]. change (existsb (Ascii.eqb quoteChar)) with (existsb (Ascii.eqb "'"%char)). destruct primed; [|rewrite andb_false_r; split; eauto].
      rewrite andb_true_r. destruct (existsb _ _); split; eauto; try discriminate. intros (ts & E). discriminate.
    - apply calc_ok.
  Qed.

  Lemma translate_ok f : (exists line, translate D f = Ret line) <-> supported D false f.
  Proof.
    rewrite <- supported_spec. unfold translate, succ. split.
    - intros (line & E). destruct (simpleFormula _ _ _); try discriminate. eauto.
    - intros (ts & ->). cbn [pybind]. eauto.
  Qed.
End ACCEPT.

(** ** Names *)
Lemma wordChar_noWs a : isWordStart a || isDigit a = true -> isWs a = false.
Proof. destruct a as [[] [] [] [] [] [] [] []]; cbv; auto. Qed.
Lemma token_noWs x : isWordToken x = true -> noWs x = true.
Proof.
  destruct x as [|a x]; [discriminate|]. cbn [isWordToken]. intros H. apply andb_prop in H. destruct H as [H1 H2]. unfold noWs. cbn [allChars].
  rewrite (wordChar_noWs a) by now rewrite H1. cbn. induction x as [|b x IH]; auto. cbn [allChars] in *. apply andb_prop in H2. destruct H2 as [H2 H3]. rewrite (wordChar_noWs b H2). cbn. auto.
Qed.
Lemma start_reserved a s : isWordStart a = true -> reserved (String a s) = false.
Proof.
  intros H. unfold reserved. cbn [existsb].
  assert (N : forall c, isWordStart c = false -> forall t, String.eqb (String a s) (String c t) = false).
  { intros c Hc t. apply String.eqb_neq. intros E. injection E as -> ->. congruence. }
  rewrite !N by reflexivity. reflexivity.
Qed.
(** A name with more characters: one word, not reserved. *)
Definition plainWord (w : string) : Prop := words w = [w] /\ reserved w = false.
Lemma token_plain x t : isWordToken x = true -> noWs t = true -> plainWord (x ++ t)%string.
Proof.
  intros H1 H2. pose proof (token_noWs x H1) as H3. destruct x as [|a x]; [discriminate|]. cbn [isWordToken] in H1. apply andb_prop in H1. destruct H1 as [H1 _]. cbn [append].
  split; [|now apply start_reserved]. apply words_noWs. change (String a (x ++ t))%string with (String a x ++ t)%string. now rewrite noWs_app, H3, H2.
Qed.
(** The quote at the end is a name itself, or its name is one. *)
Lemma unprime_token x : isWordToken x = true -> let (y, p) := unprime x in y = ""%string \/ isWordToken y = true.
Proof.
  rewrite unprime_spec. destruct (lastIsPrime x) eqn:E; auto. apply unprime_last in E. intros H. rewrite E in H. set (y := withoutLast x) in *. clearbody y. clear x E.
  destruct y as [|a y]; auto. right. cbn [append isWordToken] in *. apply andb_prop in H. destruct H as [H1 H2]. rewrite H1. cbn.
  induction y as [|b y IH]; auto. cbn [append allChars] in *. apply andb_prop in H2. destruct H2 as [-> H2]. cbn. auto.
Qed.
Lemma app_assoc_s (a b c : string) : ((a ++ b) ++ c = a ++ (b ++ c))%string.
Proof. induction a as [|x a IH]; cbn; auto. now rewrite IH. Qed.
Lemma bitName_plain y mn mx i p : y = ""%string \/ isWordToken y = true -> plainWord (prime p (bitName y mn mx i)).
Proof.
  intros H. set (t := ("@" ++ NilEmpty.string_of_uint (Nat.to_uint i) ++ (if Nat.eqb i 0 then "." ++ showZ mn ++ "." ++ showZ mx else ""))%string).
  assert (N : noWs t = true).
  { unfold t. rewrite !noWs_app, noWs_uint. cbn [andb]. destruct (Nat.eqb i 0); auto. rewrite !noWs_app, !noWs_showZ. reflexivity. }
  change (bitName y mn mx i) with (y ++ t)%string.
  assert (E : exists u, prime p (y ++ t)%string = (y ++ String "@" u)%string /\ noWs (String "@" u) = true).
  { destruct p; cbn [prime]; [|exists (NilEmpty.string_of_uint (Nat.to_uint i) ++ (if Nat.eqb i 0 then "." ++ showZ mn ++ "." ++ showZ mx else ""))%string; auto].
    eexists. rewrite app_assoc_s. split; [reflexivity|]. change (noWs (t ++ "'")%string = true). now rewrite noWs_app, N. }
  destruct E as (u & -> & Nu). destruct H as [->|H]; [|now apply token_plain]. cbn [append]. split; [now apply words_noWs|now apply start_reserved].
Qed.

Lemma numSignals_plain D a : numTokens a = true -> forall next w, In w (numSignals D next a) -> plainWord w.
Proof.
  induction a as [x|n|a IHa b IHb|a IHa b IHb|a IHa|a IHa b IHb]; cbn [numTokens numSignals]; intros H next w Hw; eauto; try easy;
    try (apply andb_prop in H; destruct H; apply in_app_or in Hw; destruct Hw; eauto; fail).
  apply unprime_token in H. destruct (unprime x) as [y p]. destruct (limitsOf D y) as [[mn mx]|]; [|easy].
  unfold bitNames in Hw. rewrite map_map in Hw. apply in_map_iff in Hw. destruct Hw as (i & <- & _). now apply bitName_plain.
Qed.
Lemma signals_plain D f : tokens f = true -> forall next w, In w (signals D next f) -> plainWord w.
Proof.
  induction f as [f IHf g IHg|f IHf g IHg|f IHf g IHg|f IHf g IHg|f IHf g IHg|wk f IHf g IHg|o f IHf| | |f IHf|x|a c b]; cbn [tokens signals]; intros H next w Hw; eauto; try easy;
    try (apply andb_prop in H; destruct H; apply in_app_or in Hw; destruct Hw; eauto using numSignals_plain; fail).
  - destruct o; eauto.
  - pose proof (prime_unprime x) as PU. pose proof (unprime_token x H) as UT. destruct (unprime x) as [y p]. cbn [fst snd] in PU. destruct Hw as [<-|[]].
    destruct p; cbn [prime] in PU.
    + subst x. pose proof (token_plain _ ""%string H eq_refl) as X. rewrite app_assoc_s in X. exact X.
    + subst y. destruct next; cbn [orb prime]; [now apply token_plain|]. pose proof (token_plain _ ""%string H eq_refl) as X.
      replace (x ++ "")%string with x in X; auto. clear. induction x as [|a x IH]; cbn; [auto|now rewrite <- IH].
Qed.

(** ** Valuations by name *)
Lemma lookup_names_var names : forall e w i, names_var names w i -> lookup names e w = e i.
Proof.
  induction names as [|n names IH]; intros e w i [H1 H2]; [destruct i; discriminate|]. cbn [lookup]. destruct i as [|i].
  - cbn in H1. injection H1 as ->. now rewrite String.eqb_refl.
  - destruct (String.eqb_spec n w) as [->|N]; [exfalso; now apply (H2 0); [lia|]|]. apply (IH (fun i => e (S i))). split; auto. intros j Hj. apply (H2 (S j)). lia.
Qed.

(** ** Limits *)
Section LIMITS.
  Variable var : string -> nat -> Prop.
  Variable bound : N.
  Local Open Scope Z_scope.
  Lemma limit_spec vals L ws : forall bs i this v, Forall2 (P var bound vals) ws bs -> G var bound vals (flat_map words this) v ->
    exists v', G var bound vals (flat_map words (limitTokens L i ws this)) v' /\
      let l := bitsValue (map (fun k => Z.testbit L (Z.of_nat k)) (seq i (length ws))) in
      forall e, v' e = ((ev bs e <? l) || ((ev bs e =? l) && v e))%bool.
  Proof.
    induction ws as [|w ws IH]; intros bs i this v HF HG; inversion HF as [|w' b ws' bs' Pb HF']; subst; cbn [limitTokens length seq map bitsValue].
    - exists v. split; auto.
    - set (t := Z.testbit L (Z.of_nat i)).
      destruct (IH bs' (S i) ((if t then ["| !"; w]%string else ["& !"; w]%string) ++ this)%list (fun e => if t then negb (b e) || v e else negb (b e) && v e)%bool HF') as (v' & A1 & A2).
      + pose proof (G_not _ _ _ _ _ (P_G _ _ _ _ _ Pb)) as GN. destruct t; cbn [app flat_map].
        * change (words "| !") with ["|"; "!"]%string. exact (G_or _ _ _ _ _ _ _ GN HG).
        * change (words "& !") with ["&"; "!"]%string. exact (G_and _ _ _ _ _ _ _ GN HG).
      + exists v'. split; [exact A1|]. intros e. rewrite A2, ev_cons. destruct t, (b e), (v e); cbn [Z.b2z negb andb orb];
          apply eq_iff_eq_true; rewrite ?andb_true_iff, ?orb_true_iff, ?andb_true_iff, ?negb_true_iff, ?Z.ltb_lt, ?Z.eqb_eq; intuition (try discriminate; lia).
  Qed.
  Lemma bits_mod L n : forall i, bitsValue (map (fun k => Z.testbit L (Z.of_nat k)) (seq i n)) = (L / 2 ^ Z.of_nat i) mod 2 ^ Z.of_nat n.
  Proof.
    induction n as [|n IH]; intros i; cbn [seq map bitsValue].
    - change (2 ^ Z.of_nat 0) with 1. now rewrite Z.mod_1_r.
    - rewrite IH, Nat2Z.inj_succ, Z.pow_succ_r, (Z.mul_comm 2 (2 ^ Z.of_nat i)), <- Z.div_div, Nat2Z.inj_succ, Z.pow_succ_r by lia.
      rewrite Z.testbit_spec' by lia. set (q := L / 2 ^ Z.of_nat i). set (m := 2 ^ Z.of_nat n). assert (0 < m) by (apply Z.pow_pos_nonneg; lia).
      rewrite (Z.rem_mul_r q 2 m) by lia. reflexivity.
  Qed.
End LIMITS.

Lemma bitsFor_spec d : (0 <= d)%Z -> (d < 2 ^ Z.of_nat (bitsFor d) /\ (0 < d -> 2 ^ Z.of_nat (bitsFor d) <= 2 * d))%Z.
Proof.
  intros H. unfold bitsFor. destruct d as [|p|p]; [cbn; lia| |lia]. cbn [Z.to_N N.size_nat].
  induction p as [p IH|p IH|]; cbn [Pos.size_nat]; rewrite ?Nat2Z.inj_succ, ?Z.pow_succ_r by lia; [| |cbn; lia].
  - rewrite Pos2Z.inj_xI. destruct IH as [I1 I2]; lia.
  - rewrite Pos2Z.inj_xO. destruct IH as [I1 I2]; lia.
Qed.
