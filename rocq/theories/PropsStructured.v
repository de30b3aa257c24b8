(** * Properties of the translation of structured slugs (C40, C51, C52) *)

From Coq Require Import String Ascii List Bool Arith NArith ZArith Lia.
From Coq Require Import DecimalString.
From Verif Require Import BDD VarTypes FormulaSpec Parser ParserProofs PropsParser
  StructuredSpec Structured StructuredProofs StructuredTrans StructuredAccept.
Import ListNotations.
Local Open Scope list_scope.

(** ** Example: an integer variable from 0 to 2 and one from 2 to 8 *)
Definition exD : limits := [("x", (0, 2)); ("c", (2, 8))]%string%Z.
Definition exSNames : list string := ["x@0.0.2"; "x@1"; "c@0.2.8"; "c@1"; "c@2"; "d"; "x@0.0.2'"; "x@1'"; "c@0.2.8'"; "c@1'"; "c@2'"; "d'"]%string.
Definition exSTypes : list VariableType := repeat PreOutput 6 ++ repeat PostOutput 6.

Fixpoint indexOf (names : list string) (w : string) : option nat :=
  match names with [] => None | n :: names => if String.eqb n w then Some 0 else option_map S (indexOf names w) end.
Lemma indexOf_spec names : forall w i, indexOf names w = Some i -> names_var names w i.
Proof.
  induction names as [|n names IH]; intros w i; [discriminate|]. cbn [indexOf]. destruct (String.eqb_spec n w) as [->|N].
  - intros E. injection E as <-. split; auto. lia.
  - destruct (indexOf names w) as [j|] eqn:E; [|discriminate]. intros E'. injection E' as <-. destruct (IH w j E) as [H1 H2]. split; auto.
    intros [|k] Hk; cbn; [congruence|]. apply H2. lia.
Qed.
Definition okAll (ws : list string) : bool :=
  forallb (fun w => match indexOf exSNames w with Some i => existsb (vt_eqb (nth i exSTypes NoneVariableType)) exAllowed | None => false end) ws.
Lemma okAll_spec ws : okAll ws = true -> forall w, In w ws -> exists i, var_ok exSNames exSTypes exAllowed w i.
Proof.
  intros H w Hw. unfold okAll in H. rewrite forallb_forall in H. specialize (H w Hw). destruct (indexOf exSNames w) as [i|] eqn:E; [|discriminate].
  exists i. split; [now apply indexOf_spec|]. now apply allowed_spec.
Qed.

(** ** C40 *)

(** The line written for a formula is read by slugs, and it holds for a valuation of the bits if
    and only if the formula holds for the Boolean variables and the integers that the bits stand
    for. *)
Theorem C40_meaning : forall D names types allowed ord f line,
  translate D f = Ret line -> tokens f = true ->
  (forall w, In w (signals D false f) -> exists i, var_ok names types allowed w i) ->
  (N.of_nat (String.length line) < uintBound)%N ->
  exists b, parseFormula names types allowed ord line = POk (Some b) /\
    forall e, eval b e = truth D (fun p x => lookup names e (prime p x)) (intValue D names e) false f.
Proof.
  intros D names types allowed ord f line E HT HV HL. unfold translate in E.
  destruct (simpleFormula D false (flatten (clean f))) as [ts| |] eqn:ES; cbn [pybind] in E; try discriminate.
  apply (f_equal (fun r => match r with Ret q => q | _ => ""%string end)) in E. cbv beta iota in E. subst line.
  pose proof (words_count (String.concat " " ts)) as LC. rewrite words_join in LC.
  destruct (translate_spec (var_ok names types allowed) uintBound names D f ts ES) as (g & Hg & Hd).
  - intros w Hw. destruct (signals_plain D f HT false w Hw) as [W1 W2]. split; auto. split; auto.
    destruct (HV w Hw) as (i & Hi). exists i. split; auto. intros e. apply lookup_names_var. apply Hi.
  - lia.
  - rewrite <- words_join in Hg. destruct (C05_documented_meaning names types allowed ord _ g Hg) as (b & Hb & He).
    exists b. split; auto. intros e. specialize (He e). specialize (Hd e). cbn in Hd. rewrite He in Hd. now injection Hd.
Qed.
Print Assumptions C40_meaning.

(** x + 1 <= 2, and the next value of c. *)
Example C40_example : let f := SImp (SAssign "d") (SAnd (SCalc (Add (NumID "x") (Numeral 1)) CLe (Numeral 2)) (SUnary ONext (SCalc (NumID "c") CGt (NumID "x")))) in
  exists line, translate exD f = Ret line /\ tokens f = true /\ (forall w, In w (signals exD false f) -> exists i, var_ok exSNames exSTypes exAllowed w i) /\
    (N.of_nat (String.length line) < uintBound)%N /\
    truth exD (fun p x => lookup exSNames (fun i => Nat.eqb i 5) (prime p x)) (intValue exD exSNames (fun i => Nat.eqb i 5)) false f = true /\
    truth exD (fun p x => lookup exSNames (fun i => Nat.leb i 5) (prime p x)) (intValue exD exSNames (fun i => Nat.leb i 5)) false f = false.
Proof.
  intros f. eexists. split; [vm_compute; reflexivity|]. split; [reflexivity|]. split; [apply okAll_spec; vm_compute; reflexivity|]. repeat split; vm_compute; reflexivity.
Qed.

(** The translations in doc/input_formats.md. *)
Example C40_documented :
  translate [("x", (0, 3))]%string%Z (SCalc (Add (Numeral 1) (NumID "x")) CLe (Numeral 2)) =
    Ret "$ 5 ^ 1 x@0.0.3 & 1 x@0.0.3 ^ x@1 ? 1 & x@1 ? 1 & ! ? 3 | & ! ? 2 1 & | 1 ! ? 2 | & ! ? 0 0 & | 0 ! ? 0 1"%string /\
  translate [("b", (0, 10))]%string%Z (SCalc (NumID "b'") CEq (Add (Numeral 1) (NumID "b"))) =
    Ret "$ 9 ^ 1 b@0.0.10 & 1 b@0.0.10 ^ b@1 ? 1 & b@1 ? 1 ^ b@2 ? 3 & b@2 ? 3 ^ b@3 ? 5 & b@3 ? 5 & ! ? 7 & ! ^ b@3' ? 6 & ! ^ b@2' ? 4 & ! ^ b@1' ? 2 & ! ^ b@0.0.10' ? 0 1"%string.
Proof. split; vm_compute; reflexivity. Qed.

(** Exactly the supported formulas have a translation. *)
Theorem C40_accepts : forall D f, (exists line, translate D f = Ret line) <-> supported D false f.
Proof. exact translate_ok. Qed.
Print Assumptions C40_accepts.
Example C40_accepts_example :
  supported exD false (SUnary ONot (SCalc (NumID "x'") CLt (Overwrite (Numeral 1) (NumID "c")))) /\
  ~ supported exD false (SUnary ONext (SCalc (NumID "x'") CLt (Numeral 1))).
Proof.
  split; cbn.
  - repeat split; try lia; eexists _, _; (split; [reflexivity|lia]).
  - intros (_ & (E & _) & _). discriminate.
Qed.

(** Formulas that the documentation and the grammar permit have no translation: exclusive
    disjunctions raise an exception, and a comparison with a variable whose minimum is negative
    is computed forever. *)
Theorem C40_refuted :
  (forall D f g, translate D (SXor f g) = Raise) /\
  (forall D x c n mn mx, lastIsPrime x = false -> limitsOf D x = Some (mn, mx) -> (mn < 0)%Z ->
     translate D (SCalc (NumID x) c n) = Diverge) /\
  limitsOf [("x", (-1, 2))]%string%Z "x"%string = Some (-1, 2)%Z.
Proof.
  split; [reflexivity|]. split; [|reflexivity]. intros D x c n mn mx HP HD Hn. unfold translate. cbn [clean flatten simpleFormula].
  unfold calculationSubformula. cbn [addMinimum]. rewrite HP, HD. destruct (Z.eqb_spec mn 0); [lia|]. cbn [pybind calculation]. rewrite HP, HD. cbn [andb].
  destruct mn; try lia. reflexivity.
Qed.
Print Assumptions C40_refuted.

(** ** C51: declarations *)

(** Every value of the range has exactly one representation, and one bit less is not enough. *)
Theorem C51_values : forall mn mx, (mn <= mx)%Z ->
  (forall v, (mn <= v <= mx)%Z -> exists bs, length bs = nofBits mn mx /\ (mn + bitsValue bs = v)%Z /\
    forall bs', length bs' = nofBits mn mx -> (mn + bitsValue bs' = v)%Z -> bs' = bs) /\
  (nofBits mn mx <> 0 -> exists v, (mn <= v <= mx)%Z /\ forall bs, length bs < nofBits mn mx -> (mn + bitsValue bs <> v)%Z).
Proof.
  intros mn mx H. change (nofBits mn mx) with (bitsFor (mx - mn)). set (d := (mx - mn)%Z). destruct (bitsFor_spec d ltac:(lia)) as [B1 B2]. set (n := bitsFor d) in *.
  assert (EX : forall n v, (0 <= v < 2 ^ Z.of_nat n)%Z -> exists bs, length bs = n /\ bitsValue bs = v /\ forall bs', length bs' = n -> bitsValue bs' = v -> bs' = bs).
  { clear. induction n as [|n IH]; intros v Hv.
    - exists []. cbn in *. repeat split; [lia|]. intros bs' L _. now destruct bs'.
    - rewrite Nat2Z.inj_succ, Z.pow_succ_r in Hv by lia. destruct (IH (v / 2)%Z) as (bs & L & E & U).
      { split; [apply Z.div_pos; lia|]. apply Z.div_lt_upper_bound; lia. }
      assert (DM : v = (Z.b2z (Z.odd v) + 2 * (v / 2))%Z) by (rewrite (Z.div_mod v 2) at 1 by lia; rewrite Zmod_odd; destruct (Z.odd v); cbn [Z.b2z]; lia).
      exists (Z.odd v :: bs). cbn [length bitsValue]. split; [lia|]. split; [lia|].
      intros [|b' bs'] L' E'; [discriminate|]. cbn [bitsValue length] in *. injection L' as L'.
      assert (X : b' = Z.odd v /\ bitsValue bs' = (v / 2)%Z) by (clear - DM E'; destruct b', (Z.odd v); cbn [Z.b2z] in *; split; auto; lia).
      destruct X as [-> X]. f_equal. now apply U. }
  split.
  - intros v Hv. destruct (EX n (v - mn)%Z) as (bs & L & E & U); [lia|]. exists bs. repeat split; auto; [lia|]. intros bs' L' E'. apply U; auto. lia.
  - intros N. assert (0 < d)%Z. { destruct (Z.eq_dec d 0) as [Z0|]; [|lia]. elim N. unfold n. now rewrite Z0. }
    exists mx. split; [lia|]. intros bs L. pose proof (bitsValue_lt bs) as LT.
    replace (Z.of_nat n) with (Z.succ (Z.of_nat (n - 1))) in B2 by lia. rewrite Z.pow_succ_r in B2 by lia.
    assert (2 ^ Z.of_nat (length bs) <= 2 ^ Z.of_nat (n - 1))%Z by (apply Z.pow_le_mono_r; lia). lia.
Qed.
Print Assumptions C51_values.
Example C51_values_example : (2 <= 8)%Z /\ nofBits 2 8 = 3 /\ (2 + bitsValue [true; false; true] = 7)%Z.
Proof. repeat split; lia. Qed.

(** Together, the lines for [..._INIT] hold if and only if the value of the variable is in
    its range, and those for [..._TRANS] if and only if its next value is, and with
    the option for thorough limits also its value. *)
Theorem C51_limits : forall names types allowed ord thoroughly x mn mx, (mn <= mx)%Z -> isWordToken x = true ->
  (forall p w, In w (bitNames x mn mx) -> exists i, var_ok names types allowed (prime p w) i) ->
  let D := [(x, (mn, mx))] in
  let holds line e := exists b, parseFormula names types allowed ord line = POk (Some b) /\ eval b e = true in
  (forall line, In line (fst (limitLines thoroughly x mn mx) ++ snd (limitLines thoroughly x mn mx)) -> exists b, parseFormula names types allowed ord line = POk (Some b)) /\
  (forall e, (forall line, In line (fst (limitLines thoroughly x mn mx)) -> holds line e) <-> (mn <= intValue D names e false x <= mx)%Z) /\
  (forall e, (forall line, In line (snd (limitLines thoroughly x mn mx)) -> holds line e) <->
     (mn <= intValue D names e true x <= mx)%Z /\ (thoroughly = true -> (mn <= intValue D names e false x <= mx)%Z)).
Proof.
  intros names types allowed ord thoroughly x mn mx H HT HV D holds.
  assert (IV : forall e p, intValue D names e p x = (mn + bitsValue (map (fun w => lookup names e (prime p w)) (bitNames x mn mx)))%Z)
    by (intros e p; unfold intValue, limitsOf, D; cbn [find fst snd]; now rewrite String.eqb_refl).
  assert (LEN : forall e p, length (map (fun w => lookup names e (prime p w)) (bitNames x mn mx)) = nofBits mn mx)
    by (intros e p; unfold bitNames; now rewrite !map_length, seq_length).
  assert (GE : forall e p, (mn <= intValue D names e p x < mn + 2 ^ Z.of_nat (nofBits mn mx))%Z).
  { intros e p. rewrite IV. set (l := map _ _). pose proof (bitsValue_nonneg l). pose proof (bitsValue_lt l) as L. unfold l in L at 2. rewrite LEN in L. lia. }
  destruct (bitsFor_spec (mx - mn) ltac:(lia)) as [B1 _]. change (bitsFor (mx - mn)) with (nofBits mn mx) in B1.
  unfold limitLines. destruct (Z.eqb_spec (2 ^ Z.of_nat (nofBits mn mx)) (mx - mn + 1)) as [EQ|NE].
  { cbn [fst snd app In]. split; [easy|]. split; intros e; (split; [intros _|easy]); pose proof (GE e false); pose proof (GE e true); lia. }
  set (L := (mx - mn + 1)%Z) in *.
  assert (LINE : forall p, exists b, parseFormula names types allowed ord (String.concat " " (limitTokens L 0 (map (prime p) (bitNames x mn mx)) ["0"%string])) = POk (Some b) /\
    forall e, eval b e = true <-> (mn <= intValue D names e p x <= mx)%Z).
  { intros p. destruct (limit_spec (var_ok names types allowed) uintBound [] L (map (prime p) (bitNames x mn mx))
      (map (fun w e => lookup names e (prime p w)) (bitNames x mn mx)) 0 ["0"%string] (fun _ => false)) as (v & (g & Hg & Hd) & Hv).
    - apply vars_spec. intros w Hw. unfold okW. assert (PW : plainWord w).
      { unfold bitNames in Hw. rewrite map_map in Hw. apply in_map_iff in Hw. destruct Hw as (i & <- & _). apply bitName_plain. now right. }
      destruct PW as [W1 W2]. split; auto. split; auto. apply in_map_iff in Hw. destruct Hw as (w' & <- & Hw'). destruct (HV p w' Hw') as (i & Hi). exists i. split; auto.
      intros e. apply lookup_names_var. apply Hi.
    - apply G_false.
    - rewrite <- words_join in Hg. destruct (C05_documented_meaning names types allowed ord _ g Hg) as (b & Hb & He).
      exists b. split; auto. intros e. assert (X : eval b e = v e) by (specialize (He e); specialize (Hd e); cbn in Hd; rewrite He in Hd; now injection Hd).
      rewrite X, Hv, andb_false_r, orb_false_r, Z.ltb_lt, bits_mod, map_length. change (2 ^ Z.of_nat 0)%Z with 1%Z. rewrite Z.div_1_r.
      assert (LN : length (bitNames x mn mx) = nofBits mn mx) by (unfold bitNames; now rewrite map_length, seq_length).
      rewrite LN, Z.mod_small by lia. rewrite IV. unfold ev. rewrite map_map. unfold L. pose proof (bitsValue_nonneg (map (fun w => lookup names e (prime p w)) (bitNames x mn mx))). lia. }
  destruct (LINE false) as (b0 & P0 & V0). destruct (LINE true) as (b1 & P1 & V1).
  rewrite prime_false in P0. change (map (prime true) (bitNames x mn mx)) with (map (fun w => w ++ "'")%string (translatedNames x mn mx)) in P1. change (bitNames x mn mx) with (translatedNames x mn mx) in P0.
  assert (HO : forall line b e, parseFormula names types allowed ord line = POk (Some b) -> (holds line e <-> eval b e = true)).
  { intros line b e Hb. unfold holds. rewrite Hb. split; [intros (b' & E & He); now injection E as ->|eauto]. }
  cbn [fst snd]. split; [|split].
  - intros line Hl. destruct thoroughly; cbn [app In] in Hl; intuition (subst; eauto).
  - intros e. rewrite <- V0, <- (HO _ _ e P0). split; [intros X; apply X; now left|intros X line [<-|[]]; auto].
  - intros e. rewrite <- V0, <- V1, <- (HO _ _ e P0), <- (HO _ _ e P1). destruct thoroughly; cbn [app]; split.
    + intros X. split; [apply X; right; now left|intros _; apply X; now left].
    + intros [X Y] line [<-|[<-|[]]]; auto.
    + intros X. split; [apply X; now left|discriminate].
    + intros [X _] line [<-|[]]. auto.
Qed.
Print Assumptions C51_limits.
Example C51_limits_example : (0 <= 2)%Z /\ isWordToken "x" = true /\
  (forall p w, In w (bitNames "x" 0 2) -> exists i, var_ok exSNames exSTypes exAllowed (prime p w) i) /\
  limitLines false "x" 0 2 = (["| ! x@1 | ! x@0.0.2 0"%string], ["| ! x@1' | ! x@0.0.2' 0"%string]).
Proof.
  split; [lia|]. split; [reflexivity|]. split; [|vm_compute; reflexivity]. intros p w Hw. apply (okAll_spec (map (prime p) (bitNames "x" 0 2))); [destruct p; vm_compute; reflexivity|now apply in_map].
Qed.

(** The bits of all variables and of their next values have different names.  These also differ from
    the names of Boolean variables and their next values.  The translator rejects names with
    an @ or a quote. *)
Definition declarable (s : string) : bool := allChars (fun a => negb (Ascii.eqb a "@") && negb (Ascii.eqb a quoteChar)) s.
Lemma at_split s : forall t u v, declarable s = true -> declarable t = true -> (s ++ String "@" u = t ++ String "@" v)%string -> s = t /\ u = v.
Proof.
  induction s as [|a s IH]; intros [|b t] u v Hs Ht E; cbn [append] in E.
  - now injection E.
  - injection E as <- _. discriminate.
  - injection E as -> _. discriminate.
  - injection E as -> E. cbn in Hs, Ht. apply andb_prop in Hs, Ht. destruct (IH t u v) as [-> ->]; tauto.
Qed.
Lemma digits_split u : forall v t, (NilEmpty.string_of_uint u ++ "." ++ t = NilEmpty.string_of_uint v)%string -> False.
Proof. induction u; intros v t E2; destruct v; cbn in E2; try discriminate; injection E2 as E2; exact (IHu _ _ E2). Qed.
Definition noQuote (s : string) : bool := allChars (fun a => negb (Ascii.eqb a quoteChar)) s.
Lemma noQuote_app s t : noQuote (s ++ t) = noQuote s && noQuote t.
Proof. unfold noQuote. induction s as [|a s IH]; cbn; auto. now rewrite IH, andb_assoc. Qed.
Lemma noQuote_uint u : noQuote (NilEmpty.string_of_uint u) = true.
Proof. unfold noQuote. induction u; cbn; auto. Qed.
Lemma noQuote_showZ z : noQuote (showZ z) = true.
Proof. unfold showZ. destruct (Z.to_int z); cbn [NilEmpty.string_of_int]; [apply noQuote_uint|]. apply (noQuote_uint d). Qed.
Lemma declarable_noQuote s : declarable s = true -> noQuote s = true.
Proof. unfold declarable, noQuote. induction s as [|a s IH]; cbn; auto. intros H. apply andb_prop in H. destruct H as [H1 H2]. apply andb_prop in H1. rewrite (proj2 H1). cbn. auto. Qed.
Lemma noQuote_bit x mn mx i : declarable x = true -> noQuote (bitName x mn mx i) = true.
Proof.
  intros H. unfold bitName. rewrite !noQuote_app, (declarable_noQuote _ H), noQuote_uint. destruct (Nat.eqb i 0); rewrite ?noQuote_app, ?noQuote_showZ; reflexivity.
Qed.
Lemma prime_inj p q s t : noQuote s = true -> noQuote t = true -> prime p s = prime q t -> p = q /\ s = t.
Proof.
  assert (X : forall s, noQuote (s ++ "'") = false) by (intros r; rewrite noQuote_app; cbn; apply andb_false_r).
  intros Hs Ht E. destruct p, q; cbn [prime] in E; auto.
  - split; auto. clear - E. revert t E. induction s as [|a s IH]; intros [|b t] E; cbn [append] in E; auto.
    + injection E as _ E. destruct t; discriminate.
    + injection E as _ E. destruct s; discriminate.
    + injection E as -> E. f_equal. auto.
  - rewrite <- E, X in Ht. discriminate.
  - rewrite E, X in Hs. discriminate.
Qed.
Theorem C51_names : forall x y mn mx mn' mx' i j p q, declarable x = true -> declarable y = true ->
  (prime p (bitName x mn mx i) = prime q (bitName y mn' mx' j) -> x = y /\ i = j /\ p = q) /\
  prime p (bitName x mn mx i) <> prime q y.
Proof.
  intros x y mn mx mn' mx' i j p q Hx Hy. split.
  - intros E. apply prime_inj in E; auto using noQuote_bit. destruct E as [-> E]. unfold bitName in E. apply at_split in E; auto. destruct E as [-> E]. split; auto. split; auto.
    assert (INJ : NilEmpty.string_of_uint (Nat.to_uint i) = NilEmpty.string_of_uint (Nat.to_uint j) -> i = j).
    { intros E'. apply (f_equal NilEmpty.uint_of_string) in E'. rewrite !NilEmpty.usu in E'. injection E' as E'. now apply DecimalNat.Unsigned.to_uint_inj. }
    destruct (Nat.eqb_spec i 0) as [->|Ni], (Nat.eqb_spec j 0) as [->|Nj]; auto.
    + exfalso. replace (NilEmpty.string_of_uint (Nat.to_uint j) ++ "")%string with (NilEmpty.string_of_uint (Nat.to_uint j)) in E.
      * eapply digits_split. exact E.
      * generalize (NilEmpty.string_of_uint (Nat.to_uint j)). intros s. induction s as [|a s IH]; cbn; [auto|now rewrite <- IH].
    + exfalso. replace (NilEmpty.string_of_uint (Nat.to_uint i) ++ "")%string with (NilEmpty.string_of_uint (Nat.to_uint i)) in E.
      * eapply digits_split. symmetry. exact E.
      * generalize (NilEmpty.string_of_uint (Nat.to_uint i)). intros s. induction s as [|a s IH]; cbn; [auto|now rewrite <- IH].
    + apply INJ. assert (X : forall s, (s ++ "" = s)%string) by (intros s; induction s as [|a s IH]; cbn; [auto|now rewrite IH]). now rewrite !X in E.
  - intros E. apply prime_inj in E; auto using noQuote_bit, declarable_noQuote. destruct E as [_ E]. subst y. unfold bitName in Hy. clear - Hy. induction x as [|a x IH]; [discriminate|].
    cbn [append declarable] in *. unfold declarable in Hy, IH. cbn [allChars] in Hy. apply andb_prop in Hy. tauto.
Qed.
Print Assumptions C51_names.
Example C51_names_example : declarable "x" = true /\ declarable "x1" = true /\ bitName "x" 0 15 11 = "x@11"%string /\ bitName "x1" 0 3 1 = "x1@1"%string.
Proof. repeat split. Qed.

(** ** C52: lines that are copied *)

(** Every line in the prefix notation of slugs over declared Boolean variables is copied. *)
Theorem C52_copied : forall var bound loose f ws aps, gram var bound loose 0 f ws ->
  (forall w i, In w ws -> var w i -> In (fst (unprime w)) aps) -> ~ In ""%string ws ->
  isValidRecursiveSlugsProperty aps ws = true.
Proof.
  intros var bound loose f ws aps HG HV HN. unfold isValidRecursiveSlugsProperty.
  replace (filter (fun a => negb (String.eqb a "")) ws) with ws.
  2:{ clear - HN. induction ws as [|w ws IH]; auto. cbn [filter]. destruct (String.eqb_spec w "") as [->|N]; [elim HN; now left|]. cbn. f_equal. apply IH. intros X. apply HN. now right. }
  destruct (existsb (String.eqb "$") ws) eqn:Hd; auto.
  assert (X : forall n, fold_right (slugsStep aps) (Some n) ws = Some (S n)).
  { clear HN. revert Hd HV. remember 0 as m eqn:Em in HG.
    induction HG as [m|m|m w i Hr Hv|m f ws HG IH|m f g ws vs HG1 IH1 HG2 IH2|m f g ws vs HG1 IH1 HG2 IH2|m f g ws vs HG1 IH1 HG2 IH2|m w n fs ws|m w k Hn Hb Hk]; intros Hd HV n0; try reflexivity.
    - cbn [fold_right]. unfold reserved in Hr. cbn [existsb] in Hr. repeat (apply orb_false_elim in Hr; destruct Hr as [?E Hr]).
      unfold slugsStep. cbn [existsb]. rewrite E, E0, E1, E2, E3, E4. cbn [orb].
      specialize (HV w i (or_introl eq_refl) Hv). rewrite unprime_spec in HV. cbn [fst] in HV.
      replace (existsb (String.eqb (if lastIsPrime w then withoutLast w else w)) aps) with true; auto. symmetry. apply existsb_exists. eexists. split; [exact HV|]. apply String.eqb_refl.
    - cbn [fold_right]. rewrite IH; auto. intros w i Hw. apply (HV w i). now right.
    - cbn [existsb] in Hd. change (existsb (String.eqb "$") (ws ++ vs) = false) in Hd. rewrite existsb_app in Hd. apply orb_false_elim in Hd. destruct Hd as [Hd1 Hd2].
      cbn [fold_right]. rewrite fold_right_app, IH2, IH1; auto; try reflexivity; intros w i Hw; apply (HV w i); cbn [In]; rewrite in_app_iff; auto.
    - cbn [existsb] in Hd. change (existsb (String.eqb "$") (ws ++ vs) = false) in Hd. rewrite existsb_app in Hd. apply orb_false_elim in Hd. destruct Hd as [Hd1 Hd2].
      cbn [fold_right]. rewrite fold_right_app, IH2, IH1; auto; try reflexivity; intros w i Hw; apply (HV w i); cbn [In]; rewrite in_app_iff; auto.
    - cbn [existsb] in Hd. change (existsb (String.eqb "$") (ws ++ vs) = false) in Hd. rewrite existsb_app in Hd. apply orb_false_elim in Hd. destruct Hd as [Hd1 Hd2].
      cbn [fold_right]. rewrite fold_right_app, IH2, IH1; auto; try reflexivity; intros w i Hw; apply (HV w i); cbn [In]; rewrite in_app_iff; auto.
    - discriminate.
    - lia. }
  rewrite X. reflexivity.
Qed.
Print Assumptions C52_copied.
Example C52_copied_example : exists f, gram (var_ok exSNames exSTypes exAllowed) uintBound false 0 f ["|"; "!"; "d"; "x@1'"]%string /\
  (forall w i, In w ["|"; "!"; "d"; "x@1'"]%string -> var_ok exSNames exSTypes exAllowed w i -> In (fst (unprime w)) ["d"; "x@0.0.2"; "x@1"]%string).
Proof.
  exists (FOr (FNot (FVar 5)) (FVar 7)). split.
  - assert (V : forall w i, indexOf exSNames w = Some i -> existsb (vt_eqb (nth i exSTypes NoneVariableType)) exAllowed = true -> var_ok exSNames exSTypes exAllowed w i)
      by (intros w i H1 H2; split; [now apply indexOf_spec|now apply allowed_spec]).
    apply (g_or _ _ _ _ _ _ ["!"; "d"]%string ["x@1'"]%string); [apply g_not|]; apply g_var; auto; apply V; vm_compute; reflexivity.
  - assert (N : forall w i, var_ok exSNames exSTypes exAllowed w i -> In w exSNames) by (intros w i [[H _] _]; eapply nth_error_In; eauto).
    intros w i [<-|[<-|[<-|[<-|[]]]]] HV; try (vm_compute; tauto); apply N in HV; exfalso; vm_compute in HV; intuition discriminate.
Qed.

(** Conversely, a copied line without buffers is in the prefix notation over the declared variables,
    unless it ends with a negation or contains one of the words 0' and 1'. *)
Theorem C52_only : forall var bound ws aps, isValidRecursiveSlugsProperty aps ws = true ->
  ~ In ""%string ws -> existsb (String.eqb "$") ws = false -> last ws ""%string <> "!"%string ->
  ~ In "0'"%string ws -> ~ In "1'"%string ws ->
  (forall w, In w ws -> reserved w = false -> In (fst (unprime w)) aps -> exists i, var w i) ->
  ~ In "$"%string aps -> ~ In "?"%string aps ->
  exists f, gram var bound false 0 f ws.
Proof.
  intros var bound ws aps HC HN Hd HL H0 H1 HV HA1 HA2. unfold isValidRecursiveSlugsProperty in HC.
  replace (filter (fun a => negb (String.eqb a "")) ws) with ws in HC.
  2:{ clear - HN. induction ws as [|w ws IH]; auto. cbn [filter]. destruct (String.eqb_spec w "") as [->|N]; [elim HN; now left|]. cbn. f_equal. apply IH. intros X. apply HN. now right. }
  rewrite Hd in HC. destruct (fold_right (slugsStep aps) (Some 0) ws) as [n|] eqn:E; [|discriminate]. apply Nat.eqb_eq in HC. subst n.
  assert (X : forall n, fold_right (slugsStep aps) (Some 0) ws = Some n ->
     exists fs, length fs = n /\ ws = concat (map snd fs) /\ Forall (fun p => gram var bound false 0 (fst p) (snd p)) fs).
  { clear E HN. induction ws as [|w ws IH]; intros n E.
    - cbn in E. injection E as <-. exists []. repeat split. constructor.
    - cbn [fold_right] in E. destruct (fold_right (slugsStep aps) (Some 0) ws) as [m|] eqn:Em; [|discriminate].
      assert (HL' : last ws ""%string <> "!"%string) by (destruct ws; [discriminate|exact HL]).
      cbn [existsb] in Hd. apply orb_false_elim in Hd. destruct Hd as [Hd0 Hd].
      destruct (IH Hd HL') with (n := m) as (fs & Lf & Ew & F); auto.
      { intros Z. apply H0. now right. }
      { intros Z. apply H1. now right. }
      { intros v Z. apply HV. now right. }
      assert (Two : forall g (C : forall f h us vs, gram var bound false 0 f us -> gram var bound false 0 h vs -> gram var bound false 0 (g f h) (w :: us ++ vs)%list),
        2 <= m -> n = m - 1 -> exists fs, length fs = n /\ (w :: ws = concat (map snd fs))%list /\ Forall (fun p => gram var bound false 0 (fst p) (snd p)) fs).
      { intros g C Hm ->. destruct fs as [|[f us] [|[h vs] fs]]; cbn [length] in Lf; try lia.
        inversion F as [|? ? F1 F']; subst. inversion F' as [|? ? F2 F3]; subst.
        exists ((g f h, (w :: us ++ vs)%list) :: fs). split; [cbn [length]; lia|]. split; [cbn [map snd concat app]; now rewrite app_assoc|].
        constructor; auto. cbn. now apply C. }
      assert (One : forall f, gram var bound false 0 f [w] -> n = S m ->
        exists fs, length fs = n /\ (w :: ws = concat (map snd fs))%list /\ Forall (fun p => gram var bound false 0 (fst p) (snd p)) fs).
      { intros f G ->. exists ((f, [w]) :: fs). split; [cbn [length]; lia|]. split; [cbn; now rewrite Ew|]. constructor; auto. }
      unfold slugsStep in E. cbn [existsb] in E.
      destruct (String.eqb_spec w "|") as [->|N1]; cbn [orb] in E.
      { destruct (Nat.ltb_spec m 2); [discriminate|]. injection E as <-. apply (Two FOr); auto. intros; now apply g_or. }
      destruct (String.eqb_spec w "&") as [->|N2]; cbn [orb] in E.
      { destruct (Nat.ltb_spec m 2); [discriminate|]. injection E as <-. apply (Two FAnd); auto. intros; now apply g_and. }
      destruct (String.eqb_spec w "^") as [->|N3]; cbn [orb] in E.
      { destruct (Nat.ltb_spec m 2); [discriminate|]. injection E as <-. apply (Two FXor); auto. intros; now apply g_xor. }
      destruct (String.eqb_spec w "!") as [->|N4].
      { injection E as <-. destruct fs as [|[f us] fs].
        * cbn in Ew. subst ws. elim HL. reflexivity.
        * inversion F as [|? ? F1 F']; subst. exists ((FNot f, ("!"%string :: us)%list) :: fs). split; auto. split; [reflexivity|].
          constructor; auto. cbn. now apply g_not. }
      destruct (String.eqb_spec w "1") as [->|N5]; cbn [orb] in E.
      { injection E as <-. apply (One FTrue); auto. constructor. }
      destruct (String.eqb_spec w "0") as [->|N6]; cbn [orb] in E.
      { injection E as <-. apply (One FFalse); auto. constructor. }
      assert (Hu : fst (unprime w) = if lastIsPrime w then withoutLast w else w) by now rewrite unprime_spec.
      rewrite <- Hu in E. destruct (existsb (String.eqb (fst (unprime w))) aps) eqn:Ea.
      * injection E as <-. apply existsb_exists in Ea. destruct Ea as (a & Ha & Ea). apply String.eqb_eq in Ea. subst a.
        assert (R : reserved w = false).
        { unfold reserved. cbn [existsb]. 
          destruct (String.eqb_spec w "|"); [contradiction|]. destruct (String.eqb_spec w "^"); [contradiction|].
          destruct (String.eqb_spec w "&"); [contradiction|]. destruct (String.eqb_spec w "!"); [contradiction|].
          destruct (String.eqb_spec w "1"); [contradiction|]. destruct (String.eqb_spec w "0"); [contradiction|].
          destruct (String.eqb_spec w "$") as [->|]; [elim HA1; exact Ha|]. destruct (String.eqb_spec w "?") as [->|]; [elim HA2; exact Ha|].
          reflexivity. }
        destruct (HV w (or_introl eq_refl) R Ha) as (i & Hi). apply (One (FVar i)); [now apply g_var|reflexivity].
      * exfalso. rewrite Hu in E. destruct (lastIsPrime w) eqn:P.
        + assert (W : forall c, withoutLast w = String c "" -> w = String c "'").
          { intros c. clear - P. destruct w as [|x [|y [|z w]]]; cbn in *; try discriminate.
            intros Q. injection Q as ->. destruct (Ascii.eqb_spec y "'"); [now subst|discriminate]. }
          destruct (String.eqb_spec (withoutLast w) "0") as [Q|_]; [apply H0; left; now apply W in Q|].
          destruct (String.eqb_spec (withoutLast w) "1") as [Q|_]; [apply H1; left; now apply W in Q|]. discriminate.
        + destruct (String.eqb_spec w "0"); [contradiction|]. destruct (String.eqb_spec w "1"); [contradiction|]. discriminate. }
  destruct (X 1 E) as ([|[f us] [|? ?]] & Lf & -> & F); cbn in Lf; try lia. exists f. cbn. rewrite app_nil_r. now inversion F.
Qed.
Print Assumptions C52_only.
Example C52_only_example : isValidRecursiveSlugsProperty ["d"; "x@1"]%string ["|"; "!"; "d"; "x@1'"]%string = true /\
  isValidRecursiveSlugsProperty ["d"; "x@1"]%string ["d"; "x@1'"]%string = false /\ last ["|"; "!"; "d"; "x@1'"]%string ""%string <> "!"%string.
Proof. repeat split. discriminate. Qed.

(** For lines without buffers, the number of operands is counted correctly, but a line in
    which a negation has no operand is copied, too, and slugs rejects it. *)
Theorem C52_refuted : exists aps ws, isValidRecursiveSlugsProperty aps ws = true /\ existsb (String.eqb "$") ws = false /\
  (forall var bound f, ~ gram var bound false 0 f ws) /\
  isOk (parseFormula exSNames exSTypes exAllowed exOrd (String.concat " " ws)) = false.
Proof.
  exists ["d"%string], ["d"; "!"]%string. split; [reflexivity|]. split; [reflexivity|]. split; [|vm_compute; reflexivity].
  intros var bound f HG. inversion HG.
Qed.
Print Assumptions C52_refuted.
