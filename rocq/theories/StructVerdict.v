(** * Proofs: translated structured slugs files are accepted by slugs *)

From Coq Require Import String Ascii List Bool Arith NArith ZArith Lia.
From Verif Require Import FormulaSpec Parser Spec FileSpec ParserProofs FileProofs PropsParser OutputProofs EstimatorText FastSlowFile SymbolicProofs MinCoreProofs AigMain MonoProofs StructuredSpec Structured StructuredProofs StructuredAccept StructuredTrans PropsStructured StructGrammar StructParse StructReadProofs PropsStructParse
  StructFileSpec StructFile StructGameProofs StructFileProofs StructDeclProofs StructLineProofs StructTokenProofs StructConvProofs StructMain DecoderProofs StuckSpec StuckProofs StructAcceptSpec StructAccept.
Import ListNotations.
Local Open Scope string_scope.
Local Open Scope list_scope.

(** ** Lines that are not copied *)
Lemma step_bad aps w o : ~ In w ["|"; "&"; "^"; "!"; "0"; "1"; "0'"; "1'"] -> (forall v, In v aps -> w <> v /\ w <> (v ++ "'")%string) -> slugsStep aps w o = None.
Proof.
  intros H1 H2. destruct o as [n|]; [|reflexivity]. unfold slugsStep.
  assert (X : forall l, (forall u, In u l -> w <> u) -> existsb (String.eqb w) l = false).
  { intros l Hl. destruct (existsb _ _) eqn:E; [|reflexivity]. apply existsb_exists in E. destruct E as (u & Hu & E). apply String.eqb_eq in E. now elim (Hl u Hu). }
  rewrite X by (intros u Hu ->; apply H1; cbn in *; tauto). destruct (String.eqb_spec w "!") as [->|_]; [elim H1; cbn; tauto|]. rewrite X by (intros u Hu ->; apply H1; cbn in *; tauto).
  assert (Y : forall l, (forall u, In u l -> w <> u /\ w <> (u ++ "'")%string) -> existsb (String.eqb (if lastIsPrime w then withoutLast w else w)) l = false).
  { intros l Hl. destruct (lastIsPrime w) eqn:LP; [|apply X; intros u Hu; now apply Hl]. destruct (existsb _ _) eqn:E; [|reflexivity]. apply existsb_exists in E. destruct E as (u & Hu & E). apply String.eqb_eq in E.
    apply unprime_last in LP. rewrite E in LP. now elim (proj2 (Hl u Hu)). }
  rewrite Y by exact H2. rewrite Y; [reflexivity|]. intros u Hu. split; intros ->; apply H1; cbn in *; destruct Hu as [<-|[<-|[]]]; cbn; tauto.
Qed.
Lemma infix_not_copied ins outs line : blanksOnly line -> infixOnly ins outs line -> isValidRecursiveSlugsProperty (flat_map apWords (ins ++ outs)) (splitChar " " line) = false.
Proof.
  intros B (H1 & HX). unfold isValidRecursiveSlugsProperty. rewrite words_split by exact B.
  destruct (existsb (String.eqb "$") (words line)) eqn:E; [apply existsb_exists in E; destruct E as (u & Hu & E); apply String.eqb_eq in E; subst; contradiction|].
  assert (X : fold_right (slugsStep (flat_map apWords (ins ++ outs))) (Some 0) (words line) = None); [|now rewrite X].
  destruct HX as [(w & Hw & H2 & H3)|(ws & o & nots & w & -> & HO & HN)].
  - revert Hw. generalize (words line). induction l as [|u l IH]; [intros []|]. cbn [fold_right]. intros [->|Hw]; [now apply step_bad|]. now rewrite IH.
  - rewrite fold_right_app. assert (Z : forall l, fold_right (slugsStep (flat_map apWords (ins ++ outs))) None l = None) by (induction l as [|u l IH]; [reflexivity|]; cbn [fold_right]; now rewrite IH).
    cbn [fold_right]. rewrite fold_right_app. cbn [fold_right].
    assert (S1 : forall k, slugsStep (flat_map apWords (ins ++ outs)) w (Some 0) = Some k -> k < 2).
    { intros k. unfold slugsStep. repeat match goal with |- context [if ?b then _ else _] => destruct b end; intros Q; try discriminate Q; assert (Q' := f_equal (fun q => match q with Some z => z | None => 0 end) Q); cbn in Q'; lia. }
    assert (S2 : forall st, fold_right (slugsStep (flat_map apWords (ins ++ outs))) st nots = st).
    { intros st. induction HN as [|u nots Hu HN IH]; [reflexivity|]. cbn [fold_right]. rewrite IH. subst u. destruct st; reflexivity. }
    rewrite S2. replace (slugsStep (flat_map apWords (ins ++ outs)) o _) with (@None nat); [apply Z|]. destruct (slugsStep (flat_map apWords (ins ++ outs)) w (Some 0)) as [k|]; [|reflexivity].
    specialize (S1 k eq_refl). unfold slugsStep. destruct HO as [<-|[<-|[<-|[]]]]; cbn [existsb String.eqb Ascii.eqb eqb orb]; (destruct (Nat.ltb_spec k 2); [reflexivity|lia]).
Qed.

(** ** The names in a section *)
Lemma numSignals_ext D D' : (forall x, limitsOf D x = limitsOf D' x) -> forall a next, numSignals D next a = numSignals D' next a.
Proof. intros H a. induction a; intros next; cbn [numSignals]; rewrite ?IHa, ?IHa1, ?IHa2; auto. destruct (unprime _) as [y p]. now rewrite H. Qed.
Lemma signals_ext D D' : (forall x, limitsOf D x = limitsOf D' x) -> forall f next, signals D next f = signals D' next f.
Proof. intros H f. induction f; intros next; cbn [signals]; rewrite ?IHf, ?IHf1, ?IHf2, ?(numSignals_ext D D' H); auto. Qed.

Section NAMES.
  Variables ins outs : list declaration.
  Hypothesis HG : Forall good (ins ++ outs).
  Hypothesis ND : NoDup (allNames ins outs).
  Variable s : section.
  Notation names := (allNames ins outs).
  Notation may := (mayName ins outs s).

  Lemma all_length l : length (allNames l []) = 2 * total l.
  Proof. unfold allNames. rewrite app_nil_r, <- names_total. induction (flat_map namesOfBits l) as [|w ws IH]; [reflexivity|]. cbn [flat_map app length] in *. rewrite IH. lia. Qed.
  Lemma okW_may w : words w = [w] -> reserved w = false -> (exists i, may w i) -> okW may names w.
  Proof. intros H1 H2 (i & H). split; [exact H1|]. split; [exact H2|]. exists i. split; [exact H|]. intros e. apply lookup_names_var. apply nodup_var; [exact ND|]. apply H. Qed.
  Lemma translate_allowed D line f b : reads (flat_map apWords (ins ++ outs)) line f -> translate D f = Ret b -> (N.of_nat (String.length b) < maxNumber)%N ->
    (forall w, In w (signals D false f) -> exists i, may w i) -> exists g, gram may maxNumber false 0 g (words b).
  Proof.
    intros HR E HL HS. destruct (reads_tokens _ _ _ HR) as [HT HA]. unfold translate in E.
    destruct (simpleFormula D false (flatten (clean f))) as [ts| |] eqn:ES; cbn [pybind] in E; try discriminate.
    apply (f_equal (fun r => match r with Ret q => q | _ => ""%string end)) in E. cbv beta iota in E. subst b.
    pose proof (words_count (String.concat " " ts)) as LC. rewrite words_join in LC.
    destruct (translate_spec may maxNumber names D f ts ES) as (g & Hg & Hd).
    - intros w Hw. destruct (signals_plain D f HT false w Hw) as [W1 W2]. apply okW_may; auto.
    - lia.
    - exists g. now rewrite words_join.
  Qed.
  Lemma limit_allowed next x mn mx l : In (DInt x mn mx) (ins ++ outs) -> (forall v, In v (bitNames x mn mx) -> exists i, may (prime next v) i) ->
    limOne next (DInt x mn mx) = [l] -> exists g, gram may maxNumber false 0 g (words l).
  Proof.
    intros HI HM. assert (GD : good (DInt x mn mx)) by (rewrite Forall_forall in HG; now apply HG). destruct GD as (LE & HT & HQ).
    unfold limOne. destruct (_ =? _)%Z; [discriminate|]. intros E. injection E as <-.
    destruct (limit_spec may maxNumber [] (mx - mn + 1)%Z (map (prime next) (bitNames x mn mx))
      (map (fun w e => StructuredSpec.lookup names e (prime next w)) (bitNames x mn mx)) 0 ["0"%string] (fun _ => false)) as (v & (g & Hg & Hd) & Hv).
    - apply vars_spec. intros w Hw. assert (Hw' := Hw). unfold bitNames in Hw'. rewrite map_map in Hw'. apply in_map_iff in Hw'. destruct Hw' as (i & Ew & _).
      assert (PW : plainWord w) by (rewrite <- Ew; apply bitName_plain; now right). destruct PW as [W1 W2]. apply okW_may; auto.
      apply in_map_iff in Hw. destruct Hw as (u & <- & Hu). auto.
    - apply G_false.
    - exists g. now rewrite words_join.
  Qed.

  Lemma half k (b : bool) : Nat.div2 (2 * k + Nat.b2n b) = k /\ Nat.odd (2 * k + Nat.b2n b) = b.
  Proof.
    destruct b; cbn [Nat.b2n].
    - rewrite Nat.add_1_r. rewrite Nat.div2_succ_double. split; [reflexivity|]. rewrite Nat.odd_succ. apply Nat.even_spec. now exists k.
    - rewrite Nat.add_0_r, Nat.div2_double. split; [reflexivity|]. rewrite <- Nat.negb_even. replace (Nat.even (2 * k)) with true; [reflexivity|]. symmetry. apply Nat.even_spec. now exists k.
  Qed.
  Lemma may_bit (out next : bool) d v : In d (if out then outs else ins) -> In v (namesOfBits d) -> may_use s out next = true -> exists i, may (prime next v) i.
  Proof.
    intros Hd Hv HM.
    assert (X : exists k, nth_error (flat_map namesOfBits (ins ++ outs)) k = Some v /\ Nat.leb (total ins) k = out).
    { rewrite flat_map_app. destruct out.
      - assert (I : In v (flat_map namesOfBits outs)) by (apply in_flat_map; eauto). apply In_nth_error in I. destruct I as (k & Hk). exists (total ins + k). split; [|apply Nat.leb_le; lia].
        rewrite nth_error_app2 by (rewrite names_total; lia). rewrite names_total. replace (total ins + k - total ins) with k by lia. exact Hk.
      - assert (I : In v (flat_map namesOfBits ins)) by (apply in_flat_map; eauto). apply In_nth_error in I. destruct I as (k & Hk). exists k.
        assert (L : k < length (flat_map namesOfBits ins)) by (apply nth_error_Some; congruence). split; [now rewrite nth_error_app1|]. rewrite names_total in L. apply Nat.leb_gt. exact L. }
    destruct X as (k & H1 & H2). exists (2 * k + Nat.b2n next). split; [now apply names_nth|]. rewrite all_length, (proj2 (half k next)).
    replace (Nat.leb (2 * total ins) (2 * k + Nat.b2n next)) with out; [exact HM|]. rewrite <- H2. destruct next; cbn [Nat.b2n]; destruct (Nat.leb_spec (total ins) k); symmetry; [apply Nat.leb_le|apply Nat.leb_gt|apply Nat.leb_le|apply Nat.leb_gt]; lia.
  Qed.
  Lemma may_file L w i : declared L = names -> outputs L = repeat false (total ins) ++ repeat true (total outs) -> may w i -> file_var L s w i.
  Proof.
    intros HD HO [H1 H2]. split; [now rewrite HD|]. rewrite HO. rewrite all_length in H2.
    assert (L1 : i < length names) by (apply nth_error_Some; congruence).
    assert (L2 : length names = 2 * total ins + 2 * total outs).
    { unfold allNames. rewrite <- !names_total, flat_map_app. assert (X : forall ws : list string, length (flat_map (fun w => [w; (w ++ "'")%string]) ws) = 2 * length ws) by (induction ws as [|u ws IH]; [reflexivity|]; cbn [flat_map app length]; rewrite IH; lia).
      rewrite X, app_length. lia. }
    assert (D2 : i = 2 * Nat.div2 i + Nat.b2n (Nat.odd i)) by (rewrite Nat.div2_odd at 1; reflexivity).
    replace (nth (Nat.div2 i) (repeat false (total ins) ++ repeat true (total outs)) false) with (Nat.leb (2 * total ins) i); [exact H2|].
    destruct (Nat.leb_spec (2 * total ins) i) as [LE|LT].
    - assert (total ins <= Nat.div2 i) by (destruct (Nat.odd i); cbn [Nat.b2n] in D2; lia). rewrite app_nth2 by (rewrite repeat_length; lia). rewrite repeat_length. symmetry.
      assert (X : forall m k, k < m -> nth k (repeat true m) false = true) by (induction m as [|m IH]; intros [|k] Hk; cbn; try lia; auto; apply IH; lia). apply X. lia.
    - rewrite app_nth1 by (rewrite repeat_length; lia). symmetry. apply nth_repeat.
  Qed.
End NAMES.

(** ** Files *)
Lemma grammatical_file th text out L ins outs :
  performConversion th text = Ret out ->
  layout None (file_lines text) = Some L ->
  Forall2 plainDeclaration (linesOf SInput L) ins -> Forall2 plainDeclaration (linesOf SOutput L) outs ->
  NoDup (map fst (integers (ins ++ outs))) -> NoDup (allNames ins outs) ->
  (forall s line, formulaSection s = true -> In (s, line) L -> blanksOnly line /\ allowedLine ins outs s line) ->
  plain_file L -> (N.of_nat (String.length out) < maxNumber)%N ->
  exists Lout, layout None (file_lines out) = Some Lout /\ NoDup (declared Lout) /\ plain_file Lout /\ grammatical Lout.
Proof.
  intros HP HL PI PO HN ND HF HPl HLen.
  assert (HW : forall x mn mx, In (DInt x mn mx) (ins ++ outs) -> isWordToken x = true).
  { intros x mn mx H. apply in_app_or in H. destruct H as [H|H]; [destruct (Forall2_in_r _ _ _ _ PI H) as (l & _ & X)|destruct (Forall2_in_r _ _ _ _ PO H) as (l & _ & X)]; eapply plain_token; eauto. }
  destruct (conversion_full th text out L ins outs HP HL (F2_declares _ _ PI) (F2_declares _ _ PO) HW HN (fun s l Hs Hl => proj1 (HF s l Hs Hl)) HPl HLen) as (HG & Lout & B & (A & C & ELo & FA & FC) & LO & DO & OO & PLo & SEC).
  exists Lout. split; [exact LO|]. split; [now rewrite DO|]. split; [exact PLo|].
  assert (EA : declared A = allNames ins outs /\ outputs A = repeat false (total ins) ++ repeat true (total outs)).
  { rewrite ELo, declared_app in DO. rewrite ELo, outputs_app in OO.
    assert (Z : forall l, Forall (fun p : section * string => formulaSection (fst p) = true) l -> declared l = [] /\ outputs l = []).
    { induction 1 as [|[s l'] l Hs F [I1 I2]]; [split; reflexivity|]. unfold declared, outputs in *. cbn [flat_map fst snd]. destruct s; try discriminate Hs; split; cbn [app]; auto. }
    destruct (Z C FC) as [Z1 Z2]. rewrite Z1, app_nil_r in DO. rewrite Z2, app_nil_r in OO. auto. }
  destruct EA as [EA1 EA2].
  intros L1 s line L2 EL Hs.
  assert (D1 : declared L1 = allNames ins outs /\ outputs L1 = repeat false (total ins) ++ repeat true (total outs)).
  { assert (X : exists C1, L1 = A ++ C1 /\ Forall (fun p : section * string => formulaSection (fst p) = true) C1).
    { rewrite ELo in EL. clear - EL FA FC Hs. revert L1 EL. induction A as [|a A IH]; intros L1 EL; cbn [app] in EL.
      - exists L1. split; [reflexivity|]. rewrite EL in FC. apply Forall_app in FC. apply FC.
      - inversion FA as [|? ? F1 F2]; subst. destruct L1 as [|a' L1]; cbn [app] in EL; [injection EL as -> _; cbn in F1; congruence|]. assert (a' = a) by congruence. subst a'.
        destruct (IH F2 L1) as (C1 & -> & HC1); [congruence|]. exists C1. auto. }
    destruct X as (C1 & -> & FC1). rewrite declared_app, outputs_app.
    assert (Z : declared C1 = [] /\ outputs C1 = []).
    { clear - FC1. induction FC1 as [|[s l'] l Hs F [I1 I2]]; [split; reflexivity|]. unfold declared, outputs in *. cbn [flat_map fst snd]. destruct s; try discriminate Hs; split; cbn [app]; auto. }
    destruct Z as [-> ->]. rewrite !app_nil_r. auto. }
  destruct D1 as [D1 D2].
  enough (X : exists g, gram (mayName ins outs s) maxNumber false 0 g (words line)).
  { destruct X as (g & Hg). exists g. revert Hg. apply gram_var_ext. intros w i. now apply may_file. }
  destruct (SEC s Hs) as (S1 & S2 & S3 & S4).
  assert (IL : In line (linesOf s Lout)) by (apply in_linesOf; rewrite EL; apply in_app_iff; right; now left).
  rewrite S1 in IL. apply in_map_iff in IL. destruct IL as (b & <- & Hb). rewrite words_strip.
  destruct (Forall2_in_r _ _ _ _ S2 Hb) as (a & Ha & Eab & Lb).
  assert (LR : forall x, limitsOf (rev (integers (ins ++ outs))) x = limitsOf (integers (ins ++ outs)) x) by (apply limits_rev; exact HN).
  apply in_app_or in Ha. destruct Ha as [Ha|Ha].
  - rewrite Forall_forall in S3, S4. pose proof (S3 a Ha) as (T1 & T2 & T3). pose proof (S4 a Ha) as Ca. apply in_linesOf in Ha. destruct (HF s a Hs Ha) as (Bl & AL).
    unfold convertLine in Eab. rewrite trim_spec, T1 in Eab. unfold content in Ca. apply negb_true_iff in Ca. rewrite Ca in Eab. destruct AL as [(g & Hg)|(IO & f & R & SU & SI)].
    + assert (PL : prefixLine ins outs a g).
      { unfold prefixLine. apply (proj1 (gram_loosen _ _) 0 g (words a)) with (m' := 0) in Hg; auto. revert Hg. apply gram_var_ext. intros w i [H _]. exact H. }
      rewrite (prefix_copied ins outs HG a g Bl PL) in Eab. assert (b = a) as -> by congruence. eauto.
    + rewrite (infix_not_copied ins outs a Bl IO) in Eab. assert (R' := R). apply C80_reads in R'. change (booleanWords ins outs) with (flat_map apWords (ins ++ outs)) in R, R'. rewrite R' in Eab.
      eapply translate_allowed; [exact ND|exact R|exact Eab|exact Lb|]. intros w. rewrite (signals_ext _ _ LR). apply SI.
  - assert (X : exists out n d0, In d0 (if out : bool then outs else ins) /\ may_use s out n = true /\ In a (limOne n d0)).
    { unfold limitsIn in Ha. apply in_app_or in Ha. destruct Ha as [Ha'|Ha']; apply in_flat_map in Ha'; destruct Ha' as (d0 & Hd0 & Ha'); apply in_flat_map in Ha'; destruct Ha' as (n & Hn & Ha').
      - exists false, n, d0. split; [exact Hd0|]. split; [|exact Ha']. destruct s, th; cbn in Hn; repeat (destruct Hn as [<-|Hn]; try reflexivity); destruct Hn.
      - exists true, n, d0. split; [exact Hd0|]. split; [|exact Ha']. destruct s, th; cbn in Hn; repeat (destruct Hn as [<-|Hn]; try reflexivity); destruct Hn. }
    destruct X as (o & n & d0 & Hd & MU & Hl).
    assert (Hd' : In d0 (ins ++ outs)) by (apply in_app_iff; destruct o; auto).
    pose proof (convert_limit ins outs HG (rev (integers (ins ++ outs))) n d0 a b Hd' Hl Eab) as ->.
    destruct d0 as [x|x mn mx]; [destruct Hl|].
    assert (E0 : limOne n (DInt x mn mx) = [a]) by (unfold limOne in *; destruct (_ =? _)%Z; [destruct Hl|destruct Hl as [<-|[]]; reflexivity]).
    eapply limit_allowed; [exact HG|exact ND|exact Hd'| |exact E0]. intros v Hv. eapply may_bit; [exact Hd|exact Hv|exact MU].
Qed.

(** ** Distinct names *)
Lemma declarable_spec x : declarable x = true <-> ~ occursIn "'" x /\ ~ occursIn "@" x.
Proof.
  unfold declarable, occursIn. induction x as [|a x IH]; [cbn; tauto|]. cbn [allChars list_ascii_of_string]. rewrite andb_true_iff, IH, andb_true_iff, !negb_true_iff, !Ascii.eqb_neq. cbn [In]. unfold quoteChar.
  split; [intros ([A B] & C & E); split; intros [H|H]; auto|]. intros [A B]. repeat split; auto.
Qed.
Lemma nodup_app {A} (l m : list A) : NoDup l -> NoDup m -> (forall x, In x l -> ~ In x m) -> NoDup (l ++ m).
Proof.
  induction l as [|x l IH]; intros N1 N2 D; [exact N2|]. inversion N1 as [|? ? K1 K2]; subst. cbn [app]. constructor.
  - intros H. apply in_app_or in H. destruct H as [H|H]; [contradiction|]. apply (D x); [now left|exact H].
  - apply IH; auto. intros y Hy. apply D. now right.
Qed.
Notation pairs := (flat_map (fun w => [w; (w ++ "'")%string])).
Lemma in_pairs w l : In w (pairs l) -> exists v p, In v l /\ w = prime p v.
Proof. intros H. apply in_flat_map in H. destruct H as (v & Hv & [<-|[<-|[]]]); [exists v, false|exists v, true]; auto. Qed.
Lemma pairs_nodup l : NoDup l -> (forall v, In v l -> noQuote v = true) -> NoDup (pairs l).
Proof.
  induction 1 as [|v l H1 H2 IH]; intros Q; [constructor|]. cbn [flat_map]. apply nodup_app.
  - constructor; [|repeat constructor; intros []]. intros [E|[]]. destruct (prime_inj true false v v) as [X _]; auto using in_eq; discriminate.
  - apply IH. intros; apply Q; now right.
  - intros w Hw Hw'. apply in_pairs in Hw'. destruct Hw' as (u & p & Hu & ->). assert (X : exists q, prime p u = prime q v) by (destruct Hw as [<-|[<-|[]]]; [exists false|exists true]; reflexivity). destruct X as (q & E).
    apply prime_inj in E; [|apply Q; now right|apply Q; now left]. destruct E as [_ ->]. contradiction.
Qed.
Lemma names_noQuote d v : declarable (nameOfDecl d) = true -> In v (namesOfBits d) -> noQuote v = true.
Proof.
  destruct d as [x|x mn mx]; cbn [nameOfDecl namesOfBits]; intros H Hv; [destruct Hv as [<-|[]]; now apply declarable_noQuote|].
  unfold bitNames in Hv. apply in_map_iff in Hv. destruct Hv as (i & <- & _). now apply noQuote_bit.
Qed.
Lemma bits_nodup ds : (forall d, In d ds -> declarable (nameOfDecl d) = true) -> NoDup (map nameOfDecl ds) -> NoDup (flat_map namesOfBits ds).
Proof.
  induction ds as [|d ds IH]; intros HD HN; [constructor|]. cbn [map] in HN. inversion HN as [|? ? N1 N2]; subst. cbn [flat_map]. apply nodup_app.
  - destruct d as [x|x mn mx]; cbn [namesOfBits]; [repeat constructor; intros []|]. unfold bitNames. pose proof (HD _ (in_eq _ _)) as Hx. cbn [nameOfDecl] in Hx.
    apply FinFun.Injective_map_NoDup; [|apply seq_NoDup]. intros i j E. destruct (C51_names x x mn mx mn mx i j false false Hx Hx) as [X _]. now apply X.
  - apply IH; auto. intros e He. apply HD. now right.
  - intros w Hw Hw'. apply in_flat_map in Hw'. destruct Hw' as (e & He & Hw'). apply N1. apply in_map_iff. exists e. split; [|exact He].
    pose proof (HD d (in_eq _ _)) as Hd. pose proof (HD e (in_cons _ _ _ He)) as He'.
    destruct d as [x|x mn mx], e as [y|y mn' mx']; cbn [namesOfBits nameOfDecl] in *.
    + destruct Hw as [<-|[]], Hw' as [<-|[]]. reflexivity.
    + destruct Hw as [<-|[]]. unfold bitNames in Hw'. apply in_map_iff in Hw'. destruct Hw' as (i & E & _). destruct (C51_names y x mn' mx' 0%Z 0%Z i 0 false false He' Hd) as [_ X]. now elim X.
    + destruct Hw' as [<-|[]]. unfold bitNames in Hw. apply in_map_iff in Hw. destruct Hw as (i & E & _). destruct (C51_names x y mn mx 0%Z 0%Z i 0 false false Hd He') as [_ X]. now elim X.
    + unfold bitNames in Hw, Hw'. apply in_map_iff in Hw, Hw'. destruct Hw as (i & <- & _), Hw' as (j & E & _). destruct (C51_names y x mn' mx' mn mx j i false false He' Hd) as [X _]. now apply X.
Qed.
Lemma all_nodup ins outs : (forall d, In d (ins ++ outs) -> declarable (nameOfDecl d) = true) -> NoDup (map nameOfDecl (ins ++ outs)) -> NoDup (allNames ins outs).
Proof. intros HD HN. apply pairs_nodup; [now apply bits_nodup|]. intros v Hv. apply in_flat_map in Hv. destruct Hv as (d & Hd & Hv). eapply names_noQuote; eauto. Qed.
Lemma plain_declarable line d : plainDeclaration line d -> declarable (nameOfDecl d) = true.
Proof. intros [x _ H1 H2|x a b mn mx u v s t _ H1 H2 _ _ _ _ _ _ _]; now apply declarable_spec. Qed.
