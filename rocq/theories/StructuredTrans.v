(** * The translation of structured slugs formulas, continued *)

From Coq Require Import String Ascii List Bool Arith NArith ZArith Lia.
From Coq Require Import DecimalString.
From Verif Require Import FormulaSpec ParserProofs StructuredSpec Structured StructuredProofs.
Import ListNotations.
Local Open Scope list_scope.

Lemma withoutLast_cons a b x : withoutLast (String a (String b x)) = String a (withoutLast (String b x)).
Proof. unfold withoutLast. cbn [String.length]. replace (S (S (String.length x)) - 1) with (S (S (String.length x) - 1)) by lia. reflexivity. Qed.
Lemma unprime_spec x : unprime x = (if lastIsPrime x then withoutLast x else x, lastIsPrime x).
Proof.
  induction x as [|a x IH]; [reflexivity|]. destruct x as [|b x].
  - cbn. unfold quoteChar. destruct (Ascii.eqb a "'"); reflexivity.
  - change (unprime (String a (String b x))) with (let (y, p) := unprime (String b x) in (String a y, p)). rewrite IH.
    change (lastIsPrime (String a (String b x))) with (lastIsPrime (String b x)).
    destruct (lastIsPrime (String b x)); auto. now rewrite withoutLast_cons.
Qed.
Lemma unprime_last x : lastIsPrime x = true -> x = (withoutLast x ++ "'")%string.
Proof.
  induction x as [|a x IH]; [discriminate|]. destruct x as [|b x].
  - cbn. intros H. apply Ascii.eqb_eq in H. now subst.
  - intros H. change (lastIsPrime (String a (String b x))) with (lastIsPrime (String b x)) in H. rewrite withoutLast_cons. cbn [append]. now rewrite <- IH.
Qed.

Definition rawLimits (D : limits) : limits := map (fun d => (fst d, (0%Z, (snd (snd d) - fst (snd d))%Z))) D.
Lemma limitsOf_raw D x : limitsOf (rawLimits D) x = match limitsOf D x with Some (mn, mx) => Some (0, mx - mn)%Z | None => None end.
Proof.
  unfold limitsOf, rawLimits. induction D as [|[y [mn mx]] D IH]; [reflexivity|]. cbn [map find fst snd]. destruct (String.eqb y x); auto.
Qed.

Lemma bitsFor_0 : bitsFor 0 = 0.
Proof. reflexivity. Qed.
Lemma widthAdd_0 n : widthAdd n 0 = n.
Proof. now destruct n. Qed.

Lemma posBits_length p : length (posBits p) = Pos.size_nat p.
Proof. induction p; cbn; auto. Qed.

Lemma addJoint_mono r1 : forall r2 ps, length ps <= length (addJoint r1 r2 ps).
Proof.
  induction r1 as [|c r1 IH]; intros [|d r2] ps0; cbn [addJoint]; rewrite ?length_addRest; try lia.
  etransitivity; [|apply IH]. unfold pushPart. rewrite !app_length. lia.
Qed.
Lemma addBits_mono p1 p2 ps p ps' : addBits p1 p2 ps = (p, ps') -> length ps <= length ps'.
Proof.
  unfold addBits. destruct (Nat.eqb (length p1) 0); [intros E; injection E as <- <-; lia|]. destruct (Nat.eqb (length p2) 0); [intros E; injection E as <- <-; lia|].
  destruct (Nat.ltb (length p2) (length p1)); intros E; apply pair_equal_spec in E; destruct E as [_ <-];
    (etransitivity; [|apply addJoint_mono]); unfold pushPart; rewrite !app_length; lia.
Qed.

(** Every part has a word. *)
Definition full (ps : parts) : Prop := Forall (fun t => flat_map words t <> []) ps.
Lemma full_push ps t : full ps -> flat_map words t <> [] -> full (pushPart ps t).
Proof. intros H1 H2. apply Forall_app. auto. Qed.
Lemma full_addRest p2 : forall ps, full ps -> full (addRest p2 ps).
Proof.
  induction p2 as [|b p2 IH]; intros ps H; auto. cbn [addRest]. apply IH. apply full_push; [apply full_push; auto|]; cbn [flat_map].
  - change (words "^") with ["^"%string]. discriminate.
  - change (words "&") with ["&"%string]. discriminate.
Qed.
Lemma full_addJoint p1 : forall p2 ps, full ps -> full (addJoint p1 p2 ps).
Proof.
  induction p1 as [|a p1 IH]; intros [|b p2] ps H; cbn [addJoint]; auto using full_addRest.
  apply IH. apply full_push; [apply full_push; auto|]; cbn [flat_map].
  - change (words "^ ^") with ["^"; "^"]%string. discriminate.
  - change (words "| | &") with ["|"; "|"; "&"]%string. discriminate.
Qed.
Lemma full_addBits p1 p2 ps p ps' : full ps -> addBits p1 p2 ps = (p, ps') -> full ps'.
Proof.
  intros H. unfold addBits. destruct (Nat.eqb (length p1) 0); [intros E; now injection E as <- <-|]. destruct (Nat.eqb (length p2) 0); [intros E; now injection E as <- <-|].
  destruct (Nat.ltb (length p2) (length p1)); intros E; apply pair_equal_spec in E; destruct E as [_ <-];
    apply full_addJoint, full_push; try apply full_push; auto; cbn [flat_map]; change (words "^") with ["^"%string]; change (words "&") with ["&"%string]; discriminate.
Qed.
Lemma full_count ps : full ps -> length ps <= length (flat_map words (concat ps)).
Proof.
  induction 1 as [|t ps H _ IH]; cbn [concat length]; [lia|]. rewrite flat_map_app, app_length. destruct (flat_map words t); [easy|]. cbn [length]. lia.
Qed.
Lemma full_calculation D primed a : forall ps p ps', full ps -> calculation D primed a ps = Ret (p, ps') -> full ps'.
Proof.
  induction a as [x|n|a IHa b IHb|a IHa b IHb|a IHa|a IHa b IHb]; intros ps p ps' F E; cbn [calculation] in E.
  - destruct (lastIsPrime x && primed); [discriminate|]. destruct (limitsOf D _) as [[mn mx]|]; [|discriminate].
    apply (f_equal (fun r => match r with Ret (_, q) => q | _ => [] end)) in E. cbn in E. now subst.
  - destruct (numeralBits n); cbn in E; try discriminate. injection E as <- <-. auto.
  - destruct (calculation D primed a ps) as [[p1 ps1]| |] eqn:E1; cbn [pybind] in E; try discriminate.
    destruct (calculation D primed b ps1) as [[p2 ps2]| |] eqn:E2; cbn [pybind] in E; try discriminate.
    injection E as E. apply (full_addBits _ _ _ _ _ (IHb _ _ _ (IHa _ _ _ F E1) E2) E).
  - discriminate.
  - eauto.
  - destruct (calculation D primed a ps) as [[p1 ps1]| |] eqn:E1; cbn [pybind] in E; try discriminate.
    destruct (calculation D primed b ps1) as [[p2 ps2]| |] eqn:E2; cbn [pybind] in E; try discriminate.
    destruct (Nat.ltb _ _); [|discriminate]. injection E as _ <-. eauto.
Qed.

(** ** Trees *)
Section TREES.
  Variable Q : tree -> Prop.
  Hypothesis H1 : forall f g, Q f -> Q g -> Q (TBiimp f g).
  Hypothesis H2 : forall f g, Q f -> Q g -> Q (TImp f g).
  Hypothesis H3 : forall fs, Forall Q fs -> Q (TXor fs).
  Hypothesis H4 : forall fs, Forall Q fs -> Q (TOr fs).
  Hypothesis H5 : forall fs, Forall Q fs -> Q (TAnd fs).
  Hypothesis H6 : Q TTemporal.
  Hypothesis H7 : forall o f, Q f -> Q (TUnary o f).
  Hypothesis H8 : Q TFalse.
  Hypothesis H9 : Q TTrue.
  Hypothesis H10 : forall x, Q (TAssign x).
  Hypothesis H11 : forall a c b, Q (TCalc a c b).
  Fixpoint tree_rec' (t : tree) : Q t :=
    let all := fix all (fs : list tree) : Forall Q fs := match fs with [] => Forall_nil _ | f :: fs => Forall_cons _ (tree_rec' f) (all fs) end in
    match t with
    | TBiimp f g => H1 f g (tree_rec' f) (tree_rec' g)
    | TImp f g => H2 f g (tree_rec' f) (tree_rec' g)
    | TXor fs => H3 fs (all fs)
    | TOr fs => H4 fs (all fs)
    | TAnd fs => H5 fs (all fs)
    | TTemporal => H6
    | TUnary o f => H7 o f (tree_rec' f)
    | TFalse => H8
    | TTrue => H9
    | TAssign x => H10 x
    | TCalc a c b => H11 a c b
    end.
End TREES.

Section TREETRUTH.
  Variable D : limits.
  Variable bv : bool -> string -> bool.
  Variable nv : bool -> string -> Z.
  Fixpoint treeTruth (next : bool) (t : tree) : bool :=
    match t with
    | TBiimp f g => Bool.eqb (treeTruth next f) (treeTruth next g)
    | TImp f g => implb (treeTruth next f) (treeTruth next g)
    | TXor fs => fold_right xorb false (map (treeTruth next) fs)
    | TOr fs => existsb (treeTruth next) fs
    | TAnd fs => forallb (treeTruth next) fs
    | TTemporal => false
    | TUnary ONot f => negb (treeTruth next f)
    | TUnary ONext f => treeTruth true f
    | TUnary _ f => false
    | TFalse => false
    | TTrue => true
    | TAssign x => let (y, p) := unprime x in bv (p || next) y
    | TCalc a c b => compareZ c (numValue D nv next a) (numValue D nv next b)
    end.
  Fixpoint treeSignals (next : bool) (t : tree) : list string :=
    match t with
    | TBiimp f g | TImp f g => treeSignals next f ++ treeSignals next g
    | TXor fs | TOr fs | TAnd fs => flat_map (treeSignals next) fs
    | TUnary ONext f => treeSignals true f
    | TUnary _ f => treeSignals next f
    | TTemporal | TFalse | TTrue => []
    | TAssign x => let (y, p) := unprime x in [prime (p || next) y]
    | TCalc a _ b => numSignals D next a ++ numSignals D next b
    end.

  Lemma clean_truth f : forall next, treeTruth next (clean f) = truth D bv nv next f.
  Proof.
    induction f as [f IHf g IHg|f IHf g IHg|f IHf g IHg|f IHf g IHg|f IHf g IHg|wk f IHf g IHg|o f IHf| | |f IHf|x|a c b]; intros next; cbn [clean treeTruth truth map fold_right existsb forallb]; rewrite ?IHf, ?IHg; auto.
    - now rewrite xorb_false_r.
    - now rewrite orb_false_r.
    - now rewrite andb_true_r.
  Qed.
  Lemma clean_signals f : forall next w, In w (treeSignals next (clean f)) -> In w (signals D next f).
  Proof.
    induction f as [f IHf g IHg|f IHf g IHg|f IHf g IHg|f IHf g IHg|f IHf g IHg|wk f IHf g IHg|o f IHf| | |f IHf|x|a c b]; intros next w; cbn [clean treeSignals signals flat_map]; rewrite ?app_nil_r;
      try (intros H; apply in_app_or in H; apply in_or_app; destruct H; auto; fail); auto.
    - easy.
    - destruct o; auto.
  Qed.
  Lemma xor_app l l' : fold_right xorb false (l ++ l') = xorb (fold_right xorb false l) (fold_right xorb false l').
  Proof. induction l as [|b l IH]; cbn; [now destruct (fold_right _ _ _)|]. now rewrite IH, xorb_assoc_reverse. Qed.
  Lemma flatten_truth t : forall next, treeTruth next (flatten t) = treeTruth next t.
  Proof.
    induction t as [f g IHf IHg|f g IHf IHg|fs IH|fs IH|fs IH| |o f IHf| | |x|a c b] using tree_rec'; intros next; cbn [flatten treeTruth]; rewrite ?IHf, ?IHg; auto.
    - induction IH as [|f fs Hf _ IHl]; [reflexivity|]. cbn [flat_map map fold_right]. rewrite map_app, xor_app, IHl, <- Hf. f_equal.
      destruct (flatten f); cbn [map fold_right treeTruth]; auto using xorb_false_r.
    - induction IH as [|f fs Hf _ IHl]; [reflexivity|]. cbn [flat_map existsb]. rewrite existsb_app, IHl, <- Hf. f_equal.
      destruct (flatten f); cbn [existsb treeTruth]; auto using orb_false_r.
    - induction IH as [|f fs Hf _ IHl]; [reflexivity|]. cbn [flat_map forallb]. rewrite forallb_app, IHl, <- Hf. f_equal.
      destruct (flatten f); cbn [forallb treeTruth]; auto using andb_true_r.
  Qed.
  Lemma flatten_signals t : forall next w, In w (treeSignals next (flatten t)) -> In w (treeSignals next t).
  Proof.
    induction t as [f g IHf IHg|f g IHf IHg|fs IH|fs IH|fs IH| |o f IHf| | |x|a c b] using tree_rec'; intros next w; cbn [flatten treeSignals]; auto;
      try (intros H; apply in_app_or in H; apply in_or_app; destruct H; auto; fail).
    1,2,3 : induction IH as [|f fs Hf _ IHl]; [auto|]; cbn [flat_map]; rewrite flat_map_app; intros H; apply in_app_or in H; apply in_or_app; destruct H as [H|H]; auto; left;
      specialize (Hf next w); destruct (flatten f); apply Hf; cbn [flat_map treeSignals] in *; rewrite ?app_nil_r in H; auto.
    destruct o; auto.
  Qed.
End TREETRUTH.

Definition naryStep D isPrimed op (ret : pyres (list string)) (f : tree) : pyres (list string) :=
  pybind ret (fun ret => pybind (simpleFormula D isPrimed f) (fun b => Ret ([op] ++ ret ++ b))).
Lemma nary_stuck D p op fs r : (forall x, r <> Ret x) -> forall ts, fold_left (naryStep D p op) fs r <> Ret ts.
Proof.
  revert r. induction fs as [|f fs IH]; intros r H ts; cbn [fold_left]; auto. apply IH. intros x. destruct r as [y| |]; cbn; try discriminate. exfalso. now apply (H y).
Qed.
Lemma nary_mono D p op fs : forall r ts, fold_left (naryStep D p op) fs (Ret r) = Ret ts -> length (flat_map words r) <= length (flat_map words ts).
Proof.
  induction fs as [|f fs IH]; intros r ts E; cbn [fold_left] in E; [injection E as <-; auto|]. unfold naryStep at 2 in E. cbn [pybind] in E.
  destruct (simpleFormula D p f) as [b| |]; cbn [pybind] in E; try (exfalso; eapply nary_stuck; [|exact E]; discriminate).
  apply IH in E. rewrite !flat_map_app, !app_length in E. lia.
Qed.

Section TRANS.
  Variable var : string -> nat -> Prop.
  Variable bound : N.
  Variable names : list string.
  Variable D : limits.
  Local Notation G := (G var bound).
  Local Notation P := (P var bound).
  Local Notation Bt := (Bt var bound).

  Definition okW (w : string) : Prop :=
    words w = [w] /\ reserved w = false /\ exists i, var w i /\ forall e, lookup names e w = e i.

  Lemma P_var vals w : okW w -> P vals w (fun e => lookup names e w).
  Proof.
    intros (H1 & H2 & i & Hv & He). exists (FVar i). split; [exact I|]. rewrite H1. split; [now constructor|]. intros e. cbn. now rewrite He.
  Qed.

  Definition rawValue (e : env) (next : bool) (x : string) : Z :=
    match limitsOf D x with
    | Some (mn, mx) => bitsValue (map (fun w => lookup names e (prime next w)) (bitNames x mn mx))
    | None => 0%Z
    end.
  Local Notation rawNum e := (numValue (rawLimits D) (rawValue e)).
  Local Notation rawWidth := (width (rawLimits D)).

  Lemma numeral_spec vals n p : numeralBits n = Ret p -> exists cs, Forall2 (P vals) p cs /\ (forall e, ev cs e = n) /\ length p = bitsFor n.
  Proof.
    destruct n as [|q|q]; cbn [numeralBits]; intros E; try discriminate; injection E as <-.
    - exists []. repeat split; auto.
    - unfold bitsFor. cbn [Z.to_N N.size_nat]. rewrite posBits_length.
      assert (P1 : P vals "1"%string (fun _ => true)) by (exists FTrue; repeat split; constructor).
      assert (P0 : P vals "0"%string (fun _ => false)) by (exists FFalse; repeat split; constructor).
      induction q as [q IH|q IH|]; cbn [posBits].
      + destruct IH as (cs & H1 & H2 & _). exists ((fun _ => true) :: cs). split; [constructor; auto|]. split; auto.
        intros e. rewrite ev_cons, H2. cbn [Z.b2z]. lia.
      + destruct IH as (cs & H1 & H2 & _). exists ((fun _ => false) :: cs). split; [constructor; auto|]. split; auto.
        intros e. rewrite ev_cons, H2. cbn [Z.b2z]. lia.
      + exists [fun _ => true]. split; [constructor; [auto|constructor]|]. split; auto.
  Qed.

  Lemma vars_spec vals x mn mx next : (forall w, In w (map (prime next) (bitNames x mn mx)) -> okW w) ->
    Forall2 (P vals) (map (prime next) (bitNames x mn mx)) (map (fun w e => lookup names e (prime next w)) (bitNames x mn mx)).
  Proof.
    intros H. induction (bitNames x mn mx) as [|w ws IH]; cbn [map]; constructor.
    - apply P_var. apply H. now left.
    - apply IH. intros w' Hw. apply H. now right.
  Qed.

  Lemma prime_false l : map (prime false) l = l.
  Proof. induction l as [|w l IH]; cbn; auto. now rewrite IH. Qed.

  Lemma F2_skipn {A B} (R : A -> B -> Prop) n l l' : Forall2 R l l' -> Forall2 R (skipn n l) (skipn n l').
  Proof. revert l l'. induction n as [|n IH]; intros l l' H; auto. destruct H; cbn; auto. Qed.

  Lemma calculation_mono primed a : forall ps p ps', calculation D primed a ps = Ret (p, ps') -> length ps <= length ps'.
  Proof.
    induction a as [x|n|a IHa b IHb|a IHa b IHb|a IHa|a IHa b IHb]; intros ps p ps' E; cbn [calculation] in E.
    - destruct (lastIsPrime x && primed); [discriminate|]. destruct (limitsOf D _) as [[mn mx]|]; [|discriminate].
      apply (f_equal (fun r => match r with Ret (_, q) => q | _ => [] end)) in E. cbn in E. now subst.
    - destruct (numeralBits n); cbn in E; try discriminate. injection E as <- <-. auto.
    - destruct (calculation D primed a ps) as [[p1 ps1]| |] eqn:E1; cbn [pybind] in E; try discriminate.
      destruct (calculation D primed b ps1) as [[p2 ps2]| |] eqn:E2; cbn [pybind] in E; try discriminate.
      apply IHa in E1. apply IHb in E2. injection E as E. apply addBits_mono in E. lia.
    - discriminate.
    - eauto.
    - destruct (calculation D primed a ps) as [[p1 ps1]| |] eqn:E1; cbn [pybind] in E; try discriminate.
      destruct (calculation D primed b ps1) as [[p2 ps2]| |] eqn:E2; cbn [pybind] in E; try discriminate.
      apply IHa in E1. apply IHb in E2. destruct (Nat.ltb _ _); [|discriminate]. injection E as <- <-. lia.
  Qed.

  Lemma calculation_spec primed a : forall ps vals p ps', Bt ps vals -> calculation D primed a ps = Ret (p, ps') ->
    (forall w, In w (numSignals D primed a) -> okW w) -> (N.of_nat (length ps') <= bound)%N ->
    exists more cs, Bt ps' (vals ++ more) /\ Forall2 (P (vals ++ more)) p cs /\ (forall e, ev cs e = rawNum e primed a) /\
      length p = rawWidth a.
  Proof.
    induction a as [x|n|a IHa b IHb|a IHa b IHb|a IHa|a IHa b IHb]; intros ps vals p ps' HB E HV Hb; cbn [calculation] in E.
    - cbn [numSignals numValue width] in *. rewrite unprime_spec in *. cbn [fst]. rewrite limitsOf_raw.
      destruct (lastIsPrime x && primed) eqn:EP; [discriminate|]. set (y := if lastIsPrime x then withoutLast x else x) in *.
      unfold rawValue. destruct (limitsOf D y) as [[mn mx]|] eqn:EL; [|discriminate]. rewrite bitsFor_0, widthAdd_0, Z.sub_0_r.
      assert (EQ : (if negb (lastIsPrime x) && negb primed then translatedNames y mn mx else map (fun w => w ++ "'")%string (translatedNames y mn mx)) =
        map (prime (lastIsPrime x || primed)) (bitNames y mn mx)).
      { change (translatedNames y mn mx) with (bitNames y mn mx). rewrite <- negb_orb. destruct (lastIsPrime x || primed); cbn [negb]; auto. now rewrite prime_false. }
      rewrite EQ in E. apply (f_equal (fun r => match r with Ret q => q | _ => ([], []) end)) in E. apply pair_equal_spec in E. destruct E as [<- <-].
      exists [], (map (fun w e => lookup names e (prime (lastIsPrime x || primed) w)) (bitNames y mn mx)). rewrite app_nil_r.
      split; auto. split; [now apply vars_spec|]. split.
      + intros e. unfold ev. now rewrite map_map.
      + rewrite map_length. unfold bitNames. now rewrite map_length, seq_length.
    - destruct (numeralBits n) as [q| |] eqn:EN; cbn in E; try discriminate. injection E as <- <-.
      exists []. rewrite app_nil_r. destruct (numeral_spec vals n q EN) as (cs & H1 & H2 & H3). exists cs. auto.
    - destruct (calculation D primed a ps) as [[p1 ps1]| |] eqn:E1; cbn [pybind] in E; try discriminate.
      destruct (calculation D primed b ps1) as [[p2 ps2]| |] eqn:E2; cbn [pybind] in E; try discriminate.
      pose proof (calculation_mono _ _ _ _ _ E2) as M2. injection E as E.
      pose proof (addBits_mono _ _ _ _ _ E) as M3.
      destruct (IHa ps vals p1 ps1) as (m1 & c1 & HB1 & HF1 & HV1 & HW1); auto; [|lia|].
      { intros w Hw. apply HV. cbn. apply in_or_app. now left. }
      destruct (IHb ps1 (vals ++ m1) p2 ps2) as (m2 & c2 & HB2 & HF2 & HV2 & HW2); auto; [|lia|].
      { intros w Hw. apply HV. cbn. apply in_or_app. now right. }
      destruct (addBits_spec var bound p1 p2 ps2 ((vals ++ m1) ++ m2) c1 c2 p ps') as (m3 & cs & HB3 & HF3 & HV3 & HW3); auto.
      { now apply Forall2_P_ext. }
      exists (m1 ++ m2 ++ m3), cs. rewrite !app_assoc. split; auto. split; auto. split.
      + intros e. rewrite HV3, HV1, HV2. reflexivity.
      + cbn [width]. now rewrite HW3, HW1, HW2.
    - discriminate.
    - apply (IHa ps vals p ps'); auto.
    - destruct (calculation D primed a ps) as [[p1 ps1]| |] eqn:E1; cbn [pybind] in E; try discriminate.
      destruct (calculation D primed b ps1) as [[p2 ps2]| |] eqn:E2; cbn [pybind] in E; try discriminate.
      pose proof (calculation_mono _ _ _ _ _ E2) as M2. destruct (Nat.ltb_spec (length p1) (length p2)) as [L|L]; [|discriminate]. injection E as <- <-.
      destruct (IHa ps vals p1 ps1) as (m1 & c1 & HB1 & HF1 & HV1 & HW1); auto; [|lia|].
      { intros w Hw. apply HV. cbn. apply in_or_app. now left. }
      destruct (IHb ps1 (vals ++ m1) p2 ps2) as (m2 & c2 & HB2 & HF2 & HV2 & HW2); auto.
      { intros w Hw. apply HV. cbn. apply in_or_app. now right. }
      exists (m1 ++ m2), (c1 ++ skipn (length p1) c2). rewrite !app_assoc. split; auto. split.
      + apply Forall2_app; [now apply Forall2_P_ext|]. now apply F2_skipn.
      + pose proof (F2_length _ _ _ HF1) as L1. pose proof (F2_length _ _ _ HF2) as L2. split.
        * intros e. unfold ev. rewrite map_app, bitsValue_app, map_length, <- L1, <- skipn_map.
          rewrite bitsValue_skipn by (rewrite map_length; lia). cbn [numValue]. rewrite <- HW1, <- HV1, <- HV2. reflexivity.
        * cbn [width]. rewrite app_length, skipn_length, HW2. rewrite <- HW2. lia.
  Qed.

  (** The minimum is added. *)
  Lemma addMinimum_spec primed a : forall a', addMinimum D a = Ret a' ->
    (forall e, rawNum e primed a' = numValue D (intValue D names e) primed a) /\ rawWidth a' = width D a /\ numSignals D primed a' = numSignals D primed a.
  Proof.
    induction a as [x|n|a IHa b IHb|a IHa b IHb|a IHa|a IHa b IHb]; intros a' E; cbn [addMinimum] in E.
    - set (y := if lastIsPrime x then withoutLast x else x) in *. destruct (limitsOf D y) as [[mn mx]|] eqn:EL; [|discriminate].
      destruct (Z.eqb_spec mn 0) as [->|N]; injection E as <-.
      + cbn [numValue width numSignals]. rewrite unprime_spec. fold y. cbn [fst]. rewrite limitsOf_raw, EL. unfold rawValue, intValue. rewrite EL. repeat split.
        now rewrite Z.sub_0_r.
      + cbn [numValue width numSignals]. rewrite unprime_spec. fold y. cbn [fst]. rewrite limitsOf_raw, EL. unfold rawValue, intValue. rewrite EL, app_nil_r. repeat split.
        * intros e. lia.
        * rewrite Z.sub_0_r, bitsFor_0, widthAdd_0. reflexivity.
    - injection E as <-. repeat split.
    - destruct (addMinimum D a) as [a1| |]; cbn in E; try discriminate. destruct (addMinimum D b) as [b1| |]; cbn in E; try discriminate. injection E as <-.
      destruct (IHa a1 eq_refl) as (A1 & A2 & A3). destruct (IHb b1 eq_refl) as (B1 & B2 & B3). cbn [numValue width numSignals]. rewrite A2, B2, A3, B3. repeat split.
      intros e. now rewrite A1, B1.
    - destruct (addMinimum D a) as [a1| |]; cbn in E; try discriminate. destruct (addMinimum D b) as [b1| |]; cbn in E; try discriminate. injection E as <-.
      destruct (IHa a1 eq_refl) as (A1 & A2 & A3). destruct (IHb b1 eq_refl) as (B1 & B2 & B3). cbn [numValue width numSignals]. rewrite A2, B2, A3, B3. repeat split.
      intros e. now rewrite A1, B1.
    - destruct (addMinimum D a) as [a1| |]; cbn in E; try discriminate. injection E as <-.
      destruct (IHa a1 eq_refl) as (A1 & A2 & A3). cbn [numValue width numSignals]. rewrite A2, A3. repeat split. auto.
    - destruct (addMinimum D a) as [a1| |]; cbn in E; try discriminate. destruct (addMinimum D b) as [b1| |]; cbn in E; try discriminate. injection E as <-.
      destruct (IHa a1 eq_refl) as (A1 & A2 & A3). destruct (IHb b1 eq_refl) as (B1 & B2 & B3). cbn [numValue width numSignals]. rewrite A2, B2, A3, B3. repeat split.
      intros e. now rewrite A1, B1.
  Qed.

  (** ** Comparisons *)

  Local Open Scope Z_scope.
  Ltac bz := apply eq_iff_eq_true; rewrite ?andb_true_iff, ?orb_true_iff, ?andb_true_iff, ?negb_true_iff, ?Z.ltb_lt, ?Z.eqb_eq; intuition (try discriminate; lia).

  Lemma foldNot_spec vals p2 : forall bs this v, Forall2 (P vals) p2 bs -> G vals (flat_map words this) v ->
    exists v', G vals (flat_map words (fold_left (fun this b => ["& !"; b]%string ++ this) p2 this)%list) v' /\ forall e, v' e = ((ev bs e =? 0) && v e)%bool.
  Proof.
    induction p2 as [|b p2 IH]; intros bs this v HF HG; inversion HF as [|b' vb p2' bs' Pb HF']; subst; cbn [fold_left].
    - exists v. split; auto.
    - destruct (IH bs' (["& !"; b]%string ++ this)%list (fun e => negb (vb e) && v e)%bool HF') as (v' & H1 & H2).
      + cbn [app flat_map]. change (words "& !") with ["&"; "!"]%string. cbn [app].
        change ("&" :: "!" :: words b ++ flat_map words this)%string%list with ("&"%string :: ("!"%string :: words b) ++ flat_map words this)%list.
        apply G_and; auto. apply G_not. now apply P_G.
      + exists v'. split; auto. intros e. rewrite H2, ev_cons. pose proof (bitsValue_nonneg (map (fun b => b e) bs')) as NN. fold (ev bs' e) in NN.
        destruct (vb e), (v e); cbn [Z.b2z negb andb]; bz.
  Qed.
  Lemma foldOr_spec vals p1 : forall as_ this v, Forall2 (P vals) p1 as_ -> G vals (flat_map words this) v ->
    exists v', G vals (flat_map words (fold_left (fun this a => ["|"; a]%string ++ this) p1 this)%list) v' /\ forall e, v' e = ((0 <? ev as_ e) || v e)%bool.
  Proof.
    induction p1 as [|a q1 IH]; intros as_ this v HF HG; inversion HF as [|a' va q1' as' Pa HF']; subst; cbn [fold_left].
    - exists v. split; auto.
    - destruct (IH as' (["|"; a]%string ++ this)%list (fun e => va e || v e)%bool HF') as (v' & H1 & H2).
      + cbn [app flat_map]. change (words "|") with ["|"]%string. cbn [app]. apply G_or; auto. now apply P_G.
      + exists v'. split; auto. intros e. rewrite H2, ev_cons. pose proof (bitsValue_nonneg (map (fun b => b e) as')) as NN. fold (ev as' e) in NN.
        destruct (va e), (v e); cbn [Z.b2z orb]; bz.
  Qed.

  Lemma greater_spec vals p1 : forall p2 as_ bs this v, Forall2 (P vals) p1 as_ -> Forall2 (P vals) p2 bs -> G vals (flat_map words this) v ->
    exists v', G vals (flat_map words (greaterParts p1 p2 this)) v' /\ forall e, v' e = ((ev bs e <? ev as_ e) || ((ev as_ e =? ev bs e) && v e))%bool.
  Proof.
    induction p1 as [|a p1 IH]; intros p2 as_ bs this v H1 H2 HG.
    - inversion H1; subst. replace (greaterParts [] p2 this) with (fold_left (fun this b => ["& !"; b]%string ++ this)%list p2 this) by now destruct p2.
      destruct (foldNot_spec vals p2 bs this v H2 HG) as (v' & A1 & A2). exists v'. split; auto. intros e. rewrite A2. change (ev [] e) with 0.
      pose proof (bitsValue_nonneg (map (fun b => b e) bs)) as NN. fold (ev bs e) in NN. destruct (v e); bz.
    - destruct p2 as [|b p2].
      + inversion H2; subst. change (greaterParts (a :: p1) [] this) with (fold_left (fun this a => ["|"; a]%string ++ this)%list (a :: p1) this).
        destruct (foldOr_spec vals (a :: p1) as_ this v H1 HG) as (v' & A1 & A2). exists v'. split; auto. intros e. rewrite A2. change (ev [] e) with 0.
        pose proof (bitsValue_nonneg (map (fun b => b e) as_)) as NN. fold (ev as_ e) in NN. destruct (v e); bz.
      + inversion H1 as [|a' va p1' as' Pa H1']; subst. inversion H2 as [|b' vb p2' bs' Pb H2']; subst. cbn [greaterParts].
        destruct (IH p2 as' bs' (["|"; "&"; a; "!"; b; "& | !"; b; a]%string ++ this)%list (fun e => (va e && negb (vb e)) || ((negb (vb e) || va e) && v e))%bool) as (v' & A1 & A2); auto.
        * cbn [app flat_map]. change (words "|") with ["|"]%string. change (words "&") with ["&"]%string. change (words "!") with ["!"]%string. change (words "& | !") with ["&"; "|"; "!"]%string.
          pose proof (P_G _ _ _ _ _ Pa) as GA. pose proof (P_G _ _ _ _ _ Pb) as GB. pose proof (G_not _ _ _ _ _ GB) as GN.
          pose proof (G_or _ _ _ _ _ _ _ (G_and _ _ _ _ _ _ _ GA GN) (G_and _ _ _ _ _ _ _ (G_or _ _ _ _ _ _ _ GN GA) HG)) as HH.
          cbn [app] in HH |- *. repeat (rewrite <- !app_assoc in HH; cbn [app] in HH). exact HH.
        * exists v'. split; auto. intros e. rewrite A2, !ev_cons. destruct (va e), (vb e), (v e); cbn [Z.b2z negb andb orb]; bz.
  Qed.

  Lemma smaller_spec vals p1 : forall p2 as_ bs this v, Forall2 (P vals) p1 as_ -> Forall2 (P vals) p2 bs -> G vals (flat_map words this) v ->
    exists v', G vals (flat_map words (smallerParts p1 p2 this)) v' /\ forall e, v' e = ((ev as_ e <? ev bs e) || ((ev as_ e =? ev bs e) && v e))%bool.
  Proof.
    induction p1 as [|a p1 IH]; intros p2 as_ bs this v H1 H2 HG.
    - inversion H1; subst. replace (smallerParts [] p2 this) with (fold_left (fun this b => ["|"; b]%string ++ this)%list p2 this) by now destruct p2.
      destruct (foldOr_spec vals p2 bs this v H2 HG) as (v' & A1 & A2). exists v'. split; auto. intros e. rewrite A2. change (ev [] e) with 0.
      pose proof (bitsValue_nonneg (map (fun b => b e) bs)) as NN. fold (ev bs e) in NN. destruct (v e); bz.
    - destruct p2 as [|b p2].
      + inversion H2; subst. change (smallerParts (a :: p1) [] this) with (fold_left (fun this a => ["& !"; a]%string ++ this)%list (a :: p1) this).
        destruct (foldNot_spec vals (a :: p1) as_ this v H1 HG) as (v' & A1 & A2). exists v'. split; auto. intros e. rewrite A2. change (ev [] e) with 0.
        pose proof (bitsValue_nonneg (map (fun b => b e) as_)) as NN. fold (ev as_ e) in NN. destruct (v e); bz.
      + inversion H1 as [|a' va p1' as' Pa H1']; subst. inversion H2 as [|b' vb p2' bs' Pb H2']; subst. cbn [smallerParts].
        destruct (IH p2 as' bs' (["|"; "& !"; a; b; "& |"; b; "!"; a]%string ++ this)%list (fun e => (negb (va e) && vb e) || ((vb e || negb (va e)) && v e))%bool) as (v' & A1 & A2); auto.
        * cbn [app flat_map]. change (words "|") with ["|"]%string. change (words "& !") with ["&"; "!"]%string. change (words "!") with ["!"]%string. change (words "& |") with ["&"; "|"]%string.
          pose proof (P_G _ _ _ _ _ Pa) as GA. pose proof (P_G _ _ _ _ _ Pb) as GB. pose proof (G_not _ _ _ _ _ GA) as GN.
          pose proof (G_or _ _ _ _ _ _ _ (G_and _ _ _ _ _ _ _ GN GB) (G_and _ _ _ _ _ _ _ (G_or _ _ _ _ _ _ _ GB GN) HG)) as HH.
          cbn [app] in HH |- *. repeat (rewrite <- !app_assoc in HH; cbn [app] in HH). exact HH.
        * exists v'. split; auto. intros e. rewrite A2, !ev_cons. destruct (va e), (vb e), (v e); cbn [Z.b2z negb andb orb]; bz.
  Qed.

  Lemma equal_spec vals p1 : forall p2 as_ bs this v, Forall2 (P vals) p1 as_ -> Forall2 (P vals) p2 bs -> G vals (flat_map words this) v ->
    exists v', G vals (flat_map words (equalParts p1 p2 this)) v' /\ forall e, v' e = ((ev as_ e =? ev bs e) && v e)%bool.
  Proof.
    induction p1 as [|a p1 IH]; intros p2 as_ bs this v H1 H2 HG.
    - inversion H1; subst. replace (equalParts [] p2 this) with (fold_left (fun this b => ["& !"; b]%string ++ this)%list p2 this) by now destruct p2.
      destruct (foldNot_spec vals p2 bs this v H2 HG) as (v' & A1 & A2). exists v'. split; [exact A1|]. intros e. rewrite A2. change (ev [] e) with 0. now rewrite Z.eqb_sym.
    - destruct p2 as [|b p2].
      + inversion H2; subst. change (equalParts (a :: p1) [] this) with (fold_left (fun this a => ["& !"; a]%string ++ this)%list (a :: p1) this).
        destruct (foldNot_spec vals (a :: p1) as_ this v H1 HG) as (v' & A1 & A2). exists v'. split; auto.
      + inversion H1 as [|a' va p1' as' Pa H1']; subst. inversion H2 as [|b' vb p2' bs' Pb H2']; subst. cbn [equalParts].
        destruct (IH p2 as' bs' (["&"; "! ^"; a; b]%string ++ this)%list (fun e => negb (xorb (va e) (vb e)) && v e)%bool) as (v' & A1 & A2); auto.
        * cbn [app flat_map]. change (words "&") with ["&"]%string. change (words "! ^") with ["!"; "^"]%string.
          pose proof (P_G _ _ _ _ _ Pa) as GA. pose proof (P_G _ _ _ _ _ Pb) as GB.
          pose proof (G_and _ _ _ _ _ _ _ (G_not _ _ _ _ _ (G_xor _ _ _ _ _ _ _ GA GB)) HG) as HH.
          cbn [app] in HH |- *. repeat (rewrite <- !app_assoc in HH; cbn [app] in HH). exact HH.
        * exists v'. split; auto. intros e. rewrite A2, !ev_cons. destruct (va e), (vb e), (v e); cbn [Z.b2z xorb negb andb orb]; bz.
  Qed.

  Lemma comparison_spec vals c p1 p2 as_ bs : Forall2 (P vals) p1 as_ -> Forall2 (P vals) p2 bs ->
    exists v, G vals (flat_map words (comparison c p1 p2)) v /\ forall e, v e = compareZ c (ev as_ e) (ev bs e).
  Proof.
    intros H1 H2.
    assert (T : G vals (flat_map words ["1"%string]) (fun _ => true)) by apply G_true.
    assert (F : G vals (flat_map words ["0"%string]) (fun _ => false)) by apply G_false.
    destruct c; cbn [comparison compareZ].
    - destruct (greater_spec vals p1 p2 as_ bs _ _ H1 H2 F) as (v & A1 & A2). exists v. split; auto. intros e. rewrite A2. bz.
    - destruct (greater_spec vals p1 p2 as_ bs _ _ H1 H2 T) as (v & A1 & A2). exists v. split; auto. intros e. rewrite A2.
      apply eq_iff_eq_true. rewrite orb_true_iff, andb_true_iff, Z.ltb_lt, Z.eqb_eq, Z.leb_le. intuition lia.
    - destruct (smaller_spec vals p1 p2 as_ bs _ _ H1 H2 F) as (v & A1 & A2). exists v. split; auto. intros e. rewrite A2. bz.
    - destruct (smaller_spec vals p1 p2 as_ bs _ _ H1 H2 T) as (v & A1 & A2). exists v. split; auto. intros e. rewrite A2.
      apply eq_iff_eq_true. rewrite orb_true_iff, andb_true_iff, Z.ltb_lt, Z.eqb_eq, Z.leb_le. intuition lia.
    - destruct (equal_spec vals p1 p2 as_ bs _ _ H1 H2 T) as (v & A1 & A2). exists v. split; auto. intros e. rewrite A2. now rewrite andb_true_r.
    - destruct (equal_spec vals p1 p2 as_ bs _ _ H1 H2 T) as (v & A1 & A2). exists (fun e => negb (v e)). split; [now apply (G_not var bound)|]. intros e. rewrite A2. now rewrite andb_true_r.
  Qed.

  Local Close Scope Z_scope.

  (** computeCalculationSubformula *)
  Lemma calc_spec a c b primed ts vals0 : calculationSubformula D a c b primed = Ret ts ->
    (forall w, In w (numSignals D primed a ++ numSignals D primed b) -> okW w) -> (N.of_nat (length (flat_map words ts)) < bound)%N ->
    G vals0 (flat_map words ts) (fun e => compareZ c (numValue D (intValue D names e) primed a) (numValue D (intValue D names e) primed b)).
  Proof.
    unfold calculationSubformula. intros E HV HL.
    destruct (addMinimum D a) as [a'| |] eqn:EA; cbn [pybind] in E; try discriminate.
    destruct (calculation D primed a' []) as [[p1 ps1]| |] eqn:E1; cbn [pybind] in E; try discriminate.
    destruct (addMinimum D b) as [b'| |] eqn:EB; cbn [pybind] in E; try discriminate.
    destruct (calculation D primed b' ps1) as [[p2 ps2]| |] eqn:E2; cbn [pybind] in E; try discriminate.
    apply (f_equal (fun r => match r with Ret q => q | _ => [] end)) in E. cbv beta iota in E. subst ts.
    destruct (addMinimum_spec primed a a' EA) as (A1 & A2 & A3). destruct (addMinimum_spec primed b b' EB) as (B1 & B2 & B3).
    rewrite <- A3, <- B3 in HV. pose proof (calculation_mono _ _ _ _ _ E2) as M2.
    set (t := comparison c p1 p2) in *.
    assert (EW : flat_map words (["$"%string; str (length (pushPart ps2 t))] ++ concat (pushPart ps2 t)) =
      "$"%string :: str (length (pushPart ps2 t)) :: flat_map words (concat (pushPart ps2 t))).
    { rewrite flat_map_app. cbn [flat_map app]. change (words "$") with ["$"%string]. rewrite words_str. reflexivity. }
    rewrite EW in *.
    (* each part has at least one word *)
    assert (LB : (N.of_nat (S (length ps2)) < bound)%N).
    { assert (F : full ps2) by (eapply full_calculation; [|exact E2]; eapply full_calculation; [|exact E1]; constructor).
      apply full_count in F. cbn [length] in HL. unfold pushPart in HL. rewrite concat_app, flat_map_app, app_length in HL. lia. }
    assert (B0 : Bt [] []) by (exists []; constructor).
    destruct (calculation_spec primed a' [] [] p1 ps1 B0 E1) as (m1 & c1 & HB1 & HF1 & HV1 & _); [intros w Hw; apply HV, in_or_app; now left|lia|].
    destruct (calculation_spec primed b' ps1 ([] ++ m1) p2 ps2 HB1 E2) as (m2 & c2 & HB2 & HF2 & HV2 & _); [intros w Hw; apply HV, in_or_app; now right|lia|].
    destruct (comparison_spec (([] ++ m1) ++ m2) c p1 p2 c1 c2) as (v & G1 & G2); [now apply Forall2_P_ext|auto|].
    eapply G_ext_eq; [|eapply G_buffer; [exact HB2|exact G1|exact LB]].
    intros e. cbv beta. now rewrite G2, HV1, HV2, A1, B1.
  Qed.

  Local Notation truthOf e := (treeTruth D (fun p x => lookup names e (prime p x)) (intValue D names e)).
  Definition good (primed : bool) (t : tree) : Prop := forall ts vals0, simpleFormula D primed t = Ret ts ->
    (forall w, In w (treeSignals D primed t) -> okW w) -> (N.of_nat (length (flat_map words ts)) < bound)%N ->
    G vals0 (flat_map words ts) (fun e => truthOf e primed t).

  Lemma nary_good primed op (comb : bool -> bool -> bool) fs :
    words op = [op] -> (forall vals ws v ws' v', G vals ws v -> G vals ws' v' -> G vals (op :: ws ++ ws') (fun e => comb (v e) (v' e))) ->
    Forall (good primed) fs -> (forall w, In w (flat_map (treeSignals D primed) fs) -> okW w) -> forall r v ts vals0,
    fold_left (naryStep D primed op) fs (Ret r) = Ret ts -> G vals0 (flat_map words r) v -> (N.of_nat (length (flat_map words ts)) < bound)%N ->
    G vals0 (flat_map words ts) (fun e => fold_left (fun b f => comb b (truthOf e primed f)) fs (v e)).
  Proof.
    intros Hw Hop. induction 1 as [|f fs Hf _ IH]; intros HV r v ts vals0 E HG HL; cbn [fold_left] in *.
    - injection E as <-. exact HG.
    - unfold naryStep at 2 in E. cbn [pybind] in E.
      destruct (simpleFormula D primed f) as [b| |] eqn:EF; cbn [pybind] in E; try (exfalso; eapply nary_stuck; [|exact E]; discriminate).
      pose proof (nary_mono _ _ _ _ _ _ E) as M. rewrite !flat_map_app, !app_length in M.
      apply (IH (fun w Hin => HV w (in_or_app _ _ _ (or_intror Hin))) ([op] ++ r ++ b) (fun e => comb (v e) (truthOf e primed f)) ts vals0 E); auto.
      rewrite !flat_map_app. cbn [flat_map]. rewrite Hw. cbn [app]. apply Hop; auto. apply Hf; auto; [|lia]. intros w Hin. apply HV. cbn [flat_map]. apply in_or_app. now left.
  Qed.
  Lemma fold_and (T : tree -> bool) fs : forall b, fold_left (fun b f => b && T f) fs b = b && forallb T fs.
  Proof. induction fs as [|f fs IH]; intros b; cbn; [now rewrite andb_true_r|]. now rewrite IH, andb_assoc. Qed.
  Lemma fold_or (T : tree -> bool) fs : forall b, fold_left (fun b f => b || T f) fs b = b || existsb T fs.
  Proof. induction fs as [|f fs IH]; intros b; cbn; [now rewrite orb_false_r|]. now rewrite IH, orb_assoc. Qed.

  Lemma prime_unprime x : prime (snd (unprime x)) (fst (unprime x)) = x.
  Proof. rewrite unprime_spec. cbn [fst snd]. destruct (lastIsPrime x) eqn:E; auto. cbn. symmetry. now apply unprime_last. Qed.
  Lemma lastIsPrime_in x : lastIsPrime x = true -> existsb (Ascii.eqb "'"%char) (list_ascii_of_string x) = true.
  Proof.
    induction x as [|a x IH]; [discriminate|]. destruct x as [|b x].
    - cbn. intros H. apply Ascii.eqb_eq in H. now subst.
    - change (lastIsPrime (String a (String b x))) with (lastIsPrime (String b x)). intros H. change (list_ascii_of_string (String a (String b x))) with (a :: list_ascii_of_string (String b x)).
      cbn [existsb]. rewrite IH; auto. now rewrite orb_true_r.
  Qed.

  Lemma simple_spec t : forall primed, good primed t.
  Proof.
    induction t as [f g IHf IHg|f g IHf IHg|fs IH|fs IH|fs IH| |o f IHf| | |x|a c b] using tree_rec'; intros primed ts vals0 E HV HL; cbn [simpleFormula] in E; try discriminate.
    - destruct (simpleFormula D primed f) as [b1| |] eqn:E1; cbn [pybind] in E; try discriminate.
      destruct (simpleFormula D primed g) as [b2| |] eqn:E2; cbn [pybind] in E; try discriminate.
      apply (f_equal (fun r => match r with Ret q => q | _ => [] end)) in E. cbv beta iota in E. subst ts.
      cbn [treeSignals] in HV. rewrite !flat_map_app, !app_length in HL.
      assert (A : G vals0 (flat_map words b1) (fun e => truthOf e primed f)) by (apply IHf; auto; [intros w Hw; apply HV, in_or_app; now left|lia]).
      assert (B : G vals0 (flat_map words b2) (fun e => truthOf e primed g)) by (apply IHg; auto; [intros w Hw; apply HV, in_or_app; now right|lia]).
      pose proof (G_or _ _ _ _ _ _ _ (G_and _ _ _ _ _ _ _ (G_not _ _ _ _ _ A) (G_not _ _ _ _ _ B)) (G_and _ _ _ _ _ _ _ A B)) as HH.
      rewrite !flat_map_app. cbn [flat_map]. change (words "|") with ["|"]%string. change (words "&") with ["&"]%string. change (words "!") with ["!"]%string.
      cbn [app] in HH |- *. repeat (rewrite <- !app_assoc in HH; cbn [app] in HH).
      eapply G_ext_eq; [|exact HH]. intros e. cbn [treeTruth]. now destruct (truthOf e primed f), (truthOf e primed g).
    - destruct (simpleFormula D primed f) as [b1| |] eqn:E1; cbn [pybind] in E; try discriminate.
      destruct (simpleFormula D primed g) as [b2| |] eqn:E2; cbn [pybind] in E; try discriminate.
      apply (f_equal (fun r => match r with Ret q => q | _ => [] end)) in E. cbv beta iota in E. subst ts.
      cbn [treeSignals] in HV. rewrite !flat_map_app, !app_length in HL.
      assert (A : G vals0 (flat_map words b1) (fun e => truthOf e primed f)) by (apply IHf; auto; [intros w Hw; apply HV, in_or_app; now left|lia]).
      assert (B : G vals0 (flat_map words b2) (fun e => truthOf e primed g)) by (apply IHg; auto; [intros w Hw; apply HV, in_or_app; now right|lia]).
      pose proof (G_or _ _ _ _ _ _ _ (G_not _ _ _ _ _ A) B) as HH.
      rewrite !flat_map_app. cbn [flat_map]. change (words "|") with ["|"]%string. change (words "!") with ["!"]%string.
      cbn [app] in HH |- *.
      eapply G_ext_eq; [|exact HH]. intros e. cbn [treeTruth]. now destruct (truthOf e primed f), (truthOf e primed g).
    - destruct fs as [|f fs]; [discriminate|]. change (fold_left (naryStep D primed "|"%string) fs (simpleFormula D primed f) = Ret ts) in E.
      inversion IH as [|f' fs' IHf IHfs]; subst. cbn [treeSignals flat_map] in HV.
      destruct (simpleFormula D primed f) as [b1| |] eqn:E1; try (exfalso; eapply nary_stuck; [|exact E]; discriminate).
      pose proof (nary_mono _ _ _ _ _ _ E) as M.
      eapply G_ext_eq; [|eapply (nary_good primed "|"%string orb fs); [reflexivity|intros; now apply G_or|eapply Forall_impl; [|exact IHfs]; cbv beta; auto| |exact E|eapply (IHf primed b1 vals0 E1); [|lia]|exact HL]].
      + intros e. cbv beta. rewrite fold_or. reflexivity.
      + intros w Hw. apply HV, in_or_app. now right.
      + intros w Hw. apply HV, in_or_app. now left.
    - destruct fs as [|f fs]; [discriminate|]. change (fold_left (naryStep D primed "&"%string) fs (simpleFormula D primed f) = Ret ts) in E.
      inversion IH as [|f' fs' IHf IHfs]; subst. cbn [treeSignals flat_map] in HV.
      destruct (simpleFormula D primed f) as [b1| |] eqn:E1; try (exfalso; eapply nary_stuck; [|exact E]; discriminate).
      pose proof (nary_mono _ _ _ _ _ _ E) as M.
      eapply G_ext_eq; [|eapply (nary_good primed "&"%string andb fs); [reflexivity|intros; now apply G_and|eapply Forall_impl; [|exact IHfs]; cbv beta; auto| |exact E|eapply (IHf primed b1 vals0 E1); [|lia]|exact HL]].
      + intros e. cbv beta. rewrite fold_and. reflexivity.
      + intros w Hw. apply HV, in_or_app. now right.
      + intros w Hw. apply HV, in_or_app. now left.
    - destruct o; try discriminate.
      + destruct (simpleFormula D primed f) as [b1| |] eqn:E1; cbn [pybind] in E; try discriminate.
        apply (f_equal (fun r => match r with Ret q => q | _ => [] end)) in E. cbv beta iota in E. subst ts. rewrite flat_map_app, app_length in HL.
        rewrite flat_map_app. cbn [flat_map]. change (words "!") with ["!"]%string. cbn [app treeTruth]. apply (G_not var bound). apply IHf; auto. lia.
      + destruct primed; [discriminate|]. cbn [treeTruth]. apply IHf; auto.
    - injection E as <-. apply G_false.
    - injection E as <-. apply G_true.
    - cbn [treeTruth treeSignals] in *. pose proof (prime_unprime x) as PU. pose proof (unprime_spec x) as US.
      destruct (unprime x) as [y p]. cbn [fst snd] in *. apply pair_equal_spec in US. destruct US as [_ EP].
      assert (EW : ts = [prime (p || primed) y]).
      { destruct primed.
        - destruct (existsb (Ascii.eqb "'"%char) (list_ascii_of_string x)) eqn:EX; [discriminate|]. destruct (lastIsPrime x) eqn:EL; [now rewrite lastIsPrime_in in EX|].
          subst p. cbn in PU. subst y. injection E as <-. reflexivity.
        - rewrite orb_false_r, PU. now injection E as <-. }
      subst ts. cbn [flat_map]. rewrite app_nil_r. apply (P_G var bound). apply P_var. apply HV. now left.
    - cbn [treeTruth]. eapply calc_spec; eauto.
  Qed.

  Lemma translate_spec f ts : simpleFormula D false (flatten (clean f)) = Ret ts -> (forall w, In w (signals D false f) -> okW w) ->
    (N.of_nat (length (flat_map words ts)) < bound)%N ->
    G [] (flat_map words ts) (fun e => truth D (fun p x => lookup names e (prime p x)) (intValue D names e) false f).
  Proof.
    intros E HV HL. eapply G_ext_eq; [|eapply simple_spec; [exact E| |exact HL]].
    - intros e. cbv beta. now rewrite flatten_truth, clean_truth.
    - intros w Hw. apply HV. now apply clean_signals, flatten_signals.
  Qed.
End TRANS.
