(** * Proofs: the lines of the files *)

From Coq Require Import String Ascii List Bool Arith NArith ZArith Lia.
From Verif Require Import FormulaSpec Spec FileSpec StructuredSpec StructGrammar StructFileSpec StuckSpec Explicit OutputProofs SymbolicProofs EstimatorText
  StructuredProofs StructConvProofs StructGameProofs PropsStructured StuckProofs MinCore MinCoreProofs StructFileProofs DecoderProofs FuzzProofs CinderellaSpec Cinderella CinderellaProofs.
Import ListNotations.
Local Open Scope string_scope.
Local Open Scope list_scope.

Lemma Forall2_seq {A B C} (P : B -> C -> Prop) (g : A -> B) (h : A -> C) l : (forall i, In i l -> P (g i) (h i)) -> Forall2 P (map g l) (map h l).
Proof. induction l as [|i l IH]; intros H; cbn; constructor; [apply H; now left|]. apply IH. intros j Hj. apply H. now right. Qed.
Lemma good_line a r t : isWs a = false -> (a =? "#")%char = false -> (a =? "[")%char = false -> noWs t = true -> t <> "" -> okLine (String a (r ++ t)) = true -> goodLine (String a (r ++ t)).
Proof.
  intros A1 A2 A3 W N OK. apply edge_good. split; [|split; [|now apply ok_noNl]].
  - exists a. eexists. split; [reflexivity|auto].
  - destruct (last_char t N) as (q & b & ->). exists (String a (r ++ q)), b. split; [cbn; now rewrite sapp_assoc|]. rewrite noWs_app in W. apply andb_prop in W. destruct W as [_ W].
    unfold noWs in W. cbn in W. rewrite andb_true_r in W. now apply negb_true_iff.
Qed.
Lemma show_ne k : showNat k <> "".
Proof. now destruct (numeral_show k). Qed.
Lemma ok_showZ z : (0 <= z)%Z -> okLine (showZ z) = true.
Proof. intros H. destruct (showZ_numeral z H) as (_ & D & _). apply digits_all in D. revert D. apply allChars_impl. intros [[] [] [] [] [] [] [] []] D; try discriminate D; reflexivity. Qed.
Lemma integer_show k : integer (showNat k) (Z.of_nat k).
Proof.
  exists "", (showNat k), (N.of_nat k). split; [|split].
  - destruct (wordy_show k) as [W _]. cbn. now apply edge_strip.
  - replace (withoutUnderscores (showNat k)) with (showNat k); [apply numeral_show|]. pose proof (show_digits k) as D. revert D. generalize (showNat k). unfold withoutUnderscores.
    induction s as [|a s IH]; [reflexivity|]. cbn [allChars list_ascii_of_string filter]. intros D. apply andb_prop in D. destruct D as [D1 D2].
    destruct (Ascii.eqb_spec a "_") as [->|_]; [discriminate D1|]. cbn [negb string_of_list_ascii]. now rewrite <- IH.
  - left. split; [now left|]. lia.
Qed.
Lemma integer_0 : integer "0" 0.
Proof. exact (integer_show 0). Qed.
Lemma no_colon a i : a <> ":"%char -> ~ occursIn ":" (String a (showNat i)).
Proof. intros N [H|H]; [now elim N|]. apply (allChars_in _ _ (show_digits i)) in H. discriminate H. Qed.
Lemma noWs_chars s : okLine s = true -> allChars isWordChar s = true -> noWs s = true.
Proof. intros _ H. unfold noWs. induction s as [|a s IH]; [reflexivity|]. cbn in *. apply andb_prop in H. destruct H as [H1 H2]. rewrite IH by auto. destruct a as [[] [] [] [] [] [] [] []]; try discriminate H1; reflexivity. Qed.
Lemma declares_range a i k : isWs a = false -> a <> ":"%char -> (a =? "#")%char = false -> (a =? "[")%char = false ->
  declares (String a (showNat i ++ ":0..." ++ showNat k)) (DInt (String a (showNat i)) 0 (Z.of_nat k)).
Proof.
  intros A1 A2 A3 A4. assert (W : wordy (String a (showNat i))).
  { apply wordy_noWs; auto. change (String a (showNat i)) with (String a "" ++ showNat i)%string. rewrite noWs_app, noWs_show. unfold noWs. cbn. now rewrite A1. }
  replace (DInt (String a (showNat i)) 0 (Z.of_nat k)) with (DInt (strip (String a (showNat i))) 0 (Z.of_nat k)) by (now rewrite (edge_strip _ (proj1 W))).
  apply (d_int _ (String a (showNat i)) ("0..." ++ showNat k) "0" (showNat k)); auto.
  - now apply no_colon.
  - assert (W' : wordy ("0..." ++ showNat k)) by (apply wordy_noWs; auto; change (noWs ("0..." ++ showNat k) = true); now rewrite noWs_app, noWs_show).
    now rewrite (edge_strip _ (proj1 W')).
  - apply integer_0.
  - apply integer_show.
  - lia.
Qed.

Section FILE.
  Variables n c cap p : nat.
  Hypothesis Hn : 0 < n.
  Hypothesis Hc : 0 < c.

  Definition ins : list declaration := map (fun i => DInt (xn i) 0 (Z.of_nat p)) (seq 0 n).
  Definition outs : list declaration := map (fun i => DInt (yn i) 0 (Z.of_nat cap)) (seq 0 n) ++ [DInt "e" 0 (Z.of_nat n - 1)].
  Lemma declared_ints d : In d (ins ++ outs) -> exists x mn mx, d = DInt x mn mx.
  Proof.
    intros H. apply in_app_or in H. destruct H as [H|H]; [|apply in_app_or in H; destruct H as [H|[<-|[]]]; [|eauto]]; apply in_map_iff in H; destruct H as (i & <- & _); eauto.
  Qed.
  Lemma declared_tokens x mn mx : In (DInt x mn mx) (ins ++ outs) -> isWordToken x = true.
  Proof.
    intros H. apply in_app_or in H. destruct H as [H|H]; [|apply in_app_or in H; destruct H as [H|[H|[]]]].
    - apply in_map_iff in H. destruct H as (i & H & _). assert (E : xn i = x) by congruence. rewrite <- E. now apply token_name.
    - apply in_map_iff in H. destruct H as (i & H & _). assert (E : yn i = x) by congruence. rewrite <- E. now apply token_name.
    - assert (E : "e" = x) by congruence. now rewrite <- E.
  Qed.
  Lemma names_distinct : NoDup (map nameOfDecl (ins ++ outs)).
  Proof.
    unfold ins, outs. rewrite !map_app, !map_map. cbn [map nameOfDecl].
    assert (M : forall a, NoDup (map (fun i => String a (showNat i)) (seq 0 n))).
    { intros a. apply FinFun.Injective_map_NoDup; [|apply seq_NoDup]. intros i j E. apply (app_cancel (String a "")) in E. now apply showNat_inj. }
    assert (A : forall l1 l2 : list string, NoDup l1 -> NoDup l2 -> (forall x, In x l1 -> ~ In x l2) -> NoDup (l1 ++ l2)).
    { induction l1 as [|x l1 IH]; intros l2 N1 N2 D; [exact N2|]. inversion N1 as [|? ? K1 K2]; subst. cbn [app]. constructor.
      - intros H. apply in_app_or in H. destruct H as [H|H]; [contradiction|]. apply (D x); [now left|exact H].
      - apply IH; auto. intros y Hy. apply D. now right. }
    apply A; [apply M|apply A; [apply M|repeat constructor; intros []|]|].
    - intros x H [<-|[]]. apply in_map_iff in H. destruct H as (i & H & _). discriminate H.
    - intros x H H'. apply in_map_iff in H. destruct H as (i & <- & _). apply in_app_or in H'. destruct H' as [H'|[H'|[]]]; [|discriminate H']. apply in_map_iff in H'. destruct H' as (j & H' & _). discriminate H'.
  Qed.
  Lemma integers_names ds : (forall d, In d ds -> exists x mn mx, d = DInt x mn mx) -> map fst (integers ds) = map nameOfDecl ds.
  Proof.
    induction ds as [|d ds IH]; intros H; [reflexivity|]. destruct (H d (or_introl eq_refl)) as (x & mn & mx & ->). unfold integers in *. cbn [flat_map app map fst nameOfDecl]. rewrite IH; [reflexivity|].
    intros e He. apply H. now right.
  Qed.
  Lemma declares_in : Forall2 declares (inLines n p) ins.
  Proof. apply Forall2_seq. intros i _. now apply declares_range. Qed.
  Lemma declares_out : Forall2 declares (outLines n cap ++ [emptyLine n]) outs.
  Proof.
    apply Forall2_app; [apply Forall2_seq; intros i _; now apply declares_range|]. constructor; [|constructor].
    apply (d_int _ "e" ("0..." ++ showZ (Z.of_nat n - 1)) "0" (showZ (Z.of_nat n - 1))); auto.
    - cbn. intuition discriminate.
    - apply edge_strip. apply wordy_noWs; auto. change (noWs ("0..." ++ showZ (Z.of_nat n - 1)) = true). now rewrite noWs_app, noWs_showZ.
    - apply integer_0.
    - apply pyInt_spec, pyInt_showZ.
    - lia.
  Qed.

  (** ** The sections *)

  Definition order : list section := [SInput; SOutput; SEnvTrans; SEnvInit; SSysInit; SSysTrans].
  Definition linesIn (s : section) : list string :=
    match s with
    | SInput => inLines n p
    | SOutput => outLines n cap ++ [emptyLine n]
    | SEnvTrans => [restrictionLine n p]
    | SEnvInit => envInit n
    | SSysInit => sysInit n
    | SSysTrans => sysTransA n c ++ sysTransB n c
    | _ => []
    end.
  Lemma concat_nl ls s : ls <> [] -> (lines ls ++ nl ++ s)%string = (unlines ls ++ s)%string.
  Proof.
    unfold lines. induction ls as [|l ls IH]; [easy|]. intros _. rewrite unlines_cons. destruct ls as [|l' ls].
    - cbn [String.concat]. rewrite unlines_nil. now rewrite !sapp_assoc.
    - change (String.concat nl (l :: l' :: ls)) with (l ++ nl ++ String.concat nl (l' :: ls))%string. rewrite !sapp_assoc, IH by discriminate. reflexivity.
  Qed.
  Lemma ne_seq {A} (f : nat -> A) : map f (seq 0 n) <> [].
  Proof. destruct n; [lia|]. discriminate. Qed.
  Lemma text_unlines : cinderellaText n c cap p = textOf (flat_map (fun s => header s :: linesIn s ++ [""]) order).
  Proof.
    unfold cinderellaText. rewrite !concat_nl by apply ne_seq. change (textOf ?x) with (unlines x). cbn [flat_map order linesIn app header]. 
    rewrite ?unlines_cons, ?unlines_app, ?unlines_cons, ?unlines_app, ?unlines_cons, ?unlines_nil, ?app_nil_r. 
    cbn [app]. repeat (rewrite ?unlines_cons, ?unlines_app, ?sapp_assoc, ?unlines_nil). reflexivity.
  Qed.

  (** Characters of the lines. *)
  Ltac oks := repeat (cbn [append allChars]; rewrite ?allChars_app, ?ok_show); rewrite ?ok_showZ by lia; reflexivity.
  Lemma ok_concat (f : nat -> string) l : (forall i, okLine (f i) = true) -> okLine (String.concat "+" (map f l)) = true.
  Proof.
    intros H. induction l as [|i l IH]; [reflexivity|]. destruct l as [|j l]; [apply H|].
    change (okLine (f i ++ "+" ++ String.concat "+" (map f (j :: l))) = true). now rewrite !allChars_app, H, IH.
  Qed.
  Lemma ok_restriction : okLine (restrictionLine n p) = true.
  Proof. unfold restrictionLine. rewrite allChars_app, ok_concat; [oks|]. intros i. oks. Qed.
  Lemma ok_emptied i : okLine (emptiedText n c i) = true.
  Proof. unfold emptiedText. oks. Qed.
  Lemma ok_lines s : forall l, In l (linesIn s) -> okLine l = true.
  Proof.
    intros l H. destruct s; cbn [linesIn] in H; try destruct H as [<-|[]]; try (apply in_app_or in H; destruct H as [H|H]); try (apply in_map_iff in H; destruct H as (i & <- & _)); try destruct H as [<-|[]]; try destruct H.
    all: try apply ok_restriction.
    all: try (rewrite ?allChars_app, ?ok_emptied; oks).
    unfold emptyLine. oks.
  Qed.
  Lemma noWs_prime : noWs "'" = true. Proof. reflexivity. Qed.
  Lemma sum_head : exists r, String.concat "+" (map (fun i => "x" ++ showNat i ++ "'")%string (seq 0 n)) = String "x" (showNat 0 ++ String "'" r).
  Proof.
    destruct n as [|k]; [lia|]. cbn [seq map]. destruct (map _ (seq 1 k)) as [|y l]; [exists ""; reflexivity|].
    exists ("+" ++ String.concat "+" (y :: l))%string. change (String.concat "+" (?x :: y :: l)) with (x ++ "+" ++ String.concat "+" (y :: l))%string. cbn [append]. now rewrite sapp_assoc.
  Qed.
  Lemma good_lines s : Forall goodLine (linesIn s).
  Proof.
    apply Forall_forall. intros l H. pose proof (ok_lines s l H) as OK. destruct s; cbn [linesIn] in H; try (apply in_app_or in H; destruct H as [H|H]); try (apply in_map_iff in H; destruct H as (i & <- & _)); try destruct H as [<-|[]]; try destruct H.
    - change ("x" ++ showNat i ++ ":0..." ++ showNat p)%string with (String "x" (showNat i ++ ":0..." ++ showNat p)) in *. rewrite <- sapp_assoc in *. apply good_line; auto; [apply noWs_show|apply show_ne].
    - change ("y" ++ showNat i ++ ":0..." ++ showNat cap)%string with (String "y" (showNat i ++ ":0..." ++ showNat cap)) in *. rewrite <- sapp_assoc in *. apply good_line; auto; [apply noWs_show|apply show_ne].
    - apply (good_line "e" ":0..."); auto; [apply noWs_showZ|]. destruct (showZ_numeral (Z.of_nat n - 1)) as (N & _); [lia|exact N].
    - change ("x" ++ showNat i ++ " = 0")%string with (String "x" (showNat i ++ " = " ++ "0")) in *. rewrite <- sapp_assoc in *. apply good_line; auto. discriminate.
    - change ("y" ++ showNat i ++ " = 0")%string with (String "y" (showNat i ++ " = " ++ "0")) in *. rewrite <- sapp_assoc in *. apply good_line; auto. discriminate.
    - unfold restrictionLine in *. destruct sum_head as (r & E). rewrite E in *. change (String "x" ?a ++ " <= " ++ showNat p)%string with (String "x" (a ++ " <= " ++ showNat p)) in *.
      rewrite <- sapp_assoc in *. apply good_line; auto; [apply noWs_show|apply show_ne].
    - match type of OK with okLine ?l = true => assert (E : l = String "!" ((emptiedText n c i ++ " -> y" ++ showNat i ++ "' = y" ++ showNat i ++ " + x" ++ showNat i) ++ "'")%string) end.
      { repeat (cbn [append]; rewrite ?sapp_assoc). reflexivity. }
      rewrite E in *. apply good_line; auto. discriminate.
    - unfold emptiedText in *. match type of OK with okLine ?l = true => assert (E : l = String "(" (("(e<=" ++ showNat i ++ " & e+" ++ showNat c ++ " > " ++ showNat i ++ ") | (e+" ++ showZ (Z.of_nat c - 1) ++ " >= " ++ showNat (i + n) ++ ")) -> y" ++ showNat i ++ "' = x" ++ showNat i) ++ "'")%string) end.
      { repeat (cbn [append]; rewrite ?sapp_assoc). reflexivity. }
      rewrite E in *. apply good_line; auto. discriminate.
  Qed.
  Lemma text_layout : layout None (file_lines (cinderellaText n c cap p)) = Some (LS order linesIn).
  Proof. rewrite text_unlines. apply layout_text; [apply good_lines|auto]. Qed.
  Lemma order_nodup : NoDup order.
  Proof. repeat constructor; cbn; intuition discriminate. Qed.
  Lemma text_lines s : linesOf s (LS order linesIn) = linesIn s.
  Proof. rewrite linesOf_LS by apply order_nodup. destruct s; reflexivity. Qed.

  (** ** The formulas *)

  Definition formulasIn (s : section) : list sfml :=
    match s with
    | SEnvTrans => [SCalc (sumF (seq 0 n)) CLe (kz p)]
    | SEnvInit => map (fun i => SCalc (NumID (xn i)) CEq (kz 0)) (seq 0 n)
    | SSysInit => map (fun i => SCalc (NumID (yn i)) CEq (kz 0)) (seq 0 n)
    | SSysTrans =>
        map (fun i => SImp (SUnary ONot (emptiedF n c i)) (SCalc (NumID (yn i ++ "'")) CEq (Add (NumID (yn i)) (NumID (xn i ++ "'"))))) (seq 0 n) ++
        map (fun i => SImp (emptiedF n c i) (SCalc (NumID (yn i ++ "'")) CEq (NumID (xn i ++ "'")))) (seq 0 n)
    | _ => []
    end.
  Notation bools := (booleanWords ins outs).
  Ltac nums := (apply upN; [lia|]); first [apply n_id|apply n_show].
  Ltac lx := cbn [append]; first
    [ exact (lex_end _)
    | apply (lexV' ins outs declared_ints); [reflexivity|cbn; tauto|cbn; reflexivity || exact I|]
    | apply (lexV ins outs declared_ints); [reflexivity|cbn; tauto|cbn; reflexivity || exact I|]
    | apply (lexE ins outs declared_ints); [cbn; reflexivity|]
    | apply (lexN ins outs); [cbn; reflexivity || exact I|]
    | apply lex_space; [reflexivity|]
    | apply lex_symbol; [reflexivity|reflexivity|reflexivity|] ].
  Lemma lex_sum l s ts : l <> [] -> lexes bools s ts -> endsBefore isWordChar s -> lexes bools (String.concat "+" (map (fun i => "x" ++ showNat i ++ "'")%string l) ++ s) (sumT l ++ ts).
  Proof.
    intros NE HS HE. induction l as [|i l IH]; [easy|]. destruct l as [|j l].
    - cbn [map String.concat sumT app append]. rewrite sapp_assoc. cbn [append]. apply (lexV' ins outs declared_ints); auto. now left.
    - change (String.concat "+" (map (fun i => "x" ++ showNat i ++ "'")%string (i :: j :: l))) with (("x" ++ showNat i ++ "'") ++ "+" ++ String.concat "+" (map (fun i => "x" ++ showNat i ++ "'")%string (j :: l)))%string.
      cbn [append]. rewrite !sapp_assoc. cbn [append]. change (sumT (i :: j :: l)) with (("numID", String "x" (showNat i ++ "'")) :: sym "+" :: sumT (j :: l))%string. cbn [app].
      lx. lx. apply IH. discriminate.
  Qed.
  Lemma lex_emptied i s ts : lexes bools s ts -> lexes bools (emptiedText n c i ++ s) (emptiedT n c i ++ ts).
  Proof.
    intros HS. unfold emptiedText, emptiedT. repeat (cbn [append app]; rewrite ?sapp_assoc). cbn [syms map app].
    do 23 lx. destruct (showZ_numeral (Z.of_nat c - 1)) as (N & D & _); [lia|]. apply lex_number; [exact N|exact D|reflexivity|]. do 5 lx. do 2 lx. exact HS.
  Qed.
  Definition readsAs (l : string) (f : sfml) : Prop := (forall g, ~ prefixLine ins outs l g) /\ reads bools l f.
  Lemma show_head i : exists b r, showNat i = String b r /\ isWs b = false.
  Proof.
    pose proof (noWs_show i) as W. pose proof (show_ne i) as N. destruct (showNat i) as [|b r]; [now elim N|]. exists b, r. split; [reflexivity|].
    unfold noWs in W. cbn in W. apply andb_prop in W. destruct W as [W _]. now apply negb_true_iff.
  Qed.
  Lemma np_name a i r : isWs a = false -> okLine (String a (showNat i ++ r)) = true -> forall g, ~ prefixLine ins outs (String a (showNat i ++ r)) g.
  Proof. intros A OK. destruct (show_head i) as (b & t & E & B). rewrite E in *. cbn [append] in *. apply (not_prefix ins outs declared_ints); auto. Qed.
  Lemma reads_init a i : isWordStart a = true -> In a ["x"; "y"]%char -> readsAs (String a (showNat i ++ " = 0")) (SCalc (NumID (String a (showNat i))) CEq (kz 0)).
  Proof.
    intros A V. split.
    - apply np_name; [destruct V as [<-|[<-|[]]]; reflexivity|]. cbn [allChars]. rewrite allChars_app, ok_show. destruct V as [<-|[<-|[]]]; reflexivity.
    - exists ([("numID", String a (showNat i))] ++ syms ["="] ++ [K 0]). split.
      + cbn [syms map app]. apply (lexV ins outs declared_ints); [exact A|exact V|reflexivity|]. do 3 lx. apply (lexN ins outs 0 ""); [exact I|constructor].
      + apply up; [lia|]. apply f_compare; [nums|apply c_eq|nums].
  Qed.
  Lemma reads_restriction : readsAs (restrictionLine n p) (SCalc (sumF (seq 0 n)) CLe (kz p)).
  Proof.
    assert (NE : seq 0 n <> []) by (destruct n; [lia|discriminate]). split.
    - pose proof ok_restriction as OK. unfold restrictionLine in *. destruct sum_head as (r & E). rewrite E in *. cbn [append] in *. rewrite sapp_assoc in *. apply np_name; auto.
    - exists (sumT (seq 0 n) ++ syms ["<"; "="] ++ [K p]). split.
      + unfold restrictionLine. apply lex_sum; [exact NE| |reflexivity]. cbn [syms map app]. do 4 lx. rewrite <- (sapp_nil (showNat p)) at 1. lx. lx.
      + apply up; [lia|]. apply f_compare; [now apply sum_number|apply c_le|nums].
  Qed.
  Lemma reads_A i : readsAs ("!" ++ emptiedText n c i ++ " -> y" ++ showNat i ++ "' = y" ++ showNat i ++ " + x" ++ showNat i ++ "'")%string
    (SImp (SUnary ONot (emptiedF n c i)) (SCalc (NumID (yn i ++ "'")) CEq (Add (NumID (yn i)) (NumID (xn i ++ "'"))))).
  Proof.
    split.
    - assert (OK : okLine ("!" ++ emptiedText n c i ++ " -> y" ++ showNat i ++ "' = y" ++ showNat i ++ " + x" ++ showNat i ++ "'")%string = true) by (rewrite !allChars_app, ok_emptied, ok_show; reflexivity).
      unfold emptiedText in *. cbn [append] in *. apply (not_prefix ins outs declared_ints); auto.
    - exists ((syms ["!"] ++ emptiedT n c i) ++ syms ["-"; ">"] ++ ([("numID", yn i ++ "'")%string] ++ syms ["="] ++ ([("numID", yn i)] ++ sym "+" :: [("numID", xn i ++ "'")%string]))). split.
      + cbn [syms map app append]. lx. apply lex_emptied. cbn [append app]. do 13 lx. lx.
      + apply (upFrom 6); [lia|]. apply f_binary; [apply i_imp; right; now left| |].
        * apply (upFrom 1); [lia|]. apply f_unary; [apply p_not; now left|]. apply up; [lia|]. now apply emptied_formula.
        * apply up; [lia|]. apply f_compare; [nums|apply c_eq|]. apply n_add; nums.
  Qed.
  Lemma reads_B i : readsAs (emptiedText n c i ++ " -> y" ++ showNat i ++ "' = x" ++ showNat i ++ "'")%string
    (SImp (emptiedF n c i) (SCalc (NumID (yn i ++ "'")) CEq (NumID (xn i ++ "'")))).
  Proof.
    split.
    - assert (OK : okLine (emptiedText n c i ++ " -> y" ++ showNat i ++ "' = x" ++ showNat i ++ "'")%string = true) by (rewrite !allChars_app, ok_emptied, ok_show; reflexivity).
      unfold emptiedText in *. cbn [append] in *. apply (not_prefix ins outs declared_ints); auto.
    - exists (emptiedT n c i ++ syms ["-"; ">"] ++ ([("numID", yn i ++ "'")%string] ++ syms ["="] ++ [("numID", xn i ++ "'")%string])). split.
      + cbn [syms map app append]. apply lex_emptied. do 9 lx. lx.
      + apply (upFrom 6); [lia|]. apply f_binary; [apply i_imp; right; now left| |].
        * apply up; [lia|]. now apply emptied_formula.
        * apply up; [lia|]. apply f_compare; [nums|apply c_eq|nums].
  Qed.
  Lemma reads_all s : formulaSection s = true -> Forall2 readsAs (linesIn s) (formulasIn s).
  Proof.
    destruct s; try discriminate; intros _; cbn [linesIn formulasIn]; try constructor.
    - apply Forall2_seq. intros i _. apply reads_init; [reflexivity|now left].
    - apply Forall2_seq. intros i _. apply reads_init; [reflexivity|right; now left].
    - apply reads_restriction.
    - constructor.
    - apply Forall2_app; apply Forall2_seq; intros i _; [apply reads_A|apply reads_B].
  Qed.
  Definition meaning (f : sfml) (u v : position) : bool :=
    truth (integers (ins ++ outs)) (fun next x => StructuredSpec.lookup (allNames ins outs) (valuation (bitState ins outs u) (bitState ins outs v)) (prime next x))
      (fun next x => integerAt ins outs (if next then v else u) x) false f.
  Lemma means_all s : formulaSection s = true -> Forall2 (line_means ins outs) (linesIn s) (map meaning (formulasIn s)).
  Proof.
    intros Hs. pose proof (reads_all s Hs) as H. induction H as [|l f ls fs [H1 H2] F IH]; cbn [map]; constructor; auto. now apply lm_infix.
  Qed.
End FILE.
