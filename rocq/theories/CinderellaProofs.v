(** * Proofs: the files of the generator for the game between Cinderella and the stepmother *)

From Coq Require Import String Ascii List Bool Arith NArith ZArith Lia.
From Verif Require Import FormulaSpec Spec FileSpec StructuredSpec StructGrammar StructFileSpec StuckSpec Explicit OutputProofs SymbolicProofs EstimatorText
  StructuredProofs StructConvProofs StructGameProofs PropsStructured StuckProofs MinCore MinCoreProofs FuzzProofs CinderellaSpec Cinderella.
Import ListNotations.
Local Open Scope string_scope.
Local Open Scope list_scope.

(** ** Characters *)

Definition okChar (a : ascii) : bool := negb (existsb (Ascii.eqb a) ["$"; "?"; "@"]%char) && (negb (isWs a) || Ascii.eqb a " ").
Notation okLine := (allChars okChar).
Lemma allChars_app P a b : allChars P (a ++ b)%string = allChars P a && allChars P b.
Proof. induction a as [|x a IH]; [reflexivity|]. cbn. now rewrite IH, andb_assoc. Qed.
Lemma allChars_in P s : allChars P s = true -> forall a, In a (list_ascii_of_string s) -> P a = true.
Proof. induction s as [|x s IH]; cbn; [intros _ a []|]. intros H a [<-|Ha]; apply andb_prop in H; destruct H; auto. Qed.
Lemma allChars_impl P Q s : (forall a, P a = true -> Q a = true) -> allChars P s = true -> allChars Q s = true.
Proof. intros H. induction s as [|x s IH]; cbn; [auto|]. intros E. apply andb_prop in E. destruct E as [E1 E2]. now rewrite H, IH. Qed.
Lemma digits_all s : allDigits s = true -> allChars isDigit s = true.
Proof. induction s as [|a s IH]; cbn; [auto|]. intros H. apply andb_prop in H. destruct H as [-> H]. auto. Qed.
Lemma show_digits k : allChars isDigit (showNat k) = true.
Proof. apply digits_all. now destruct (numeral_show k) as (_ & D & _). Qed.
Lemma ok_show k : okLine (showNat k) = true.
Proof. apply (allChars_impl isDigit); [|apply show_digits]. intros [[] [] [] [] [] [] [] []] H; try discriminate H; reflexivity. Qed.
Lemma ok_blanks s : okLine s = true -> blanksOnly s.
Proof. intros H a Ha W. apply (allChars_in _ _ H) in Ha. unfold okChar in Ha. rewrite W in Ha. apply andb_prop in Ha. destruct Ha as [_ Ha]. now apply Ascii.eqb_eq. Qed.
Lemma ok_noNl s : okLine s = true -> noNl s.
Proof. intros H a Ha ->. apply (allChars_in _ _ H) in Ha. discriminate Ha. Qed.
Lemma words_ok P s : allChars P s = true -> Forall (fun w => allChars P w = true) (words s).
Proof.
  induction s as [|a s IH]; [constructor|]. cbn [allChars words]. intros H. apply andb_prop in H. destruct H as [H1 H2]. specialize (IH H2). destruct (isWs a); [exact IH|].
  destruct s as [|b s]; [constructor; [cbn; now rewrite H1|constructor]|]. destruct (isWs b); [constructor; [cbn; now rewrite H1|exact IH]|].
  destruct (words (String b s)) as [|w ws]; inversion IH; subst; constructor; auto; cbn; rewrite H1; auto.
Qed.
Lemma ok_plain s : okLine s = true -> plain_words (words s).
Proof.
  intros H p op w q E Hop. apply words_ok in H. rewrite E in H. apply Forall_app in H. destruct H as [_ H]. inversion H as [|? ? H1 _]; subst. destruct Hop as [-> | ->]; discriminate H1.
Qed.

(** ** Names *)

Definition xn (i : nat) : string := String "x" (showNat i).
Definition yn (i : nat) : string := String "y" (showNat i).
Lemma digits_token s : allChars isDigit s = true -> allChars (fun b => isWordStart b || isDigit b) s = true.
Proof. apply allChars_impl. intros a ->. apply orb_true_r. Qed.
Lemma token_name a i : isWordStart a = true -> isWordToken (String a (showNat i)) = true.
Proof. intros H. cbn [isWordToken]. rewrite H. apply digits_token, show_digits. Qed.
Lemma token_name' a i : isWordStart a = true -> isWordToken (String a (showNat i ++ "'")) = true.
Proof. intros H. apply (token_prime true (String a (showNat i))). now apply token_name. Qed.
Lemma noQuote_name a i : Ascii.eqb a quoteChar = false -> noQuote (String a (showNat i)) = true.
Proof.
  intros H. unfold noQuote. cbn [allChars]. rewrite H. cbn [negb andb]. apply (allChars_impl isDigit); [|apply show_digits].
  intros [[] [] [] [] [] [] [] []] D; try discriminate D; reflexivity.
Qed.
Lemma unprime_name a i : Ascii.eqb a quoteChar = false -> unprime (String a (showNat i)) = (String a (showNat i), false).
Proof. intros H. exact (unprime_prime (String a (showNat i)) false (noQuote_name a i H)). Qed.
Lemma unprime_name' a i : Ascii.eqb a quoteChar = false -> unprime (String a (showNat i ++ "'")) = (String a (showNat i), true).
Proof. intros H. exact (unprime_prime (String a (showNat i)) true (noQuote_name a i H)). Qed.

(** ** Lines that are not in prefix notation *)

Lemma reserved_two a b w : reserved (String a (String b w)) = false.
Proof.
  destruct (reserved _) eqn:E; [|reflexivity]. apply existsb_exists in E. destruct E as (x & Hx & E). apply String.eqb_eq in E. subst x. cbn in Hx. intuition discriminate.
Qed.
Lemma words_two a b r : isWs a = false -> isWs b = false -> exists w ws, words (String a (String b r)) = String a (String b w) :: ws.
Proof.
  intros A B. destruct (StructDeclProofs.words_first b r B) as (w & ws & E). exists w, ws.
  assert (K : words (String a (String b r)) = match words (String b r) with w :: ws => String a w :: ws | [] => [String a ""] end).
  { change (words (String a (String b r))) with (if isWs a then words (String b r) else if isWs b then String a "" :: words (String b r) else match words (String b r) with w :: ws => String a w :: ws | [] => [String a ""] end). now rewrite A, B. }
  now rewrite K, E.
Qed.
Section PREFIX.
  Variables ins outs : list declaration.
  Hypothesis AllInt : forall d, In d (ins ++ outs) -> exists x mn mx, d = DInt x mn mx.
  Lemma names_at w : In w (allNames ins outs) -> In "@"%char (list_ascii_of_string w).
  Proof.
    unfold allNames. intros H. apply in_flat_map in H. destruct H as (v & Hv & H). apply in_flat_map in Hv. destruct Hv as (d & Hd & Hv). destruct (AllInt d Hd) as (x & mn & mx & ->).
    cbn [namesOfBits] in Hv. unfold bitNames in Hv. apply in_map_iff in Hv. destruct Hv as (k & <- & _).
    assert (A : In "@"%char (list_ascii_of_string (bitName x mn mx k))) by (unfold bitName; rewrite lasc_app; apply in_or_app; right; now left).
    destruct H as [<-|[<-|[]]]; [exact A|]. rewrite lasc_app. apply in_or_app. now left.
  Qed.
  Lemma bools_at w : In w (booleanWords ins outs) -> In "@"%char (list_ascii_of_string w).
  Proof.
    unfold booleanWords. intros H. apply in_flat_map in H. destruct H as (d & Hd & H). destruct (AllInt d Hd) as (x & mn & mx & ->). apply names_at. unfold allNames. apply in_flat_map. exists w.
    split; [apply in_flat_map; exists (DInt x mn mx); auto|now left].
  Qed.
  Lemma not_prefix a b r : isWs a = false -> isWs b = false -> okLine (String a (String b r)) = true -> forall g, ~ prefixLine ins outs (String a (String b r)) g.
  Proof.
    intros A B OK g G. unfold prefixLine in G. destruct (words_two a b r A B) as (w & ws & E). pose proof (words_ok _ _ OK) as F. rewrite E in G, F. inversion F as [|? ? F1 _]; subst.
    remember (String a (String b w)) as v eqn:Ev. assert (R : reserved v = false) by (subst v; apply reserved_two). clear Ev E.
    inversion G; subst; try discriminate R. apply nth_error_In, names_at in H4. apply (allChars_in _ _ F1) in H4. discriminate H4.
  Qed.

  (** ** Tokens *)

  Notation bools := (booleanWords ins outs).
  Lemma lexW w s ts : isWordToken w = true -> endsBefore isWordChar s -> ~ In w keyWords -> okLine w = true -> lexes bools s ts -> lexes bools (w ++ s) (("numID", w) :: ts).
  Proof. intros. apply lex_word; auto. apply wt_num; auto. intros I. apply bools_at in I. apply (allChars_in okChar w) in I; [discriminate I|auto]. Qed.
  Lemma lexE s ts : endsBefore isWordChar s -> lexes bools s ts -> lexes bools (String "e" s) (("numID", "e") :: ts).
  Proof. intros. apply (lexW "e"); auto. cbn. intuition discriminate. Qed.
  Lemma lexV a i s ts : isWordStart a = true -> In a ["x"; "y"]%char -> endsBefore isWordChar s -> lexes bools s ts -> lexes bools (String a (showNat i ++ s)) (("numID", String a (showNat i)) :: ts).
  Proof.
    intros A V E L. apply (lexW (String a (showNat i))); auto.
    - now apply token_name.
    - cbn [keyWords In]. destruct V as [<-|[<-|[]]]; intuition discriminate.
    - cbn [allChars]. rewrite ok_show. destruct V as [<-|[<-|[]]]; reflexivity.
  Qed.
  Lemma lexV' a i s ts : isWordStart a = true -> In a ["x"; "y"]%char -> endsBefore isWordChar s -> lexes bools s ts -> lexes bools (String a (showNat i ++ String "'" s)) (("numID", String a (showNat i ++ "'")) :: ts).
  Proof.
    intros A V E L. replace (String a (showNat i ++ String "'" s))%string with (String a (showNat i ++ "'") ++ s)%string by (cbn; now rewrite sapp_assoc). apply lexW; auto.
    - now apply token_name'.
    - cbn [keyWords In]. destruct V as [<-|[<-|[]]]; intuition discriminate.
    - cbn [allChars]. rewrite allChars_app, ok_show. destruct V as [<-|[<-|[]]]; reflexivity.
  Qed.
  Lemma lexN k s ts : endsBefore isDigit s -> lexes bools s ts -> lexes bools (showNat k ++ s) (("numeral", showNat k) :: ts).
  Proof. destruct (numeral_show k) as (N & D & _). intros. now apply lex_number. Qed.
  Lemma lexN0 s ts : endsBefore isDigit s -> lexes bools s ts -> lexes bools (String "0" s) (("numeral", "0") :: ts).
  Proof. intros. now apply (lex_number bools "0"). Qed.
End PREFIX.

(** ** Formulas *)

Lemma up l ts f : l <= 7 -> formula 0 ts f -> formula l ts f.
Proof. induction l as [|l IH]; intros H F; [exact F|]. apply f_up; [lia|]. apply IH; [lia|exact F]. Qed.
Lemma upFrom k l ts f : k <= l <= 7 -> formula k ts f -> formula l ts f.
Proof. induction l as [|l IH]; intros H F; [replace k with 0 in F by lia; exact F|]. destruct (Nat.eq_dec k (S l)) as [->|N]; [exact F|]. apply f_up; [lia|]. apply IH; [lia|exact F]. Qed.
Lemma upN l ts a : l <= 3 -> number 0 ts a -> number l ts a.
Proof. induction l as [|l IH]; intros H F; [exact F|]. apply n_up; [lia|]. apply IH; [lia|exact F]. Qed.
Lemma n_show k : number 0 [("numeral", showNat k)] (Numeral (Z.of_nat k)).
Proof. replace (Z.of_nat k) with (Z.of_N (decimal 0 (showNat k))); [apply n_numeral|]. destruct (numeral_show k) as (_ & _ & ->). apply nat_N_Z. Qed.

Fixpoint sumT (l : list nat) : list token :=
  match l with [] => [] | [i] => [("numID", String "x" (showNat i ++ "'"))] | i :: l => ("numID", String "x" (showNat i ++ "'")) :: sym "+" :: sumT l end.
Fixpoint sumF (l : list nat) : num :=
  match l with [] => Numeral 0 | [i] => NumID (String "x" (showNat i ++ "'")) | i :: l => Add (NumID (String "x" (showNat i ++ "'"))) (sumF l) end.
Lemma sum_number l : l <> [] -> number 3 (sumT l) (sumF l).
Proof.
  induction l as [|i l IH]; [easy|]. intros _. destruct l as [|j l]; [apply upN; [lia|apply n_id]|].
  change (sumT (i :: j :: l)) with ([("numID", String "x" (showNat i ++ "'"))]%string ++ sym "+" :: sumT (j :: l)). apply n_add; [apply upN; [lia|apply n_id]|]. now apply IH.
Qed.

Section FORMULAS.
  Variables n c : nat.
  Hypothesis Hc : 0 < c.
  Definition E : token := ("numID", "e").
  Definition K (k : nat) : token := ("numeral", showNat k).
  Definition emptiedT (i : nat) : list token :=
    sym "(" :: ((sym "(" :: (([E] ++ syms ["<"; "="] ++ [K i]) ++ syms ["&"] ++ (([E] ++ sym "+" :: [K c]) ++ syms [">"] ++ [K i])) ++ [sym ")"]) ++ syms ["|"] ++
      (sym "(" :: (([E] ++ sym "+" :: [("numeral", showZ (Z.of_nat c - 1))]) ++ syms [">"; "="] ++ [K (i + n)]) ++ [sym ")"])) ++ [sym ")"].
  Definition kz (k : nat) : num := Numeral (Z.of_nat k).
  Definition emptiedF (i : nat) : sfml :=
    SBrackets (SOr (SBrackets (SAnd (SCalc (NumID "e") CLe (kz i)) (SCalc (Add (NumID "e") (kz c)) CGt (kz i))))
      (SBrackets (SCalc (Add (NumID "e") (Numeral (Z.of_nat c - 1))) CGe (kz (i + n))))).
  Lemma n_e : number 0 [E] (NumID "e").
  Proof. apply n_id. Qed.
  Lemma emptied_formula i : formula 0 (emptiedT i) (emptiedF i).
  Proof.
    assert (S : forall k, number 3 ([E] ++ sym "+" :: [K k]) (Add (NumID "e") (kz k))).
    { intros k. apply n_add; (apply upN; [lia|]); [apply n_e|apply n_show]. }
    assert (S' : number 3 ([E] ++ sym "+" :: [("numeral", showZ (Z.of_nat c - 1))]) (Add (NumID "e") (Numeral (Z.of_nat c - 1)))).
    { apply n_add; (apply upN; [lia|]); [apply n_e|]. destruct (showZ_numeral (Z.of_nat c - 1)) as (_ & _ & D); [lia|].
      replace (Z.of_nat c - 1)%Z with (Z.of_N (decimal 0 (showZ (Z.of_nat c - 1)))) at 2 by (rewrite D; lia). apply n_numeral. }
    assert (N : forall k, number 3 [K k] (kz k)) by (intros k; apply upN; [lia|apply n_show]).
    apply f_round. apply (upFrom 4); [lia|]. apply f_binary; [apply i_or; right; now left| |].
    - apply up; [lia|]. apply f_round. apply (upFrom 3); [lia|]. apply f_binary; [apply i_and; right; now left| |].
      + apply up; [lia|]. apply f_compare; [apply upN; [lia|apply n_e]|apply c_le|apply N].
      + apply up; [lia|]. apply f_compare; [apply S|apply c_gt|apply N].
    - apply up; [lia|]. apply f_round. apply up; [lia|]. apply f_compare; [apply S'|apply c_ge|apply N].
  Qed.
End FORMULAS.
