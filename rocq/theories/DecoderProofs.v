(** * Proofs: tools/explicitImplementationIntegerDecoder.py *)

From Coq Require Import String Ascii List Bool Arith NArith ZArith Lia.
From Coq Require Import DecimalString.
From Verif Require Import FormulaSpec Parser ParserProofs FileProofs FileSpec OutputProofs AutSpec Explicit EstimatorText StructuredSpec Structured StructuredProofs StructFileSpec StructFile StructFileProofs StructDeclProofs StructReadProofs StuckSpec StuckProofs DecoderSpec Decoder.
Import ListNotations.
Local Open Scope list_scope.

(** ** Characters *)

Definition lacks (c : ascii) (s : string) : Prop := allChars (fun a => negb (Ascii.eqb a c)) s = true.
Lemma lacks_hasChar c s : lacks c s -> hasChar c s = false.
Proof.
  unfold lacks, hasChar. induction s as [|a s IH]; intros H; [reflexivity|]. cbn [allChars] in H. apply andb_true_iff in H. destruct H as [H1 H2].
  cbn [list_ascii_of_string existsb]. rewrite (IH H2), orb_false_r, Ascii.eqb_sym. now destruct (Ascii.eqb a c).
Qed.
Lemma hasChar_app c a b : hasChar c (a ++ b) = hasChar c a || hasChar c b.
Proof. unfold hasChar. induction a as [|x a IH]; cbn; [reflexivity|]. now rewrite IH, orb_assoc. Qed.
Lemma lacks_app c a b : lacks c a -> lacks c b -> lacks c (a ++ b)%string.
Proof. unfold lacks. rewrite allChars_app. intros -> ->. reflexivity. Qed.
Lemma allChars_impl (P Q : ascii -> bool) s : (forall a, P a = true -> Q a = true) -> allChars P s = true -> allChars Q s = true.
Proof. intros H. induction s as [|a s IH]; cbn [allChars]; [auto|]. rewrite !andb_true_iff. intros [H1 H2]. auto. Qed.
Lemma splitChar_lacks c s : lacks c s -> splitChar c s = [s].
Proof.
  unfold lacks. induction s as [|a s IH]; cbn [allChars splitChar]; [reflexivity|]. rewrite andb_true_iff. intros [H1 H2]. rewrite (IH H2). now destruct (Ascii.eqb a c).
Qed.
Lemma splitChar_cut c s t : lacks c s -> splitChar c (s ++ String c t) = s :: splitChar c t.
Proof.
  unfold lacks. induction s as [|a s IH]; cbn [allChars splitChar append]; [intros _; now rewrite Ascii.eqb_refl|]. rewrite andb_true_iff. intros [H1 H2]. rewrite (IH H2). now destruct (Ascii.eqb a c).
Qed.
Lemma cutAt_cut c s t : lacks c s -> cutAt c (s ++ String c t) = Some (s, t).
Proof.
  unfold lacks. induction s as [|a s IH]; cbn [allChars cutAt append]; [intros _; now rewrite Ascii.eqb_refl|]. rewrite andb_true_iff. intros [H1 H2]. rewrite (IH H2). now destruct (Ascii.eqb a c).
Qed.
Lemma splitComma_cons a r : a <> ","%char -> splitComma (String a r) = match splitComma r with p :: ps => String a p :: ps | [] => [] end.
Proof. intros H. cbn [splitComma]. destruct a as [[] [] [] [] [] [] [] []]; try reflexivity. now elim H. Qed.
Lemma splitComma_lacks s : lacks "," s -> splitComma s = [s].
Proof.
  unfold lacks. induction s as [|a s IH]; cbn [allChars]; [reflexivity|]. rewrite andb_true_iff. intros [H1 H2].
  rewrite splitComma_cons, (IH H2); [reflexivity|]. intros ->. discriminate H1.
Qed.
Lemma splitComma_cut s t : lacks "," s -> splitComma (s ++ ", " ++ t) = s :: splitComma t.
Proof.
  unfold lacks. induction s as [|a s IH]; cbn [allChars append]; [reflexivity|]. rewrite andb_true_iff. intros [H1 H2].
  rewrite splitComma_cons; [|intros ->; discriminate H1]. specialize (IH H2). cbn [append] in IH. now rewrite IH.
Qed.
Lemma splitComma_join l : l <> [] -> Forall (lacks ",") l -> splitComma (String.concat ", " l) = l.
Proof.
  induction l as [|s l IH]; intros N F; [contradiction|]. inversion F; subst. destruct l as [|s' l]; [now apply splitComma_lacks|].
  change (String.concat ", " (s :: s' :: l)) with (s ++ ", " ++ String.concat ", " (s' :: l))%string. rewrite splitComma_cut by assumption. f_equal. apply IH; [discriminate|assumption].
Qed.

(** Characters of names of bits. *)
Definition nameChar (a : ascii) : bool := isWordStart a || isDigit a || Ascii.eqb a "-".
Definition isName (s : string) : Prop := allChars nameChar s = true.
Lemma name_lacks c s : nameChar c = false -> isName s -> lacks c s.
Proof. intros H. apply allChars_impl. intros a Ha. destruct (Ascii.eqb_spec a c) as [->|]; [congruence|reflexivity]. Qed.
Lemma word_name x : isWordToken x = true -> isName x.
Proof.
  unfold isName. destruct x as [|a x]; [discriminate|]. cbn [isWordToken allChars]. rewrite !andb_true_iff. unfold nameChar. intros [H1 H2]. split; [now rewrite H1|].
  revert H2. apply allChars_impl. intros b ->. reflexivity.
Qed.
Lemma digits_name s : allDigits s = true -> allChars isDigit s = true.
Proof. now rewrite allChars_digits. Qed.
Lemma showZ_chars z : allChars (fun a => isDigit a || Ascii.eqb a "-") (showZ z) = true.
Proof.
  unfold showZ, NilEmpty.string_of_int. destruct (Z.to_int z) as [d|d].
  - apply (allChars_impl isDigit); [intros a ->; reflexivity|]. apply digits_name, digits_string.
  - cbn [allChars]. apply (allChars_impl isDigit); [intros a ->; reflexivity|]. apply digits_name, digits_string.
Qed.
Definition suffix (mn mx : Z) (i : nat) : string := (showNat i ++ (if Nat.eqb i 0 then "." ++ showZ mn ++ "." ++ showZ mx else ""))%string.
Lemma bitName_suffix x mn mx i : bitName x mn mx i = (x ++ String "@" (suffix mn mx i))%string.
Proof. reflexivity. Qed.
Lemma suffix_chars mn mx i : allChars (fun a => isDigit a || Ascii.eqb a "-" || Ascii.eqb a ".") (suffix mn mx i) = true.
Proof.
  unfold suffix. rewrite allChars_app. apply andb_true_iff. split.
  - apply (allChars_impl isDigit); [intros a ->; reflexivity|]. apply digits_name, digits_string.
  - destruct (Nat.eqb i 0); [|reflexivity]. cbn [append allChars]. apply andb_true_iff. split; [reflexivity|]. rewrite allChars_app. cbn [append allChars].
    assert (Z : forall z, allChars (fun a => isDigit a || Ascii.eqb a "-" || Ascii.eqb a ".") (showZ z) = true) by (intros z; generalize (showZ_chars z); apply allChars_impl; intros a ->; reflexivity).
    rewrite !Z. reflexivity.
Qed.
Lemma suffix_lacks mn mx i : lacks "@" (suffix mn mx i).
Proof. generalize (suffix_chars mn mx i). apply allChars_impl. intros a H. destruct (Ascii.eqb_spec a "@") as [->|]; [discriminate H|reflexivity]. Qed.
Lemma bitName_name x mn mx i : isWordToken x = true -> isName (bitName x mn mx i).
Proof.
  intros H. rewrite bitName_suffix. unfold isName. rewrite allChars_app. rewrite (word_name x H). cbn [allChars andb]. apply andb_true_iff. split; [reflexivity|].
  generalize (suffix_chars mn mx i). apply allChars_impl. intros a Ha. clear - Ha. destruct a as [[] [] [] [] [] [] [] []]; solve [reflexivity|discriminate Ha].
Qed.
Lemma split_bitName x mn mx i : lacks "@" x -> splitChar "@" (bitName x mn mx i) = [x; suffix mn mx i].
Proof. intros H. rewrite bitName_suffix, splitChar_cut by exact H. now rewrite splitChar_lacks by apply suffix_lacks. Qed.
Lemma showZ_lacks c z : isDigit c = false -> c <> "-"%char -> lacks c (showZ z).
Proof. intros H N. generalize (showZ_chars z). apply allChars_impl. intros a Ha. destruct (Ascii.eqb_spec a c) as [->|]; [|reflexivity]. rewrite H in Ha. apply Ascii.eqb_eq in Ha. contradiction. Qed.
Lemma suffix0_split mn mx : splitChar "." (suffix mn mx 0) = ["0"%string; showZ mn; showZ mx].
Proof.
  change (suffix mn mx 0) with ("0" ++ String "." (showZ mn ++ String "." (showZ mx)))%string. rewrite splitChar_cut by reflexivity. rewrite splitChar_cut by (apply showZ_lacks; [reflexivity|discriminate]).
  now rewrite splitChar_lacks by (apply showZ_lacks; [reflexivity|discriminate]).
Qed.
Lemma suffix_pos mn mx i : i <> 0 -> suffix mn mx i = showNat i.
Proof. intros H. unfold suffix. destruct (Nat.eqb_spec i 0); [contradiction|]. apply sapp_nil. Qed.
Lemma showNat_lacks c i : isDigit c = false -> lacks c (showNat i).
Proof. intros H. generalize (digits_name _ (digits_string (Nat.to_uint i))). apply allChars_impl. intros a Ha. destruct (Ascii.eqb_spec a c) as [->|]; [congruence|reflexivity]. Qed.

(** ** int *)

Lemma intDigits_all w : forall acc b, allDigits w = true -> (w <> ""%string \/ b = true) -> intDigits b acc w = Some (decimal acc w).
Proof.
  induction w as [|a w IH]; intros acc b H N; cbn [intDigits decimal].
  - destruct N as [N|N]; [now elim N|now subst b].
  - cbn [allDigits] in H. apply andb_true_iff in H. destruct H as [-> H2]. apply IH; auto.
Qed.
Lemma pyInt_digits w n : numeral w n -> pyInt w = Some (Z.of_N n).
Proof.
  intros (H1 & H2 & H3). unfold pyInt. rewrite trim_spec, strip_noWs.
  - destruct w as [|a w]; [contradiction|]. assert (D : isDigit a = true) by (cbn [allDigits] in H2; now apply andb_true_iff in H2).
    replace (match String a w with String "-" s => _ | String "+" s => _ | s => option_map Z.of_N (intDigits false 0 s) end) with (option_map Z.of_N (intDigits false 0 (String a w)))
      by (destruct a as [[] [] [] [] [] [] [] []]; try reflexivity; discriminate D).
    rewrite intDigits_all by auto. now rewrite H3.
  - clear H1 H3. unfold noWs. induction w as [|a w IH]; [reflexivity|]. cbn [allDigits] in H2. apply andb_true_iff in H2. destruct H2 as [D H2]. cbn. rewrite IH by auto. rewrite andb_true_r.
    destruct a as [[] [] [] [] [] [] [] []]; try reflexivity; discriminate D.
Qed.
Lemma pyInt_showZ z : pyInt (showZ z) = Some z.
Proof.
  destruct (Z.le_gt_cases 0 z) as [H|H].
  - rewrite (pyInt_digits _ _ (showZ_numeral z H)). now rewrite Z2N.id.
  - destruct z as [|p|p]; try lia. assert (N : numeral (showZ (Z.pos p)) (N.pos p)) by (apply (showZ_numeral (Z.pos p)); lia).
    change (showZ (Z.neg p)) with (String "-" (showZ (Z.pos p))). destruct N as (H1 & H2 & H3).
    unfold pyInt. rewrite trim_spec, strip_noWs by (apply (noWs_showZ (Z.neg p))). now rewrite intDigits_all, H3 by auto.
Qed.

(** ** The components of a label *)

Definition block (p : declaration * list bool) : list (string * string) := combine (namesOfBits (fst p)) (map bit (snd p)).
Definition fine (p : declaration * list bool) : Prop :=
  length (snd p) = length (namesOfBits (fst p)) /\ isWordToken (nameOfDecl (fst p)) = true /\ lacks "@" (nameOfDecl (fst p)).
Lemma combine_app {A B} (a a' : list A) (b b' : list B) : length a = length b -> combine (a ++ a') (b ++ b') = combine a b ++ combine a' b'.
Proof. revert b. induction a as [|x a IH]; intros [|y b] H; try discriminate H; [reflexivity|]. cbn. now rewrite IH by now injection H. Qed.
Lemma perVariable_blocks ds : forall bits, length bits = length (flat_map namesOfBits ds) ->
  combine (flat_map namesOfBits ds) (map bit bits) = flat_map block (perVariable ds bits).
Proof.
  induction ds as [|d ds IH]; intros bits H; [reflexivity|]. cbn [flat_map perVariable] in *. rewrite app_length in H.
  rewrite <- (firstn_skipn (length (namesOfBits d)) bits) at 1. rewrite map_app, combine_app by (rewrite map_length, firstn_length; lia).
  rewrite IH by (rewrite skipn_length; lia). reflexivity.
Qed.
Lemma perVariable_fine ds : forall bits, length bits = length (flat_map namesOfBits ds) ->
  Forall (fun d => isWordToken (nameOfDecl d) = true /\ lacks "@" (nameOfDecl d)) ds -> Forall fine (perVariable ds bits).
Proof.
  induction ds as [|d ds IH]; intros bits H F; [constructor|]. cbn [flat_map perVariable] in *. rewrite app_length in H. inversion F; subst. constructor.
  - split; [|assumption]. cbn [fst snd]. rewrite firstn_length. lia.
  - apply IH; [rewrite skipn_length; lia|assumption].
Qed.
Lemma perVariable_fst ds : forall bits, map fst (perVariable ds bits) = ds.
Proof. induction ds as [|d ds IH]; intros bits; [reflexivity|]. cbn. now rewrite IH. Qed.

(** ** Completing a value *)

Definition rest (head : string) (p : declaration * list bool) : Z :=
  match fst p with DInt x _ _ => if String.eqb x head then (bitsValue (snd p) - Z.b2z (hd false (snd p)))%Z else 0%Z | DBool _ => 0%Z end.
Lemma bitAmount_bit b z : bitAmount (bit b) z = Ret (if b then z else 0%Z).
Proof. now destruct b. Qed.
Lemma complete_other x mn mx head : lacks "@" x -> x <> head -> forall is bs v tl,
  completeValue head v (combine (map (bitName x mn mx) is) bs ++ tl) = completeValue head v tl.
Proof.
  intros L N. induction is as [|i is IH]; intros bs v tl; [reflexivity|]. destruct bs as [|b bs]; [reflexivity|]. cbn [map combine app completeValue].
  rewrite split_bitName by exact L. apply String.eqb_neq in N. rewrite N. cbn [andb]. apply IH.
Qed.
Lemma complete_bits x mn mx : lacks "@" x -> forall bs s v tl, s <> 0 ->
  completeValue x v (combine (map (bitName x mn mx) (seq s (length bs))) (map bit bs) ++ tl) = completeValue x (v + bitsValue bs * 2 ^ Z.of_nat s) tl.
Proof.
  intros L. induction bs as [|b bs IH]; intros s v tl N; cbn [length seq map combine app completeValue bitsValue]; [f_equal; lia|].
  rewrite split_bitName by exact L. rewrite String.eqb_refl, suffix_pos by exact N. rewrite lacks_hasChar by now apply showNat_lacks. cbn [negb andb].
  rewrite (pyInt_digits _ _ (numeral_show s)), nat_N_Z. destruct (Z.ltb_spec 0 (Z.of_nat s)); [|lia]. rewrite bitAmount_bit. cbn [pybind].
  rewrite IH by lia. f_equal. rewrite Nat2Z.inj_succ, Z.pow_succ_r by lia. rewrite Z.shiftl_1_l. destruct b; cbn [Z.b2z]; lia.
Qed.
Lemma complete_block head p v tl : fine p -> completeValue head v (block p ++ tl) = completeValue head (v + rest head p) tl.
Proof.
  intros (H1 & H2 & H3). destruct p as [[x|x mn mx] bs]; unfold block, rest; cbn [fst snd nameOfDecl namesOfBits] in *.
  - destruct bs as [|b [|b' bs]]; try discriminate H1. cbn [map combine app completeValue]. rewrite splitChar_lacks by exact H3. now rewrite Z.add_0_r.
  - unfold bitNames in *. rewrite map_length, seq_length in H1. destruct (String.eqb_spec x head) as [<-|N].
    + rewrite <- H1. destruct bs as [|b bs]; [cbn; f_equal; lia|]. cbn [length seq map combine app completeValue]. rewrite split_bitName by exact H3. rewrite String.eqb_refl.
      replace (hasChar "." (suffix mn mx 0)) with true by (unfold suffix; reflexivity). cbn [negb andb]. rewrite complete_bits by (exact H3 || discriminate). f_equal. cbn [bitsValue hd]. change (2 ^ Z.of_nat 1)%Z with 2%Z. lia.
    + rewrite complete_other by assumption. now rewrite Z.add_0_r.
Qed.
Lemma complete_blocks head ps v : Forall fine ps -> completeValue head v (flat_map block ps) = Ret (fold_left (fun z p => (z + rest head p)%Z) ps v).
Proof. intros F. revert v. induction F as [|p ps H F IH]; intros v; [reflexivity|]. cbn [flat_map fold_left]. rewrite complete_block by exact H. apply IH. Qed.
Lemma fold_none head ps v : ~ In head (map (fun p => nameOfDecl (fst p)) ps) -> fold_left (fun z p => (z + rest head p)%Z) ps v = v.
Proof.
  revert v. induction ps as [|p ps IH]; intros v H; [reflexivity|]. cbn [map In fold_left] in *. replace (v + rest head p)%Z with v; [apply IH; tauto|].
  unfold rest. destruct p as [[x|x mn mx] bs]; cbn [fst nameOfDecl] in *; [lia|]. destruct (String.eqb_spec x head); [tauto|lia].
Qed.
Lemma fold_one head p : nameOfDecl (fst p) = head -> forall ps v, NoDup (map (fun p => nameOfDecl (fst p)) ps) -> In p ps ->
  fold_left (fun z p => (z + rest head p)%Z) ps v = (v + rest head p)%Z.
Proof.
  intros E. induction ps as [|q ps IH]; intros v N I; [contradiction|]. cbn [map fold_left] in *. inversion N; subst. destruct I as [->|I].
  - now apply fold_none.
  - rewrite IH by assumption. replace (rest (nameOfDecl (fst p)) q) with 0%Z; [lia|]. unfold rest. destruct q as [[x|x mn mx] bs]; [reflexivity|]. cbn [fst nameOfDecl] in *.
    destruct (String.eqb_spec x (nameOfDecl (fst p))) as [->|]; [|reflexivity]. elim H1. now apply (in_map (fun p => nameOfDecl (fst p))) in I.
Qed.
Lemma leading x mn mx b bs ps : Forall fine ps -> NoDup (map (fun p => nameOfDecl (fst p)) ps) -> In (DInt x mn mx, b :: bs) ps ->
  parseLeading (flat_map block ps) (bitName x mn mx 0) (bit b) = Ret (x ++ "=" ++ showZ (mn + bitsValue (b :: bs)))%string.
Proof.
  intros F N I. assert (H := I). rewrite Forall_forall in F. apply F in H. destruct H as (H1 & H2 & H3). cbn [fst nameOfDecl] in H2, H3.
  unfold parseLeading. rewrite split_bitName by exact H3. rewrite suffix0_split. cbn [String.eqb Ascii.eqb Bool.eqb]. rewrite !pyInt_showZ, bitAmount_bit. cbn [pybind].
  rewrite complete_blocks by now apply Forall_forall. cbn [pybind]. do 4 f_equal. rewrite (fold_one x (DInt x mn mx, b :: bs) eq_refl ps _ N I). unfold rest. cbn [fst snd hd]. rewrite String.eqb_refl. destruct b; cbn [Z.b2z]; lia.
Qed.

(** ** The values *)

Lemma isSub_app p a b : isSub p b = true -> isSub p (a ++ b) = true.
Proof. intros H. induction a as [|x a IH]; [exact H|]. cbn [append isSub]. now rewrite IH, orb_true_r. Qed.
Lemma isSub_lacks c p s : lacks c s -> isSub (String c p) s = false.
Proof.
  unfold lacks. induction s as [|a s IH]; [reflexivity|]. cbn [allChars isSub String.prefix]. rewrite andb_true_iff. intros [H1 H2]. rewrite (IH H2), orb_false_r.
  destruct (ascii_dec c a) as [->|]; [now rewrite Ascii.eqb_refl in H1|reflexivity].
Qed.
Lemma isSub_cut c p s t : lacks c s -> lacks c t -> isSub (String c p) (s ++ String c t) = String.prefix p t.
Proof.
  intros L1 L2. unfold lacks in L1. induction s as [|a s IH]; cbn [append].
  - cbn [isSub String.prefix]. rewrite isSub_lacks by exact L2. destruct (ascii_dec c c); [apply orb_false_r|contradiction].
  - cbn [allChars] in L1. apply andb_true_iff in L1. destruct L1 as [H1 H2]. cbn [isSub String.prefix]. rewrite (IH H2). destruct (ascii_dec c a) as [->|]; [now rewrite Ascii.eqb_refl in H1|reflexivity].
Qed.
Lemma sub_first x mn mx : isSub "@0." (bitName x mn mx 0) = true.
Proof. unfold bitName. apply isSub_app. cbn. now destruct (showZ mn). Qed.
Lemma prefix_dot t : lacks "." t -> String.prefix "0." t = false.
Proof.
  destruct t as [|a [|b t]]; intros H; cbn [String.prefix]; [reflexivity| |]; destruct (ascii_dec "0" a) as [<-|]; try reflexivity. cbn [allChars] in H. unfold lacks in H. cbn [allChars] in H.
  destruct (ascii_dec "." b) as [<-|]; [discriminate H|reflexivity].
Qed.
Lemma sub_later x mn mx i : lacks "@" x -> i <> 0 -> isSub "@0." (bitName x mn mx i) = false.
Proof.
  intros L N. rewrite bitName_suffix, isSub_cut by (exact L || apply suffix_lacks). apply prefix_dot. rewrite suffix_pos by exact N. now apply showNat_lacks.
Qed.
Definition entry (p : declaration * list bool) : list (string * string) :=
  match p with (DInt x mn mx, b :: bs) => [(bitName x mn mx 0, (x ++ "=" ++ showZ (mn + bitsValue (b :: bs)))%string)] | _ => [] end.
Lemma values_later all x mn mx : lacks "@" x -> forall bs s parsed tl, s <> 0 ->
  parseValues all (combine (map (bitName x mn mx) (seq s (length bs))) (map bit bs) ++ tl) parsed = parseValues all tl parsed.
Proof.
  intros L. induction bs as [|b bs IH]; intros s parsed tl N; [reflexivity|]. cbn [length seq map combine app parseValues]. rewrite sub_later by assumption. apply IH. discriminate.
Qed.
Lemma values ps qs parsed : Forall fine ps -> NoDup (map (fun p => nameOfDecl (fst p)) ps) -> incl qs ps ->
  exists parsed', parseValues (flat_map block ps) (flat_map block qs) parsed = Ret parsed' /\ (forall e, In e parsed' <-> In e parsed \/ In e (flat_map entry qs)).
Proof.
  intros F N. revert parsed. induction qs as [|q qs IH]; intros parsed I; [exists parsed; split; [reflexivity|cbn; tauto]|].
  assert (Iq : In q ps) by (apply I; now left). assert (I' : incl qs ps) by (intros z Hz; apply I; now right).
  assert (G : fine q) by (rewrite Forall_forall in F; now apply F). destruct G as (H1 & H2 & H3). cbn [flat_map].
  destruct q as [[x|x mn mx] bs]; unfold block at 2; cbn [fst snd nameOfDecl namesOfBits] in *.
  - destruct bs as [|b [|b' bs]]; try discriminate H1. cbn [map combine app parseValues entry]. rewrite isSub_lacks by exact H3. now apply IH.
  - unfold bitNames in *. rewrite map_length, seq_length in H1. rewrite <- H1. destruct bs as [|b bs]; [now apply IH|].
    cbn [length seq map combine app parseValues entry]. rewrite sub_first, (leading x mn mx b bs ps F N Iq). cbn [pybind]. rewrite values_later by (exact H3 || discriminate).
    destruct (IH ((bitName x mn mx 0, (x ++ "=" ++ showZ (mn + bitsValue (b :: bs)))%string) :: parsed) I') as (parsed' & E & H). exists parsed'. split; [exact E|].
    intros e. rewrite H. cbn [In]. tauto.
Qed.

(** ** The label *)

Lemma find_value (l : list (string * string)) a v : In (a, v) l -> (forall w, In (a, w) l -> w = v) ->
  exists e, find (fun e => String.eqb (fst e) a) l = Some e /\ snd e = v.
Proof.
  intros I U. destruct (find (fun e => String.eqb (fst e) a) l) as [e|] eqn:E.
  - exists e. split; [reflexivity|]. apply find_some in E. destruct E as [E1 E2]. apply String.eqb_eq in E2. apply U. rewrite <- E2. now destruct e.
  - apply find_none with (x := (a, v)) in E; [|exact I]. cbn [fst] in E. now rewrite String.eqb_refl in E.
Qed.
Lemma find_absent (l : list (string * string)) a : (forall w, ~ In (a, w) l) -> find (fun e => String.eqb (fst e) a) l = None.
Proof.
  intros H. destruct (find (fun e => String.eqb (fst e) a) l) as [[b w]|] eqn:E; [|reflexivity]. apply find_some in E. destruct E as [E1 E2]. apply String.eqb_eq in E2. cbn in E2. subst b. now apply H in E1.
Qed.
Lemma has_at x t : hasChar "@" (x ++ String "@" t) = true.
Proof. rewrite hasChar_app. unfold hasChar at 2. cbn. apply orb_true_r. Qed.
Lemma in_entry ps a w : In (a, w) (flat_map entry ps) -> exists x mn mx b bs, In (DInt x mn mx, b :: bs) ps /\ a = bitName x mn mx 0 /\ w = (x ++ "=" ++ showZ (mn + bitsValue (b :: bs)))%string.
Proof.
  rewrite in_flat_map. intros ([[x|x mn mx] [|b bs]] & I & H); try contradiction H. destruct H as [H|[]]. injection H as <- <-. now exists x, mn, mx, b, bs.
Qed.
Lemma bitName_inj x mn mx i y mn' mx' j : lacks "@" x -> lacks "@" y -> bitName x mn mx i = bitName y mn' mx' j -> x = y /\ suffix mn mx i = suffix mn' mx' j.
Proof. intros L1 L2 E. apply (f_equal (splitChar "@")) in E. rewrite !split_bitName in E by assumption. now injection E as -> ->. Qed.
Lemma nodup_decl ps p q : NoDup (map (fun p : declaration * list bool => nameOfDecl (fst p)) ps) -> In p ps -> In q ps -> nameOfDecl (fst p) = nameOfDecl (fst q) -> p = q.
Proof.
  induction ps as [|r ps IH]; intros N Ip Iq E; [contradiction|]. cbn [map] in N. inversion N; subst. destruct Ip as [->|Ip], Iq as [->|Iq]; auto.
  - elim H1. rewrite E. now apply (in_map (fun p => nameOfDecl (fst p))) in Iq.
  - elim H1. rewrite <- E. now apply (in_map (fun p => nameOfDecl (fst p))) in Ip.
Qed.
Lemma filtered_app parsed a b : filteredComponents parsed (a ++ b) = filteredComponents parsed a ++ filteredComponents parsed b.
Proof. apply flat_map_app. Qed.
Lemma filtered ps parsed : Forall fine ps -> NoDup (map (fun p => nameOfDecl (fst p)) ps) -> (forall e, In e parsed <-> In e (flat_map entry ps)) ->
  forall qs, incl qs ps -> filteredComponents parsed (flat_map block qs) = flat_map shown qs.
Proof.
  intros F N H. rewrite Forall_forall in F. induction qs as [|q qs IH]; intros I; [reflexivity|]. cbn [flat_map]. rewrite filtered_app, IH by (intros z Hz; apply I; now right). f_equal. clear IH.
  assert (Iq : In q ps) by (apply I; now left). destruct (F _ Iq) as (H1 & H2 & H3).
  destruct q as [[x|x mn mx] bs]; unfold block; cbn [fst snd nameOfDecl namesOfBits] in *.
  - destruct bs as [|b [|b' bs]]; try discriminate H1. cbn [map combine filteredComponents flat_map]. rewrite find_absent.
    + rewrite lacks_hasChar by exact H3. now destruct b.
    + intros w K. apply H in K. apply in_entry in K. destruct K as (y & mn & mx & b' & bs & _ & -> & _). apply lacks_hasChar in H3. rewrite bitName_suffix, has_at in H3. discriminate H3.
  - unfold bitNames in *. rewrite map_length, seq_length in H1. rewrite <- H1. destruct bs as [|b bs]; [reflexivity|]. cbn [length seq map combine filteredComponents flat_map].
    destruct (find_value parsed (bitName x mn mx 0) (x ++ "=" ++ showZ (mn + bitsValue (b :: bs)))%string) as (e & -> & Ee).
    + apply H. apply in_flat_map. exists (DInt x mn mx, b :: bs). split; [exact Iq|now left].
    + intros w K. apply H in K. apply in_entry in K. destruct K as (y & mn' & mx' & b' & bs' & Iy & E & ->). apply bitName_inj in E; [|exact H3|now destruct (F _ Iy) as (_ & _ & K)]. destruct E as [<- _].
      assert (E : (DInt x mn mx, b :: bs) = (DInt x mn' mx', b' :: bs')) by (apply (nodup_decl ps); auto). now injection E as -> -> -> ->.
    + rewrite Ee. change (shown (DInt x mn mx, b :: bs)) with ([x ++ "=" ++ showZ (mn + bitsValue (b :: bs))]%string ++ [])%list. cbn [app]. f_equal. generalize 1 (Nat.neq_succ_0 0). clear -H H3 F. induction bs as [|b bs IH]; intros s Ns; [reflexivity|]. cbn [length seq map combine flat_map]. rewrite find_absent.
      * rewrite bitName_suffix, has_at. cbn [app]. apply IH. discriminate.
      * intros w K. apply H in K. apply in_entry in K. destruct K as (y & mn' & mx' & b' & bs' & Iy & E & _). apply bitName_inj in E; [|exact H3|now destruct (F _ Iy) as (_ & _ & K)].
        destruct E as [_ E]. apply (f_equal (hasChar ".")) in E. rewrite suffix_pos in E by exact Ns. rewrite lacks_hasChar in E by now apply showNat_lacks. discriminate E.
Qed.

(** ** Lines *)

Lemma components_spec l : Forall (fun p => lacks ":" (fst p) /\ lacks ":" (snd p)) l -> components (map (fun p => (fst p ++ ":" ++ snd p)%string) l) = Ret l.
Proof.
  induction 1 as [|[a b] l [H1 H2] F IH]; [reflexivity|]. cbn [map components fst snd append] in *. rewrite splitChar_cut by exact H1. rewrite splitChar_lacks by exact H2. rewrite IH. reflexivity.
Qed.
Lemma block_names p : fine p -> Forall (fun q => isName (fst q)) (block p).
Proof.
  intros (H1 & H2 & H3). apply Forall_forall. intros [a b] H. unfold block in H. apply in_combine_l in H. cbn [fst].
  destruct p as [[x|x mn mx] bs]; cbn [fst snd nameOfDecl namesOfBits] in *.
  - destruct H as [<-|[]]. now apply word_name.
  - apply in_map_iff in H. destruct H as (i & <- & _). now apply bitName_name.
Qed.
Lemma block_bits p : Forall (fun q => exists b, snd q = bit b) (block p).
Proof. apply Forall_forall. intros [a b] H. unfold block in H. apply in_combine_r in H. apply in_map_iff in H. destruct H as (c & <- & _). now exists c. Qed.
Definition bitsText (l : list (string * string)) : list string := map (fun p => (fst p ++ ":" ++ snd p)%string) l.
Lemma bit_lacks c b : Ascii.eqb "0" c = false -> Ascii.eqb "1" c = false -> lacks c (bit b).
Proof. intros H1 H2. unfold lacks. destruct b; cbn [bit allChars]; [now rewrite H2|now rewrite H1]. Qed.
Lemma concat_lacks c l : lacks c ", " -> Forall (lacks c) l -> lacks c (String.concat ", " l).
Proof.
  intros C. induction l as [|a l IH]; intros F; [reflexivity|]. inversion F; subst. destruct l as [|b l]; [assumption|].
  change (String.concat ", " (a :: b :: l)) with (a ++ ", " ++ String.concat ", " (b :: l))%string. apply lacks_app; [assumption|]. apply lacks_app; [exact C|auto].
Qed.
Lemma text_lacks c ps : nameChar c = false -> Ascii.eqb "0" c = false -> Ascii.eqb "1" c = false -> Ascii.eqb ":" c = false -> Forall fine ps -> Forall (lacks c) (bitsText (flat_map block ps)).
Proof.
  intros H1 H2 H3 H4 F. apply Forall_forall. intros s H. apply in_map_iff in H. destruct H as (q & <- & H). apply in_flat_map in H. destruct H as (p & Ip & Iq).
  rewrite Forall_forall in F. apply F in Ip. pose proof (block_names p Ip) as N. rewrite Forall_forall in N. apply N in Iq as Nq.
  pose proof (block_bits p) as B. rewrite Forall_forall in B. destruct (B _ Iq) as (b & ->). apply lacks_app; [now apply name_lacks|]. apply lacks_app; [unfold lacks; cbn [allChars]; now rewrite H4|now apply bit_lacks].
Qed.

Theorem decode_label part1 part3 ps : Forall fine ps -> NoDup (map (fun p => nameOfDecl (fst p)) ps) -> flat_map block ps <> [] -> lacks "<" part1 ->
  decodeLine (part1 ++ "<" ++ String.concat ", " (bitsText (flat_map block ps)) ++ ">" ++ part3)
  = Ret (part1 ++ "<" ++ String.concat ", " (flat_map shown ps) ++ ">" ++ part3)%string.
Proof.
  intros F N NE L. unfold decodeLine. cbn [append].
  assert (L2 : lacks ">" (String.concat ", " (bitsText (flat_map block ps)))) by (apply concat_lacks; [reflexivity|apply text_lacks; auto]).
  replace (hasChar "<" _) with true by (rewrite hasChar_app; unfold hasChar at 2; cbn; now rewrite orb_true_r).
  replace (hasChar ">" _) with true.
  2:{ symmetry. rewrite hasChar_app. apply orb_true_iff. right. change (hasChar ">" (String "<" (String.concat ", " (bitsText (flat_map block ps)) ++ String ">" part3))) with (hasChar ">" (String.concat ", " (bitsText (flat_map block ps)) ++ String ">" part3)).
      rewrite hasChar_app. apply orb_true_iff. right. reflexivity. }
  cbn [andb]. rewrite cutAt_cut by exact L. rewrite cutAt_cut by exact L2. rewrite splitComma_join.
  - rewrite components_spec.
    + cbn [pybind]. destruct (values ps ps [] F N (incl_refl _)) as (parsed & E & H). rewrite E. cbn [pybind].
      rewrite (filtered ps parsed F N) by (try apply incl_refl; intros e; rewrite H; cbn; tauto). reflexivity.
    + apply Forall_forall. intros q Hq. apply in_flat_map in Hq. destruct Hq as (p & Ip & Iq). rewrite Forall_forall in F. apply F in Ip. pose proof (block_names p Ip) as B. rewrite Forall_forall in B. split; [apply name_lacks; [reflexivity|auto]|].
      pose proof (block_bits p) as B'. rewrite Forall_forall in B'. destruct (B' _ Iq) as (b & ->). now apply bit_lacks.
  - intros E. apply map_eq_nil in E. contradiction.
  - apply text_lacks; auto.
Qed.

(** ** Texts *)

Lemma readlines_line l tl : lacks "010" l -> readlinesKeep (l ++ newline ++ tl) = (l ++ newline)%string :: readlinesKeep tl.
Proof.
  unfold lacks. induction l as [|a l IH]; [reflexivity|]. cbn [allChars append readlinesKeep]. rewrite andb_true_iff. intros [H1 H2]. apply negb_true_iff in H1. rewrite H1. specialize (IH H2). cbn [append newline] in IH. unfold newline in *. cbn [append] in *. now rewrite IH.
Qed.
Lemma decode_plain l : lacks "<" l -> decodeLine l = Ret l.
Proof. intros H. unfold decodeLine. now rewrite (lacks_hasChar _ _ H). Qed.
Lemma sapp_assoc' a b c : ((a ++ b) ++ c)%string = (a ++ b ++ c)%string.
Proof. induction a as [|x a IH]; [reflexivity|]. cbn. now rewrite IH. Qed.
Lemma sconcat_cons a l : sconcat (a :: l) = (a ++ sconcat l)%string.
Proof. destruct l; [symmetry; apply sapp_nil|reflexivity]. Qed.
Definition sizes (ds : list declaration) : nat := length (flat_map namesOfBits ds).
Lemma numbers_lacks c l : isDigit c = false -> lacks c ", " -> lacks c (String.concat ", " (map showNumber l)).
Proof. intros H C. apply concat_lacks; [exact C|]. apply Forall_forall. intros s Hs. apply in_map_iff in Hs. destruct Hs as (n & <- & _). now apply showNat_lacks. Qed.
Lemma textNode_spec ds e : length (n_vals (fst e)) = length (flat_map namesOfBits ds) ->
  textNode (flat_map namesOfBits ds) e = stateText (n_num (fst e)) (n_rank (fst e)) (String.concat ", " (bitsText (flat_map block (perVariable ds (n_vals (fst e)))))) (n_succ (fst e)).
Proof.
  intros H. rewrite <- (perVariable_blocks ds _ H). unfold textNode, stateText, bitsText. rewrite !sconcat_cons. do 5 f_equal.
  replace (map (fun p => sconcat [fst p; ":"%string; bit (snd p)]) (combine (flat_map namesOfBits ds) (n_vals (fst e)))) with (map (fun p => (fst p ++ ":" ++ snd p)%string) (combine (flat_map namesOfBits ds) (map bit (n_vals (fst e))))).
  - reflexivity.
  - generalize (n_vals (fst e)). clear. induction (flat_map namesOfBits ds) as [|a l IH]; intros [|b bs]; try reflexivity. cbn [map combine fst snd]. now rewrite IH.
Qed.
Lemma decode_state num rank ps succs tl : Forall fine ps -> NoDup (map (fun p => nameOfDecl (fst p)) ps) -> flat_map block ps <> [] ->
  decodeText (stateText num rank (String.concat ", " (bitsText (flat_map block ps))) succs ++ tl)
  = pybind (decodeText tl) (fun r => Ret (stateText num rank (String.concat ", " (flat_map shown ps)) succs ++ r)%string).
Proof.
  intros F N NE. unfold decodeText, stateText.
  set (lab := String.concat ", " (bitsText (flat_map block ps))). set (p1 := ("State " ++ showNumber num ++ " with rank " ++ showNumber rank ++ " -> ")%string).
  set (l2 := (String "009" "" ++ "With successors : " ++ String.concat ", " (map showNumber succs))%string).
  assert (A : forall lab, ("State " ++ showNumber num ++ " with rank " ++ showNumber rank ++ " -> <" ++ lab ++ ">" ++ newline ++ String "009" "" ++ "With successors : " ++ String.concat ", " (map showNumber succs) ++ newline)%string
     = ((p1 ++ "<" ++ lab ++ ">") ++ newline ++ l2 ++ newline)%string) by (intros l; unfold p1, l2; rewrite !sapp_assoc'; cbn [append]; rewrite ?sapp_assoc'; reflexivity).
  rewrite !A, !sapp_assoc'.
  assert (P1 : forall c, isDigit c = false -> lacks c "State " -> lacks c " with rank " -> lacks c " -> " -> lacks c p1) by (intros c D X Y Z; unfold p1; repeat apply lacks_app; auto; now apply showNat_lacks).
  assert (NL : lacks "010" (p1 ++ "<" ++ lab ++ ">")) by (apply lacks_app; [now apply P1|]; apply lacks_app; [reflexivity|]; apply lacks_app; [|reflexivity]; apply concat_lacks; [reflexivity|]; apply text_lacks; auto).
  assert (NL2 : forall c, isDigit c = false -> lacks c ", " -> lacks c "With successors : " -> c <> "009"%char -> lacks c l2).
  { intros c D C X Y. unfold l2. apply lacks_app; [unfold lacks; cbn [allChars]; destruct (Ascii.eqb_spec "009" c); [now elim Y|reflexivity]|]. apply lacks_app; [exact X|]. now apply numbers_lacks. }
  replace (p1 ++ "<" ++ lab ++ ">" ++ newline ++ l2 ++ newline ++ tl)%string with ((p1 ++ "<" ++ lab ++ ">") ++ newline ++ l2 ++ newline ++ tl)%string by (rewrite !sapp_assoc'; reflexivity).
  rewrite readlines_line by exact NL. rewrite readlines_line by (apply NL2; reflexivity || discriminate). cbn [decodeLines].
  rewrite !sapp_assoc'. unfold lab. rewrite (decode_label p1 newline ps F N NE) by (apply P1; reflexivity). cbn [pybind].
  rewrite decode_plain by (apply lacks_app; [apply NL2; reflexivity || discriminate|reflexivity]). cbn [pybind].
  destruct (decodeLines (readlinesKeep tl)); cbn [pybind]; try reflexivity. rewrite !sapp_assoc'. reflexivity.
Qed.
Theorem decode_text ds (out : list (node * bool)) :
  Forall (fun d => isWordToken (nameOfDecl d) = true /\ lacks "@" (nameOfDecl d)) ds -> NoDup (map nameOfDecl ds) -> flat_map namesOfBits ds <> [] ->
  (forall e, In e out -> length (n_vals (fst e)) = length (flat_map namesOfBits ds)) ->
  decodeText (sconcat (map (textNode (flat_map namesOfBits ds)) out))
  = Ret (sconcat (map (fun e => stateText (n_num (fst e)) (n_rank (fst e)) (label ds (n_vals (fst e))) (n_succ (fst e))) out)).
Proof.
  intros F N NE H. induction out as [|e out IH]; [reflexivity|]. cbn [map]. rewrite !sconcat_cons. assert (He := H e (or_introl eq_refl)). rewrite textNode_spec by exact He. rewrite decode_state.
  - rewrite IH by (intros e' He'; apply H; now right). reflexivity.
  - now apply perVariable_fine.
  - rewrite <- map_map with (f := fst). now rewrite perVariable_fst.
  - intros E. rewrite <- perVariable_blocks in E by exact He. apply (f_equal (@length _)) in E. rewrite combine_length, map_length, He, Nat.min_id in E. destruct (flat_map namesOfBits ds); [now elim NE|discriminate E].
Qed.
