(** * Proofs: reading the files *)

From Coq Require Import String Ascii List Bool Arith NArith ZArith Lia.
From Verif Require Import FormulaSpec FileSpec AutSpec Explicit Parser FileProofs OutputProofs StructuredSpec Structured StructuredProofs StructFile StructFileProofs StructDeclProofs
  DecoderSpec Decoder DecoderProofs LtlMain GraphSpec Graph GraphProofs SmvSpec Smv.
Import ListNotations.
Local Open Scope string_scope.

(** ** The specification *)

Definition categoryOf (cur : option section) : string := match cur with Some s => header s | None => "" end.
Lemma header_key s : existsb (String.eqb (header s)) slugsKeys = true.
Proof. now destruct s. Qed.
Lemma header_inj s s' : header s = header s' -> s = s'.
Proof. destruct s, s'; try reflexivity; discriminate. Qed.
Lemma readSlugs_layout lines : forall cur L, layout cur lines = Some L ->
  readSlugs (categoryOf cur) lines = Ret (map (fun p => (header (fst p), snd p)) L).
Proof.
  induction lines as [|l ls IH]; intros cur L; cbn [layout readSlugs]; [intros [= <-]; reflexivity|]. rewrite trim_spec. destruct (strip l) as [|a r] eqn:E; [intros H; apply (IH _ _ H)|].
  replace (String.prefix "#" (String a r)) with (a =? "#")%char by (rewrite hd_prefix; reflexivity).
  replace (String.prefix "[" (String a r)) with (a =? "[")%char by (rewrite hd_prefix; reflexivity).
  destruct (a =? "#")%char; cbn [negb andb]; [apply IH|]. replace (String.eqb (String a r) "") with false by reflexivity. cbn [negb]. destruct (a =? "[")%char.
  - destruct (find _ sections) as [s|] eqn:F; [|discriminate]. intros H. apply find_some in F. destruct F as [_ F]. apply String.eqb_eq in F. rewrite <- F, header_key. apply (IH (Some s) L H).
  - destruct cur as [s|]; [|discriminate]. cbn [categoryOf]. rewrite header_key. destruct (layout (Some s) ls) as [L'|] eqn:E'; [|discriminate]. intros [= <-]. specialize (IH (Some s) L' E'). cbn [categoryOf] in IH. now rewrite IH.
Qed.
Lemma linesIn_linesOf L s : linesIn (map (fun p => (header (fst p), snd p)) L) (header s) = linesOf s L.
Proof.
  unfold linesIn, linesOf. induction L as [|[s' l] L IH]; [reflexivity|]. cbn [map filter fst snd].
  replace (String.eqb (header s') (header s)) with (sec_eqb s' s) by now destruct s', s. destruct (sec_eqb s' s); cbn [map snd]; now rewrite IH.
Qed.

(** ** The automaton *)

Definition clean (a : ascii) : bool := negb (Ascii.eqb a " " || Ascii.eqb a "<" || Ascii.eqb a ":" || Ascii.eqb a ">").
Definition beginsWith (c : ascii) (s : string) : bool := match s with String a _ => Ascii.eqb a c | _ => false end.
Lemma split1_cons a s : clean a = true -> (a = ","%char -> beginsWith " " s = false) -> split1 (String a s) = onHead a (split1 s).
Proof.
  intros C H. destruct (Ascii.eqb_spec a ",") as [->|N].
  - specialize (H eq_refl). destruct s as [|b s]; [reflexivity|]. cbn [beginsWith] in H. destruct b as [[] [] [] [] [] [] [] []]; solve [reflexivity|discriminate H].
  - destruct a as [[] [] [] [] [] [] [] []]; solve [discriminate C|now elim N|reflexivity].
Qed.
Fixpoint onHeads (w : string) (l : list string) : list string := match w with "" => l | String a w => onHead a (onHeads w l) end.
Lemma onHeads_nil w l : onHeads w ("" :: l) = w :: l.
Proof. induction w as [|a w IH]; cbn; [reflexivity|]. now rewrite IH. Qed.
Lemma split1_word w s : allChars (fun a => clean a && negb (Ascii.eqb a ",")) w = true -> split1 (w ++ s) = onHeads w (split1 s).
Proof.
  induction w as [|a w IH]; cbn [allChars append onHeads]; [reflexivity|]. rewrite !andb_true_iff. intros [[H1 H2] H3]. rewrite split1_cons, IH; auto. intros ->. discriminate H2.
Qed.
Lemma split1_name w s : allChars clean w = true -> split1 (w ++ String ":" s) = w :: split1 s.
Proof.
  induction w as [|a w IH]; cbn [allChars append]; [reflexivity|]. rewrite andb_true_iff. intros [H1 H2]. rewrite split1_cons, IH; auto. intros _. destruct w as [|b w]; [reflexivity|].
  cbn [append beginsWith allChars] in *. apply andb_true_iff in H2. destruct H2 as [H2 _]. unfold clean in H2. destruct (Ascii.eqb_spec b " "); [subst; discriminate H2|reflexivity].
Qed.
Lemma showNat_clean n : allChars (fun a => clean a && negb (Ascii.eqb a ",")) (showNat n) = true.
Proof. generalize (digits_name _ (digits_string (Nat.to_uint n))). apply allChars_impl. intros a Ha. destruct a as [[] [] [] [] [] [] [] []]; solve [reflexivity|discriminate Ha]. Qed.
Lemma showNat_not_minus n s : beginsWith "-" (showNat n ++ s) = false.
Proof.
  pose proof (showNat_nonempty n) as N. pose proof (digits_name _ (digits_string (Nat.to_uint n))) as D. fold (showNat n) in D. destruct (showNat n) as [|a w]; [now elim N|]. cbn [allChars append beginsWith] in *. apply andb_true_iff in D. destruct D as [D _].
  destruct (Ascii.eqb_spec a "-"); [subst; discriminate D|reflexivity].
Qed.
Lemma split1_blank s : beginsWith "-" s = false -> split1 (String " " s) = "" :: split1 s.
Proof. destruct s as [|a s]; [reflexivity|]. cbn [beginsWith]. intros H. destruct a as [[] [] [] [] [] [] [] []]; solve [reflexivity|discriminate H]. Qed.
Lemma split1_items ps : ps <> [] -> Forall (fun p => allChars clean (fst p) = true) ps ->
  split1 (String.concat ", " (map item ps) ++ ">") = (flat_map (fun p => [fst p; bit (snd p)]) ps ++ [""])%list.
Proof.
  intros N F. induction F as [|p ps P F IH]; [now elim N|]. assert (I : item p = fst p ++ String ":" (bit (snd p))) by (unfold item; rewrite !sconcat_cons; unfold sconcat; cbn [String.concat]; now rewrite sapp_nil).
  destruct ps as [|p' ps].
  - cbn [map String.concat flat_map app]. rewrite I, sapp_assoc'. cbn [append]. rewrite split1_name by exact P. now destruct (snd p).
  - change (String.concat ", " (map item (p :: p' :: ps))) with (item p ++ ", " ++ String.concat ", " (map item (p' :: ps))). rewrite I, !sapp_assoc'. cbn [append]. rewrite split1_name by exact P.
    change (flat_map (fun p => [fst p; bit (snd p)]) (p :: p' :: ps)) with (fst p :: bit (snd p) :: flat_map (fun p => [fst p; bit (snd p)]) (p' :: ps)). cbn [app]. rewrite <- IH by discriminate.
    generalize (String.concat ", " (map item (p' :: ps)) ++ ">"). intros t. now destruct (snd p).
Qed.
Definition zbit (b : bool) : Z := if b then 1%Z else 0%Z.
Definition dictOf (names : list string) (v : node) : valuationDict := combine names (map zbit (n_vals v)).
Lemma readValues_items names : NoDup names -> forall vs d, (forall x, In x names -> ~ In x (map fst d)) -> length vs = length names ->
  readValues (flat_map (fun p => [fst p; bit (snd p)]) (combine names vs) ++ [""]) d = Ret (d ++ combine names (map zbit vs))%list.
Proof.
  induction 1 as [|x names NI ND IH]; intros vs d D E; destruct vs as [|b vs]; try discriminate E; [cbn; now rewrite app_nil_r|].
  cbn [combine flat_map app map readValues fst snd]. replace (pyInt (bit b)) with (Some (zbit b)) by now destruct b. rewrite put_new by (apply D; now left). rewrite IH.
  - now rewrite <- app_assoc.
  - intros y I. rewrite map_app, in_app_iff. cbn. intros [J|[J|[]]]; [now apply (D y (or_intror I))|]. subst y. contradiction.
  - now injection E.
Qed.
Lemma readFirst_line names v : names <> [] -> NoDup names -> Forall (fun x => allChars clean x = true) names -> length (n_vals v) = length names ->
  readFirst (n_num v) (line1 names v) = Ret (dictOf names v).
Proof.
  intros N ND F E. unfold readFirst, line1.
  assert (SP : split1 ("State " ++ showNat (n_num v) ++ " with rank " ++ showNat (n_rank v) ++ " -> <" ++ labelOf names v ++ ">")
    = (["State"; showNat (n_num v); "with"; "rank"; showNat (n_rank v); ""; ""] ++ flat_map (fun p => [fst p; bit (snd p)]) (combine names (n_vals v)) ++ [""])%list).
  { change ("State " ++ ?s) with ("State" ++ String " " s). rewrite split1_word by reflexivity. rewrite split1_blank by apply showNat_not_minus. rewrite onHeads_nil. rewrite split1_word by apply showNat_clean.
    change (" with rank " ++ ?s) with (String " " ("with" ++ String " " ("rank" ++ String " " s))). rewrite split1_blank by reflexivity. rewrite onHeads_nil. rewrite split1_word by reflexivity. rewrite split1_blank by reflexivity. rewrite onHeads_nil.
    rewrite split1_word by reflexivity. rewrite split1_blank by apply showNat_not_minus. rewrite onHeads_nil. rewrite split1_word by apply showNat_clean.
    match goal with |- context [split1 (" -> <" ++ ?s)] => change (split1 (" -> <" ++ s)) with ("" :: "" :: "" :: split1 s) end. rewrite onHeads_nil. unfold labelOf. rewrite split1_items; [reflexivity| |].
    - destruct names, (n_vals v); try discriminate; contradiction.
    - apply items_ok. intros x b I. now apply (proj1 (Forall_forall _ _) F). }
  rewrite SP. cbn [app]. rewrite !String.eqb_refl. cbn [andb]. rewrite readValues_items; auto.
Qed.
Lemma split2_word w s : allChars isDigit w = true -> split2 false (w ++ s) = onHeads w (split2 false s).
Proof.
  induction w as [|a w IH]; cbn [allChars append onHeads]; [reflexivity|]. rewrite andb_true_iff. intros [H1 H2]. rewrite <- IH by exact H2. destruct a as [[] [] [] [] [] [] [] []]; solve [discriminate H1|reflexivity].
Qed.
Lemma split2_numbers ns : ns <> [] -> split2 false (String.concat ", " (map showNat ns)) = map showNat ns.
Proof.
  induction ns as [|n ns IH]; intros N; [now elim N|]. assert (D : allChars isDigit (showNat n) = true) by apply (digits_name _ (digits_string (Nat.to_uint n))). destruct ns as [|m ns].
  - cbn [map String.concat]. rewrite <- (sapp_nil (showNat n)) at 1. rewrite split2_word by exact D. apply onHeads_nil.
  - change (String.concat ", " (map showNat (n :: m :: ns))) with (showNat n ++ ", " ++ String.concat ", " (map showNat (m :: ns))). rewrite split2_word by exact D.
    match goal with |- context [split2 false (", " ++ ?s)] => change (split2 false (", " ++ s)) with ("" :: split2 false s) end. rewrite onHeads_nil, IH by discriminate. reflexivity.
Qed.
Lemma pyInt_showNat n : pyInt (showNat n) = Some (Z.of_nat n).
Proof. destruct (showNat_number n) as [H _]. rewrite (pyInt_digits _ _ H). now rewrite nat_N_Z. Qed.
Lemma readNumbers_show ns : readNumbers (map showNat ns) = Ret ns.
Proof.
  induction ns as [|n ns IH]; [reflexivity|]. cbn [map readNumbers]. rewrite pyInt_showNat. destruct (Z.ltb_spec (Z.of_nat n) 0); [lia|]. rewrite IH. cbn [pybind]. now rewrite Nat2Z.id.
Qed.
Lemma trim_line2 v : trim (line2 v ++ newline) = match n_succ v with [] => "With successors :" | _ => "With successors : " ++ String.concat ", " (map showNat (n_succ v)) end.
Proof.
  rewrite trim_spec. unfold newline. rewrite strip_end by reflexivity. unfold line2. rewrite strip_ws by reflexivity. destruct (n_succ v) as [|n l] eqn:En; [reflexivity|]. rewrite <- En.
  assert (W : endsWell ("With successors : " ++ String.concat ", " (map showNat (n_succ v)))).
  { apply endsWell_app, endsWell_concat; [rewrite En; discriminate|]. apply Forall_map, Forall_forall. intros m _. apply endsWell_noWs; [apply showNat_nonempty|apply showNat_noWs]. }
  destruct W as (p & b & Ep & W). rewrite Ep. apply strip_solid; [|exact W]. destruct p as [|a p]; [exact I|]. cbn [append] in Ep. now injection Ep as <- _.
Qed.
Lemma readSecond_line v : readSecond (trim (line2 v ++ newline)) = Ret (n_succ v).
Proof.
  rewrite trim_line2. unfold readSecond. destruct (n_succ v) as [|n l] eqn:En; [reflexivity|]. rewrite <- En.
  match goal with |- context [split2 false ("With successors : " ++ ?s)] => change (split2 false ("With successors : " ++ s)) with ("With successors" :: split2 false s) end.
  replace (String.prefix "With successors" "With successors") with true by reflexivity. rewrite split2_numbers by (rewrite En; discriminate). apply readNumbers_show.
Qed.
Lemma trim_line1 names v : trim (line1 names v ++ newline) = line1 names v.
Proof.
  rewrite trim_spec. unfold newline. rewrite strip_end by reflexivity. unfold line1.
  replace ("State " ++ showNat (n_num v) ++ " with rank " ++ showNat (n_rank v) ++ " -> <" ++ labelOf names v ++ ">") with (("State " ++ showNat (n_num v) ++ " with rank " ++ showNat (n_rank v) ++ " -> <" ++ labelOf names v) ++ ">")
    by (repeat (cbn [append]; rewrite ?sapp_assoc'); reflexivity).
  now apply strip_solid.
Qed.
Definition stsOf (names : list string) (A : list node) : autStates := map (fun v => (dictOf names v, n_succ v)) A.
Lemma clean_lacks c x : clean c = false -> allChars clean x = true -> lacks c x.
Proof. intros C. apply allChars_impl. intros a Ha. destruct (Ascii.eqb_spec a c) as [->|]; [congruence|reflexivity]. Qed.
Theorem readAut_text names : names <> [] -> NoDup names -> Forall (fun x => allChars clean x = true /\ lacks "010" x) names -> forall (A : list (node * bool)) k,
  Forall (fun e => length (n_vals (fst e)) = length names) A -> map n_num (map fst A) = seq k (length A) ->
  readAut k (readlinesKeep (sconcat (map (textNode names) A))) = Ret (stsOf names (map fst A)).
Proof.
  intros N ND F. induction A as [|e A IH]; intros k FL E; [reflexivity|]. inversion FL; subst. cbn [map length seq] in E. injection E as E1 E2. subst k. cbn [map stsOf]. rewrite sconcat_cons, textNode_lines. rewrite !sapp_assoc'.
  rewrite readlines_line.
  2: { unfold line1. repeat (apply lacks_app; [first [reflexivity|now apply showNat_lacks|idtac]|]); [|reflexivity].
       apply label_lacks; [apply (Forall_impl _ (P := fun x => allChars clean x = true /\ lacks "010" x)); [tauto|exact F]|cbn; intuition discriminate|reflexivity]. }
  rewrite readlines_line.
  2: { unfold line2. change (String "009" ("With successors : " ++ ?x)) with (String "009" "With successors : " ++ x). apply lacks_app; [reflexivity|]. apply lacks_concat; try reflexivity; try discriminate.
       apply Forall_map, Forall_forall. intros m _. now apply showNat_lacks. }
  cbn [readAut]. rewrite trim_line1. replace (String.eqb (line1 names (fst e)) "") with false by reflexivity. rewrite readFirst_line; auto.
  - cbn [pybind]. rewrite readSecond_line. cbn [pybind]. rewrite IH by assumption. reflexivity.
  - apply (Forall_impl _ (P := fun x => allChars clean x = true /\ lacks "010" x)); [tauto|exact F].
Qed.
