(** * The rendered texts follow their formats *)

From Coq Require Import String Ascii List Bool Arith NArith Lia.
From Coq Require Import Decimal DecimalFacts DecimalNat DecimalString.
From Verif Require Import FormulaSpec FileSpec Spec VarTypes Synth AutSpec OutputSpec Explicit ExplicitProofs.
Import ListNotations.
Open Scope string_scope.

Lemma sapp_assoc a b c : ((a ++ b) ++ c = a ++ (b ++ c))%string.
Proof. induction a as [|x a IH]; cbn; auto. now rewrite IH. Qed.
Lemma sapp_nil a : (a ++ "" = a)%string.
Proof. induction a as [|x a IH]; cbn; auto. now rewrite IH. Qed.

Lemma sconcat_cons a l : sconcat (a :: l) = a ++ sconcat l.
Proof. unfold sconcat. destruct l; cbn; [now rewrite sapp_nil|reflexivity]. Qed.
Lemma sconcat_nil : sconcat [] = "".
Proof. reflexivity. Qed.

Ltac snorm := rewrite ?sconcat_cons, ?sconcat_nil; rewrite ?sapp_nil; repeat rewrite sapp_assoc; cbn [append].

(** ** Numbers *)
Lemma digits_string d : allDigits (NilEmpty.string_of_uint d) = true.
Proof. induction d; cbn; auto. Qed.

Lemma decimal_string d : forall acc,
  decimal (N.of_nat acc) (NilEmpty.string_of_uint d) = N.of_nat (Nat.of_uint_acc d acc).
Proof.
  induction d; intros acc; [reflexivity|..]; cbn [NilEmpty.string_of_uint decimal Nat.of_uint_acc];
    rewrite <- IHd; f_equal; rewrite Nat.tail_mul_spec;
    match goal with |- context[digitVal ?a] => let v := eval vm_compute in (digitVal a) in change (digitVal a) with v end; lia.
Qed.

Lemma nzhead_not0 d d' : nzhead d <> D0 d'.
Proof. induction d; cbn; auto; discriminate. Qed.

Lemma to_uint_norm n : Nat.to_uint n = unorm (Nat.to_uint n).
Proof. rewrite <- Unsigned.to_of. now rewrite Unsigned.of_to. Qed.

Lemma showNat_number n : number n (showNat n).
Proof.
  unfold showNat. split; [split; [|split]|].
  - rewrite to_uint_norm. unfold unorm. destruct (nzhead (Nat.to_uint n)); cbn; discriminate.
  - apply digits_string.
  - change 0%N with (N.of_nat 0). rewrite decimal_string. f_equal. apply Unsigned.of_to.
  - intros w' E. rewrite to_uint_norm in E. unfold unorm in E.
    destruct (nzhead (Nat.to_uint n)) eqn:En; cbn in E; try discriminate.
    + now injection E as <-.
    + now apply nzhead_not0 in En.
Qed.

Lemma showNat_inj n m : showNat n = showNat m -> n = m.
Proof.
  intros E. destruct (showNat_number n) as [(_ & _ & H) _]. destruct (showNat_number m) as [(_ & _ & H') _].
  rewrite E in H. rewrite H in H'. lia.
Qed.

Lemma number_unique n w w' : number n w -> number n w' -> w = w'.
Proof.
  intros [(N1 & N2 & N3) N4] [(M1 & M2 & M3) M4].
  (* both equal the canonical representation *)
  assert (G : forall w, w <> "" -> allDigits w = true -> exists d, d <> Nil /\ NilEmpty.string_of_uint d = w).
  { clear. intros w. induction w as [|a w IH]; intros H HD; [congruence|]. cbn in HD. apply andb_true_iff in HD.
    destruct HD as [Ha HD].
    assert (X : exists d, NilEmpty.string_of_uint d = w).
    { destruct w as [|b w]; [now exists Nil|]. destruct IH as (d & _ & E); auto; [discriminate|eauto]. }
    destruct X as (d & Ed).
    assert (Y : exists n, n < 10 /\ a = ascii_of_nat (48 + n)).
    { unfold isDigit in Ha. apply andb_true_iff in Ha. destruct Ha as [A1 A2].
      apply Nat.leb_le in A1. apply Nat.leb_le in A2. exists (nat_of_ascii a - 48). split; [lia|].
      rewrite <- (ascii_nat_embedding a) at 1. f_equal. lia. }
    destruct Y as (n & Hn & ->).
    do 10 (destruct n as [|n]; [match goal with |- context[ascii_of_nat (48 + ?k)] =>
      let r := eval cbv in k in
      lazymatch r with
      | 0 => exists (D0 d) | 1 => exists (D1 d) | 2 => exists (D2 d) | 3 => exists (D3 d) | 4 => exists (D4 d)
      | 5 => exists (D5 d) | 6 => exists (D6 d) | 7 => exists (D7 d) | 8 => exists (D8 d) | 9 => exists (D9 d)
      end end; split; [discriminate|]; cbn; now rewrite Ed|]). lia. }
  destruct (G w N1 N2) as (d & Hd & <-). destruct (G w' M1 M2) as (d' & Hd' & <-).
  assert (U : forall d, d <> Nil -> (forall x, NilEmpty.string_of_uint d = String "0" x -> x = "") -> unorm d = d).
  { clear. intros d Hd H. destruct d; try reflexivity; [congruence|].
    cbn in H. specialize (H _ eq_refl). destruct d; try discriminate. reflexivity. }
  rewrite <- (U d Hd N4), <- (U d' Hd' M4). f_equal. apply Unsigned.of_iff.
  change 0%N with (N.of_nat 0) in N3, M3. rewrite decimal_string in N3, M3. unfold Nat.of_uint. lia.
Qed.

(** ** JSON *)
Lemma number_text n : jsonText (JNum n) (showNat n).
Proof. constructor. apply showNat_number. Qed.

Lemma bit_text b : jsonText (jsonBit b) (bit b).
Proof.
  destruct b; constructor.
  - change "1" with (showNat 1). apply showNat_number.
  - change "0" with (showNat 0). apply showNat_number.
Qed.

Lemma concat_cons2 s a b l : String.concat s (a :: b :: l) = a ++ s ++ String.concat s (b :: l).
Proof. reflexivity. Qed.

Lemma elems_concat {A} (J : A -> json) (T : A -> string) l : (forall x, In x l -> jsonText (J x) (T x)) ->
  l <> [] -> forall b, blank b = true -> jsonElems (map J l) (b ++ String.concat ", " (map T l)).
Proof.
  intros H. induction l as [|x l IH]; intros Hne b Hb; [congruence|]. destruct l as [|y l].
  - cbn. rewrite <- (sapp_nil (T x)). apply je_one; auto. apply H. now left.
  - cbn [map]. rewrite concat_cons2.
    replace (b ++ T x ++ ", " ++ String.concat ", " (T y :: map T l))
      with (b ++ T x ++ "" ++ "," ++ (" " ++ String.concat ", " (map T (y :: l)))) by (snorm; reflexivity).
    apply je_more; auto.
    + apply H. now left.
    + apply IH; [|discriminate|reflexivity]. intros z Hz. apply H. now right.
Qed.

Lemma array_text {A} (J : A -> json) (T : A -> string) l : (forall x, In x l -> jsonText (J x) (T x)) ->
  jsonText (JArr (map J l)) ("[" ++ String.concat ", " (map T l) ++ "]").
Proof.
  intros H. destruct l as [|x l].
  - apply (jt_arr0 ""). reflexivity.
  - apply jt_arr. apply (elems_concat J T (x :: l) H) with (b := ""); [discriminate|reflexivity].
Qed.

Lemma quoted s : plainString s = true -> jsonString s (quote ++ s ++ quote).
Proof. split; auto. Qed.

Definition memberOf (v : node) : string * json := (showNat (n_num v), jsonNodeOf v).

Lemma digit_plain a : isDigit a = true -> plainChar a = true.
Proof.
  unfold isDigit, plainChar. rewrite andb_true_iff, !Nat.leb_le. intros [H1 H2].
  rewrite !andb_true_iff, !negb_true_iff, !Nat.eqb_neq, Nat.leb_le. lia.
Qed.

Lemma digits_plain s : allDigits s = true -> plainString s = true.
Proof.
  induction s as [|a s IH]; cbn; auto. rewrite !andb_true_iff. intros [H1 H2]. auto using digit_plain.
Qed.

Lemma nodeObj_text v : jsonText (jsonNodeOf v)
  ("{" ++ (nl ++ tab ++ quote ++ "rank" ++ quote ++ ": " ++ showNat (n_rank v) ++ "," ++ nl ++ tab ++ quote ++
   "state" ++ quote ++ ": " ++ "[" ++ String.concat ", " (map bit (n_vals v)) ++ "]" ++ "," ++ nl ++ tab ++ quote ++
   "trans" ++ quote ++ ": " ++ "[" ++ String.concat ", " (map showNat (n_succ v)) ++ "]" ++ nl) ++ "}").
Proof.
  apply jt_obj.
  - set (ta := ("[" ++ String.concat ", " (map bit (n_vals v)) ++ "]")%string).
    set (tb := ("[" ++ String.concat ", " (map showNat (n_succ v)) ++ "]")%string).
    match goal with |- jsonMembers ?l _ => cut (jsonMembers l
      ((nl ++ tab) ++ (dq ++ "rank" ++ dq) ++ "" ++ ":" ++ " " ++ showNat (n_rank v) ++ "" ++ "," ++
       ((nl ++ tab) ++ (dq ++ "state" ++ dq) ++ "" ++ ":" ++ " " ++ ta ++ "" ++ "," ++
        ((nl ++ tab) ++ (dq ++ "trans" ++ dq) ++ "" ++ ":" ++ " " ++ tb ++ nl)))) end.
    { unfold ta, tb, nl, tab, quote, dq. snorm. auto. }
    apply jm_more; try reflexivity; [split; reflexivity|apply number_text|].
    apply jm_more; try reflexivity; [split; reflexivity|unfold ta; apply array_text; intros; apply bit_text|].
    apply jm_one; try reflexivity; [split; reflexivity|unfold tb; apply array_text; intros; apply number_text].
  - cbn. repeat constructor; cbn; intuition discriminate.
Qed.

Lemma members_text out : flagged out -> out <> [] -> forall b, blank b = true ->
  jsonMembers (map memberOf (map fst out)) (b ++ sconcat (map jsonNode out)).
Proof.
  induction out as [|[v f] out IH]; intros HF Hne b Hb; [congruence|].
  assert (HK : jsonString (showNat (n_num v)) (dq ++ showNat (n_num v) ++ dq)).
  { split; auto. apply digits_plain. apply digits_string. }
  destruct out as [|e out].
  - cbn in HF. subst f. cbn [map fst]. unfold memberOf.
    replace (b ++ sconcat [jsonNode (v, false)]) with
      (b ++ (dq ++ showNat (n_num v) ++ dq) ++ "" ++ ":" ++ " " ++
       ("{" ++ (nl ++ tab ++ quote ++ "rank" ++ quote ++ ": " ++ showNat (n_rank v) ++ "," ++ nl ++ tab ++ quote ++
   "state" ++ quote ++ ": " ++ "[" ++ String.concat ", " (map bit (n_vals v)) ++ "]" ++ "," ++ nl ++ tab ++ quote ++
   "trans" ++ quote ++ ": " ++ "[" ++ String.concat ", " (map showNat (n_succ v)) ++ "]" ++ nl) ++ "}") ++ (nl ++ nl)).
    2:{ unfold jsonNode. cbn [fst snd]. unfold nl, tab, quote, dq. snorm. reflexivity. }
    apply jm_one; auto. apply nodeObj_text.
  - destruct HF as [-> HF].
    change (map memberOf (map fst ((v, true) :: e :: out)))
      with ((showNat (n_num v), jsonNodeOf v) :: map memberOf (map fst (e :: out))).
    change (map jsonNode ((v, true) :: e :: out)) with (jsonNode (v, true) :: map jsonNode (e :: out)).
    replace (b ++ sconcat (jsonNode (v, true) :: map jsonNode (e :: out))) with
      (b ++ (dq ++ showNat (n_num v) ++ dq) ++ "" ++ ":" ++ " " ++
       ("{" ++ (nl ++ tab ++ quote ++ "rank" ++ quote ++ ": " ++ showNat (n_rank v) ++ "," ++ nl ++ tab ++ quote ++
   "state" ++ quote ++ ": " ++ "[" ++ String.concat ", " (map bit (n_vals v)) ++ "]" ++ "," ++ nl ++ tab ++ quote ++
   "trans" ++ quote ++ ": " ++ "[" ++ String.concat ", " (map showNat (n_succ v)) ++ "]" ++ nl) ++ "}") ++ "" ++ "," ++
       ((nl ++ nl) ++ sconcat (map jsonNode (e :: out)))).
    2:{ rewrite (sconcat_cons (jsonNode (v, true))). set (rest := sconcat (map jsonNode (e :: out))).
        unfold jsonNode. cbn [fst snd]. unfold nl, tab, quote, dq. snorm. reflexivity. }
    apply jm_more; auto; [apply nodeObj_text|]. apply IH; auto. discriminate.
Qed.

Lemma render_json c out : flagged out -> NoDup (map n_num (map fst out)) ->
  Forall (fun n => plainString n = true) (printedNames c) ->
  exists doc, jsonAutomaton (printedNames c) (map fst out) doc /\ jsonDocument doc (render true c out).
Proof.
  intros HF HN HP.
  exists (JObj [("version", JNum 0); ("slugs", JStr "0.0.1"); ("variables", JArr (map JStr (printedNames c)));
                ("nodes", JObj (map memberOf (map fst out)))]). split.
  - exists (map (fun v => showNat (n_num v)) (map fst out)). split.
    + clear. induction (map fst out); cbn; constructor; auto. apply showNat_number.
    + assert (E : combine (map (fun v => showNat (n_num v)) (map fst out)) (map jsonNodeOf (map fst out))
                  = map memberOf (map fst out)) by (clear; induction (map fst out) as [|v A IH]; [reflexivity|]; cbn [map combine]; now rewrite IH).
      now rewrite E.
  - set (names := printedNames c) in *.
    set (tv := ("[" ++ String.concat ", " (map (fun n => quote ++ n ++ quote) names) ++ "]")%string).
    set (tn := ("{" ++ (nl ++ sconcat (map jsonNode out)) ++ "}")%string).
    exists "", ("{" ++ ("" ++ (dq ++ "version" ++ dq) ++ "" ++ ":" ++ " " ++ "0" ++ "" ++ "," ++
       ((nl ++ " ") ++ (dq ++ "slugs" ++ dq) ++ "" ++ ":" ++ " " ++ (dq ++ "0.0.1" ++ dq) ++ "" ++ "," ++
       ((nl ++ nl ++ " ") ++ (dq ++ "variables" ++ dq) ++ "" ++ ":" ++ " " ++ tv ++ "" ++ "," ++
       ((nl ++ nl ++ " ") ++ (dq ++ "nodes" ++ dq) ++ "" ++ ":" ++ " " ++ tn ++ "")))) ++ "}"), nl.
    split; [reflexivity|]. split; [|split; [reflexivity|]].
    + apply jt_obj; [|cbn; repeat constructor; cbn; intuition discriminate].
      apply jm_more; try reflexivity; [split; reflexivity| |].
      { change "0" with (showNat 0). apply number_text. }
      apply jm_more; try reflexivity; [split; reflexivity|constructor; split; reflexivity|].
      apply jm_more; try reflexivity; [split; reflexivity| |].
      { unfold tv. apply array_text. intros n Hn. constructor. apply quoted. rewrite Forall_forall in HP. auto. }
      apply jm_one; try reflexivity; [split; reflexivity|]. unfold tn.
      destruct out as [|e out].
      * apply (jt_obj0 nl). reflexivity.
      * apply jt_obj.
        -- apply members_text; auto. discriminate.
        -- rewrite map_map. unfold memberOf. cbn [fst]. clear -HN. induction (map fst (e :: out)) as [|v A IH]; [constructor|].
           cbn in *. inversion HN; subst. constructor; auto. intros Hin. apply in_map_iff in Hin.
           destruct Hin as (u & E & Hin). apply H1. apply showNat_inj in E. rewrite <- E. now apply in_map.
    + unfold render, jsonHeader, jsonFooter. fold names. unfold tv, tn.
      assert (E : map (fun n : string => sconcat [quote; n; quote]) names = map (fun n => quote ++ n ++ quote) names).
      { apply map_ext. intros n. snorm. reflexivity. }
      rewrite E. set (vs := String.concat ", " (map (fun n => quote ++ n ++ quote) names)).
      set (ns := sconcat (map jsonNode out)). unfold nl, quote, dq. snorm. reflexivity.
Qed.

(** ** Plain text *)
Lemma separated_concat l : separated l (String.concat ", " l).
Proof.
  induction l as [|s l IH]; [constructor|]. destruct l as [|s' l]; [constructor|].
  rewrite concat_cons2. now constructor.
Qed.

Lemma pieces_line l : (forall a, In a (list_ascii_of_string l) -> a <> "010"%char) ->
  forall s, pieces (l ++ nl ++ s) = l :: pieces s.
Proof.
  induction l as [|a l IH]; intros H s.
  - reflexivity.
  - cbn [append pieces]. destruct (Ascii.eqb_spec a "010"%char) as [E|_].
    + elim (H a); auto. now left.
    + change (match pieces (l ++ nl ++ s) with p :: ps => String a p :: ps | [] => [] end = String a l :: pieces s).
      rewrite IH; auto. intros b Hb. apply H. now right.
Qed.

Lemma pieces_ne s : pieces s <> [].
Proof. induction s as [|a s IH]; cbn; [discriminate|]. destruct (_ =? _)%char; [discriminate|]. destruct (pieces s); congruence. Qed.

Lemma file_lines_line l s : (forall a, In a (list_ascii_of_string l) -> a <> "010"%char) ->
  file_lines (l ++ nl ++ s) = l :: file_lines s.
Proof.
  intros H. unfold file_lines. rewrite pieces_line by auto.
  pose proof (pieces_ne s). destruct (pieces s) as [|p ps] eqn:E; [congruence|].
  change (last (l :: p :: ps) "") with (last (p :: ps) "").
  change (removelast (l :: p :: ps)) with (l :: removelast (p :: ps)).
  now destruct (String.eqb (last (p :: ps) "") "").
Qed.

Lemma list_ascii_app a b : list_ascii_of_string (a ++ b) = (list_ascii_of_string a ++ list_ascii_of_string b)%list.
Proof. induction a as [|x a IH]; cbn; auto. now rewrite IH. Qed.

Definition noNl (s : string) : Prop := forall a, In a (list_ascii_of_string s) -> a <> "010"%char.

Lemma noNl_app a b : noNl a -> noNl b -> noNl (a ++ b).
Proof. intros H H' x Hx. rewrite list_ascii_app in Hx. apply in_app_iff in Hx. destruct Hx; auto. Qed.

Lemma noNl_digits s : allDigits s = true -> noNl s.
Proof.
  induction s as [|a s IH]; cbn; intros H x []; subst.
  - apply andb_true_iff in H. destruct H as [H _]. intros ->. discriminate.
  - apply andb_true_iff in H. destruct H as [_ H]. apply IH; auto.
Qed.

Lemma noNl_show n : noNl (showNat n).
Proof. apply noNl_digits. apply digits_string. Qed.

Lemma noNl_concat l : Forall noNl l -> noNl (String.concat ", " l).
Proof.
  intros H. induction H as [|s l Hs H IH]; [intros a []|]. destruct l as [|s' l]; [exact Hs|].
  rewrite concat_cons2. repeat apply noNl_app; auto.
  intros a [<-|[<-|[]]]; discriminate.
Qed.

Lemma noNl_lit s : forallb (fun a => negb (a =? "010")%char) (list_ascii_of_string s) = true -> noNl s.
Proof.
  intros H a Ha. rewrite forallb_forall in H. specialize (H a Ha). now apply negb_true_iff, Ascii.eqb_neq in H.
Qed.

Lemma render_text c out : Forall noNl (printedNames c) ->
  textLines (printedNames c) (map fst out) (file_lines (render false c out)).
Proof.
  intros HN. unfold render. induction out as [|[v f] out IH]; [constructor|].
  cbn [map fst]. rewrite sconcat_cons.
  set (rest := sconcat (map (textNode (printedNames c)) out)) in *.
  unfold textNode. cbn [fst].
  set (vs := String.concat ", " (map (fun p => sconcat [fst p; ":"; bit (snd p)]) (combine (printedNames c) (n_vals v)))).
  set (ss := String.concat ", " (map showNat (n_succ v))).
  set (l1 := ("State " ++ showNat (n_num v) ++ " with rank " ++ showNat (n_rank v) ++ " -> <" ++ vs ++ ">")%string).
  set (l2 := (String "009" ("With successors : " ++ ss))%string).
  assert (V : Forall noNl (map (fun p => sconcat [fst p; ":"; bit (snd p)]) (combine (printedNames c) (n_vals v)))).
  { apply Forall_forall. intros x Hx. apply in_map_iff in Hx. destruct Hx as ([n b] & <- & Hx).
    apply in_combine_l in Hx. rewrite Forall_forall in HN. cbn [fst snd].
    rewrite !sconcat_cons. repeat apply noNl_app; auto.
    - now apply noNl_lit.
    - destruct b; now apply noNl_lit.
    - intros a []. }
  assert (S : Forall noNl (map showNat (n_succ v))).
  { apply Forall_forall. intros x Hx. apply in_map_iff in Hx. destruct Hx as (n & <- & _). apply noNl_show. }
  match goal with |- textLines _ _ (file_lines ?t) => replace t with (l1 ++ nl ++ (l2 ++ nl ++ rest))%string end.
  2:{ unfold l1, l2, nl, tab. snorm. reflexivity. }
  rewrite !file_lines_line.
  - constructor; auto.
    + exists (showNat (n_num v)), (showNat (n_rank v)), vs. repeat split; try apply showNat_number.
      replace (map (fun p : string * bool => (fst p ++ ":" ++ (if snd p then "1" else "0"))%string) (combine (printedNames c) (n_vals v)))
        with (map (fun p => sconcat [fst p; ":"; bit (snd p)]) (combine (printedNames c) (n_vals v))).
      * apply separated_concat.
      * apply map_ext. intros [n b]. cbn [fst snd]. snorm. unfold bit. now destruct b.
    + exists (map showNat (n_succ v)), ss. split; [|split; [apply separated_concat|reflexivity]].
      clear. induction (n_succ v); constructor; auto. apply showNat_number.
  - unfold l2. change (noNl (String "009" "With successors : " ++ ss)). apply noNl_app; [now apply noNl_lit|].
    unfold ss. now apply noNl_concat.
  - change (noNl l1). unfold l1.
    repeat apply noNl_app; auto using noNl_show; try now apply noNl_lit. unfold vs. now apply noNl_concat.
Qed.

(** ** Quotation marks in JSON texts *)
Fixpoint oddQuotes (s : string) : bool :=
  match s with EmptyString => false | String a s => xorb (a =? "034")%char (oddQuotes s) end.

Lemma oddQuotes_app a b : oddQuotes (a ++ b) = xorb (oddQuotes a) (oddQuotes b).
Proof. induction a as [|x a IH]; cbn; [now destruct (oddQuotes b)|]. now rewrite IH, xorb_assoc. Qed.

Lemma oddQuotes_digits s : allDigits s = true -> oddQuotes s = false.
Proof.
  induction s as [|a s IH]; cbn; auto. rewrite andb_true_iff. intros [Ha Hs]. rewrite (IH Hs).
  destruct (Ascii.eqb_spec a "034"%char) as [->|_]; [discriminate|reflexivity].
Qed.

Lemma oddQuotes_blank s : blank s = true -> oddQuotes s = false.
Proof.
  induction s as [|a s IH]; cbn; auto. rewrite andb_true_iff. intros [Ha Hs]. rewrite (IH Hs).
  destruct (Ascii.eqb_spec a "034"%char) as [->|_]; [discriminate|reflexivity].
Qed.

Lemma oddQuotes_plain s : plainString s = true -> oddQuotes s = false.
Proof.
  induction s as [|a s IH]; cbn; auto. rewrite andb_true_iff. intros [Ha Hs]. rewrite (IH Hs).
  destruct (Ascii.eqb_spec a "034"%char) as [->|_]; [discriminate|reflexivity].
Qed.

Lemma oddQuotes_string s t : jsonString s t -> oddQuotes t = false.
Proof.
  intros [H ->]. rewrite !oddQuotes_app, (oddQuotes_plain s H). reflexivity.
Qed.

Scheme jsonText_mut := Induction for jsonText Sort Prop
  with jsonElems_mut := Induction for jsonElems Sort Prop
  with jsonMembers_mut := Induction for jsonMembers Sort Prop.

Lemma oddQuotes_json v t : jsonText v t -> oddQuotes t = false.
Proof.
  intros H.
  apply (jsonText_mut (fun _ t _ => oddQuotes t = false) (fun _ t _ => oddQuotes t = false)
           (fun _ t _ => oddQuotes t = false)) with (j := v); auto; clear;
    intros; rewrite ?oddQuotes_app;
    repeat match goal with
    | [ H : blank ?b = true |- _ ] => rewrite (oddQuotes_blank b H) in *; clear H
    | [ H : jsonString _ ?b |- _ ] => rewrite (oddQuotes_string _ b H) in *; clear H
    | [ H : oddQuotes ?b = false |- _ ] => rewrite H in *; clear H
    end; auto.
  destruct n0 as [(_ & H & _) _]. now apply oddQuotes_digits.
Qed.

Lemma oddQuotes_document v t : jsonDocument v t -> oddQuotes t = false.
Proof.
  intros (b & t' & b' & H1 & H2 & H3 & ->).
  now rewrite !oddQuotes_app, (oddQuotes_blank b H1), (oddQuotes_blank b' H3), (oddQuotes_json v t' H2).
Qed.
