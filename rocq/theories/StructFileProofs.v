(** * Proofs: reading structured slugs files and their declarations *)

From Coq Require Import String Ascii List Bool Arith NArith ZArith Lia.
From Verif Require Import FormulaSpec Parser Spec FileSpec ParserProofs FileProofs OutputProofs SymbolicProofs MinCoreProofs
  StructuredSpec Structured StructuredProofs StructuredTrans StructuredAccept StructGrammar StructParse StructReadProofs StructFileSpec StructFile StructGameProofs.
Import ListNotations.
Local Open Scope list_scope.

(** ** Strings *)

Definition content (l : string) : bool := negb (String.eqb l "" || firstIs "#" l).
Definition tidy (l : string) : Prop := strip l = l /\ firstIs "[" l = false /\ noNl l.

Lemma hasChar_spec c s : hasChar c s = true <-> occursIn c s.
Proof.
  unfold hasChar, occursIn. rewrite existsb_exists. split.
  - intros (x & H & E). apply Ascii.eqb_eq in E. now subst.
  - intros H. exists c. split; auto. apply Ascii.eqb_refl.
Qed.
Lemma las_app a b : list_ascii_of_string (a ++ b) = list_ascii_of_string a ++ list_ascii_of_string b.
Proof. induction a as [|x a IH]; [reflexivity|]. cbn. now rewrite IH. Qed.
Lemma occurs_app c a b : occursIn c (a ++ b) <-> occursIn c a \/ occursIn c b.
Proof. unfold occursIn. rewrite las_app. apply in_app_iff. Qed.

Lemma splitChar_ne c s : splitChar c s <> [].
Proof. induction s as [|a s IH]; cbn [splitChar]; [discriminate|]. destruct (Ascii.eqb a c); [discriminate|]. destruct (splitChar c s); congruence. Qed.
Lemma splitChar_one c s p : splitChar c s = [p] -> s = p /\ ~ occursIn c p.
Proof.
  revert p. induction s as [|a s IH]; intros p; cbn [splitChar].
  - intros E. injection E as <-. split; [auto|intros []].
  - destruct (Ascii.eqb a c) eqn:A; [intros E; injection E as <- E; now elim (splitChar_ne c s)|].
    destruct (splitChar c s) as [|q ps] eqn:S; [discriminate|]. intros E. injection E as <- ->.
    destruct (IH q eq_refl) as [-> N]. split; auto. intros [->|X]; [rewrite Ascii.eqb_refl in A; discriminate|]. now apply N.
Qed.
Lemma splitChar_two c s p q : splitChar c s = [p; q] -> s = (p ++ String c q)%string /\ ~ occursIn c p /\ ~ occursIn c q.
Proof.
  revert p. induction s as [|a s IH]; intros p; cbn [splitChar]; [discriminate|].
  destruct (Ascii.eqb_spec a c) as [->|A].
  - intros E. injection E as <- E. apply splitChar_one in E. destruct E as [-> N]. repeat split; auto.
  - destruct (splitChar c s) as [|r ps] eqn:S; [discriminate|]. intros E. injection E as <- ->.
    destruct (IH r eq_refl) as (-> & N & M). repeat split; auto. intros [X|X]; [congruence|now apply N].
Qed.
Lemma splitDots3_ne s : splitDots3 s <> [].
Proof.
  remember (String.length s) as n eqn:E. assert (L : String.length s <= n) by lia. clear E. revert s L.
  induction n as [|n IH]; intros s L; (destruct s as [|a s]; [discriminate|]); cbn [String.length] in L; [lia|].
  assert (G : match splitDots3 s with p :: ps => String a p :: ps | [] => [] end <> []) by (specialize (IH s ltac:(lia)); destruct (splitDots3 s); congruence).
  destruct s as [|b s]; [destruct a as [[] [] [] [] [] [] [] []]; discriminate|].
  destruct s as [|c s]; [destruct a as [[] [] [] [] [] [] [] []]; try exact G; destruct b as [[] [] [] [] [] [] [] []]; exact G|].
  destruct a as [[] [] [] [] [] [] [] []]; try exact G; destruct b as [[] [] [] [] [] [] [] []]; try exact G; destruct c as [[] [] [] [] [] [] [] []]; try exact G.
  discriminate.
Qed.
Lemma splitDots3_cons a s : splitDots3 (String a s) = match splitDots3 s with p :: ps => String a p :: ps | [] => [] end \/
  exists r, String a s = ("..." ++ r)%string /\ splitDots3 (String a s) = ""%string :: splitDots3 r.
Proof.
  destruct s as [|b s]; [left; destruct a as [[] [] [] [] [] [] [] []]; reflexivity|].
  destruct s as [|c s]; [left; destruct a as [[] [] [] [] [] [] [] []]; try reflexivity; destruct b as [[] [] [] [] [] [] [] []]; reflexivity|].
  destruct a as [[] [] [] [] [] [] [] []]; try (left; reflexivity); destruct b as [[] [] [] [] [] [] [] []]; try (left; reflexivity); destruct c as [[] [] [] [] [] [] [] []]; try (left; reflexivity).
  right. exists s. split; reflexivity.
Qed.
Lemma splitDots3_one s : forall p, splitDots3 s = [p] -> s = p.
Proof.
  induction s as [|a s IH]; intros p; [intros E; now injection E|].
  destruct (splitDots3_cons a s) as [->|(r & _ & ->)].
  - destruct (splitDots3 s) as [|q ps]; [discriminate|]. intros E. injection E as <- ->. now rewrite (IH q).
  - intros E. injection E as _ E. now elim (splitDots3_ne r).
Qed.
Lemma splitDots3_two s : forall p q, splitDots3 s = [p; q] -> s = (p ++ "..." ++ q)%string.
Proof.
  induction s as [|a s IH]; intros p q; [discriminate|].
  destruct (splitDots3_cons a s) as [->|(r & -> & ->)].
  - destruct (splitDots3 s) as [|p' ps]; [discriminate|]. intros E. injection E as <- ->. now rewrite (IH p' q).
  - intros E. injection E as <- E. apply splitDots3_one in E. now subst.
Qed.

(** ** Integers *)

Lemma wu_cons a s : withoutUnderscores (String a s) = if Ascii.eqb a "_" then withoutUnderscores s else String a (withoutUnderscores s).
Proof. unfold withoutUnderscores. cbn [list_ascii_of_string filter]. destruct (Ascii.eqb a "_"); reflexivity. Qed.
Lemma intDigits_spec s : forall b acc n, intDigits b acc s = Some n ->
  allDigits (withoutUnderscores s) = true /\ decimal acc (withoutUnderscores s) = n /\ (b = false -> withoutUnderscores s <> ""%string).
Proof.
  induction s as [|a s IH]; intros b acc n; cbn [intDigits].
  - destruct b; [|discriminate]. intros E. injection E as <-. repeat split; auto. discriminate.
  - rewrite wu_cons. destruct (isDigit a) eqn:D.
    + intros E. apply IH in E. destruct E as (E1 & E2 & _). destruct (Ascii.eqb_spec a "_") as [->|N]; [discriminate|]. cbn [allDigits decimal]. rewrite D, E1. repeat split; auto. discriminate.
    + destruct (Ascii.eqb a "_"); cbn [andb]; [|discriminate]. destruct b; [|discriminate]. intros E. apply IH in E. destruct E as (E1 & E2 & E3). repeat split; auto.
Qed.
Lemma intDigits_numeral s n : intDigits false 0 s = Some n -> numeral (withoutUnderscores s) n.
Proof. intros E. apply intDigits_spec in E. destruct E as (E1 & E2 & E3). repeat split; auto. Qed.
Lemma pyInt_spec s z : pyInt s = Some z -> integer s z.
Proof.
  unfold pyInt. rewrite trim_spec. unfold integer.
  assert (P : forall t, option_map Z.of_N (intDigits false 0 t) = Some z -> exists sign w n, t = (sign ++ w)%string /\ numeral (withoutUnderscores w) n /\
    ((sign = ""%string \/ sign = "+"%string) /\ z = Z.of_N n \/ sign = "-"%string /\ z = (- Z.of_N n)%Z)).
  { intros t E. destruct (intDigits false 0 t) as [n|] eqn:I; [|discriminate]. injection E as <-. exists ""%string, t, n. split; [reflexivity|]. split; [now apply intDigits_numeral|]. left. auto. }
  destruct (strip s) as [|a t]; [apply P|].
  destruct a as [[] [] [] [] [] [] [] []]; try apply P; cbv beta iota; destruct (intDigits false 0 t) as [n|] eqn:I; try discriminate; intros E; injection E as <-; apply intDigits_numeral in I.
  - exists "+"%string, t, n. split; [reflexivity|]. split; [exact I|]. left. auto.
  - exists "-"%string, t, n. split; [reflexivity|]. split; [exact I|]. right. auto.
Qed.

(** ** Sections *)

Definition keyLines (k : string) (L : items) : list string := map snd (filter (fun p => String.eqb (header (fst p)) k) L).
Lemma header_inj s s' : header s = header s' -> s = s'.
Proof. destruct s, s'; cbn; intros E; congruence || reflexivity. Qed.
Lemma keyLines_header s L : keyLines (header s) L = linesOf s L.
Proof.
  unfold keyLines, linesOf. f_equal. apply filter_ext. intros [s' l]. cbn [fst]. apply eq_iff_eq_true. rewrite String.eqb_eq, sec_eqb_eq. split; [apply header_inj|congruence].
Qed.
Lemma keyLines_cons k s l L : keyLines k ((s, l) :: L) = if String.eqb (header s) k then l :: keyLines k L else keyLines k L.
Proof. unfold keyLines. cbn [filter fst]. destruct (String.eqb (header s) k); reflexivity. Qed.
Lemma header_key s : existsb (String.eqb (header s)) sectionKeys = true.
Proof. destruct s; reflexivity. Qed.
Lemma strip_noNl l : noNl l -> noNl (strip l).
Proof. apply noNl_strip. Qed.

Lemma firstIs_cons c a r : firstIs c (String a r) = (a =? c)%char.
Proof. reflexivity. Qed.
Lemma read_spec' : forall ls cur d L, Forall noNl ls -> layout cur ls = Some L ->
  exists d' add, readSections (nameOf cur) d ls = Ret d' /\ (forall k, d' k = d k ++ add k) /\ (forall k, Forall tidy (add k)) /\
    (forall k, filter content (add k) = keyLines k L) /\ (forall k, ~ In k (map header sections) -> add k = []).
Proof.
  induction ls as [|l ls IH]; intros cur d L N; cbn [layout readSections].
  - intros E. injection E as <-. exists d, (fun _ => []). repeat split; auto. intros k. now rewrite app_nil_r.
  - inversion N as [|? ? N1 N2]; subst. rewrite trim_spec.
    assert (PUSH : forall s L1, firstIs "[" (strip l) = false -> layout (Some s) ls = Some L1 ->
      exists d' add, readSections (header s) (pushLine d (header s) (strip l)) ls = Ret d' /\ (forall k, d' k = d k ++ add k) /\ (forall k, Forall tidy (add k)) /\
      (forall k, filter content (add k) = if String.eqb k (header s) then (if content (strip l) then [strip l] else []) ++ keyLines k L1 else keyLines k L1) /\ (forall k, ~ In k (map header sections) -> add k = [])).
    { intros s L1 F E. destruct (IH (Some s) (pushLine d (header s) (strip l)) L1 N2 E) as (d' & add & R & A1 & A2 & A3 & A4).
      exists d', (fun k => if String.eqb k (header s) then strip l :: add k else add k). split; [exact R|]. repeat split.
      - intros k. rewrite A1. unfold pushLine. destruct (String.eqb k (header s)); auto. now rewrite <- app_assoc.
      - intros k. destruct (String.eqb k (header s)); auto. constructor; auto. split; [apply strip_idem|]. split; auto. now apply strip_noNl.
      - intros k. destruct (String.eqb k (header s)); [|apply A3]. cbn [filter]. destruct (content (strip l)); cbn [app]; now rewrite A3.
      - intros k Hk. destruct (String.eqb_spec k (header s)) as [->|NE]; auto. elim Hk. apply in_map. destruct s; cbn; tauto. }
    assert (SKIP : content (strip l) = false -> firstIs "[" (strip l) = false -> layout cur ls = Some L -> exists d' add,
      (if (nameOf cur =? "")%string then readSections (nameOf cur) d ls
       else if existsb (String.eqb (nameOf cur)) sectionKeys then readSections (nameOf cur) (pushLine d (nameOf cur) (strip l)) ls else Raise) = Ret d' /\ (forall k, d' k = d k ++ add k) /\ (forall k, Forall tidy (add k)) /\
      (forall k, filter content (add k) = keyLines k L) /\ (forall k, ~ In k (map header sections) -> add k = [])).
    { intros C F E. destruct cur as [s|]; [|cbn [nameOf String.eqb]; apply (IH None d L N2 E)].
      cbn [nameOf]. rewrite header_key. replace (String.eqb (header s) "") with false by now destruct s.
      destruct (PUSH s L F E) as (d' & add & R & A1 & A2 & A3 & A4). exists d', add. rewrite R. repeat split; auto.
      intros k. rewrite A3, C. now destruct (String.eqb k (header s)). }
    destruct (strip l) as [|a r] eqn:S; [apply SKIP; reflexivity|].
    rewrite firstIs_cons. destruct (a =? "#")%char eqn:A1.
    { replace (a =? "[")%char with false by (apply Ascii.eqb_eq in A1; now subst). apply SKIP.
      - unfold content. cbn [firstIs]. rewrite A1. reflexivity.
      - apply Ascii.eqb_eq in A1. now subst. }
    destruct (a =? "[")%char eqn:A2.
    + destruct (find _ sections) as [s|] eqn:Fd; [|discriminate]. intros E.
      apply find_some in Fd. destruct Fd as [_ Fd]. apply String.eqb_eq in Fd. rewrite <- Fd. apply (IH (Some s) d L N2 E).
    + destruct cur as [s|]; [|discriminate]. destruct (layout (Some s) ls) as [L1|] eqn:E; [|discriminate].
      intros X. injection X as <-. cbn [nameOf]. rewrite header_key. replace (String.eqb (header s) "") with false by now destruct s.
      destruct (PUSH s L1) as (d' & add & R & B1 & B2 & B3 & B4); auto. exists d', add. rewrite R. repeat split; auto.
      intros k. rewrite B3, keyLines_cons, (String.eqb_sym (header s) k). unfold content. cbn [String.eqb firstIs]. rewrite A1. cbn [orb negb app]. reflexivity.
Qed.
