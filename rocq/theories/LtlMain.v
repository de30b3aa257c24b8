(** * Proofs: the translators for RATSY and LTLMop as a whole *)

From Coq Require Import String Ascii List Bool Arith NArith ZArith Lia.
From Verif Require Import Synth FormulaSpec Parser Spec FileSpec Execute ParserProofs FileProofs OutputProofs Explicit SymbolicProofs EstimatorText StructuredProofs FastSlowFile MonoProofs
  AigMain StructLineProofs Structured StructFile StructFileProofs StructDeclProofs StructMain StuckProofs ResilientProofs DecoderProofs MixedText MixedProofs PropsParser StructuredSpec
  StructParse LtlTables LtlSpec Ltl LtlItems LtlParseProofs LtlTreeProofs LtlReadProofs LtlProofs LtlFile.
Import ListNotations.
Local Open Scope string_scope.

(** ** Tokens of a text *)
Fixpoint lexF (skip : nat) (s : string) : list token :=
  match s with
  | EmptyString => []
  | String a r =>
      match skip with
      | S k => lexF k r
      | O => if isWs a then lexF 0 r
             else if isIdChar a then wordToken (String a (takeWhile isIdChar r)) :: lexF (String.length (takeWhile isIdChar r)) r
             else sym (String a "") :: lexF 0 r
      end
  end.
Lemma lexF_skip w r : lexF (String.length w) (w ++ r) = lexF 0 r.
Proof. induction w as [|a w IH]; cbn; auto. Qed.
Lemma lexes_lexF s ts : lexes s ts -> ts = lexF 0 s.
Proof.
  induction 1 as [|a s ts H L IH|w s ts N C E L IH|a s ts H1 H2 L IH]; [reflexivity| | |]; cbn [lexF].
  - now rewrite H.
  - destruct w as [|a w]; [now elim N|]. cbn [append lexF]. cbn [allIdChars] in C. apply andb_true_iff in C. destruct C as [C1 C2]. rewrite (space_id a C1), C1, takeWhile_app by auto.
    now rewrite lexF_skip, IH.
  - now rewrite H1, H2, IH.
Qed.
Lemma lexes_fun s ts us : lexes s ts -> lexes s us -> ts = us.
Proof. intros A B. apply lexes_lexF in A, B. congruence. Qed.
Lemma lexes_semi a ts : lexes a ts -> lexes (a ++ ";") (ts ++ [sym ";"]).
Proof.
  induction 1 as [|a s ts H L IH|w s ts N C E L IH|a s ts H1 H2 L IH]; cbn [append app].
  - apply lex_symbol; [reflexivity|reflexivity|constructor].
  - now apply lex_space.
  - rewrite sapp_assoc. apply lex_word; auto. destruct s; [reflexivity|exact E].
  - now apply lex_symbol.
Qed.
Lemma reads_entry a f : reads a f <-> entryText (a ++ ";") f.
Proof.
  split.
  - intros (ts & L & F). exists ts. split; auto. now apply lexes_semi.
  - intros (ts & L & F). destruct (lexes_total a) as (us & M). pose proof (lexes_fun _ _ _ L (lexes_semi _ _ M)) as E. apply app_inj_tail in E. destruct E as [-> _]. exists us. auto.
Qed.
Lemma plain_semi a : plainText a -> plainText (a ++ ";").
Proof.
  intros P ts x k L I K. destruct (lexes_total a) as (us & M). pose proof (lexes_fun _ _ _ L (lexes_semi _ _ M)). subst ts. apply in_app_or in I.
  destruct I as [I|[I|[]]]; [eauto|discriminate].
Qed.

(** ** Parsed entries *)
Lemma parsed_ok es fs : Forall plainText es -> Forall2 reads es fs -> exists Ts, pyMap (fun a => parseLTL (a ++ ";")) es = Ret Ts /\ Forall2 entry Ts fs.
Proof.
  intros P F. revert P. induction F as [|e f es fs H F IH]; intros P; [exists []; split; [reflexivity|constructor]|]. inversion P as [|? ? P1 P2]; subst.
  apply reads_entry in H. destruct (parseLTL_complete _ _ (plain_semi _ P1) H) as (t & ee & R & E). destruct (IH P2) as (Ts & E' & F'). cbn [pyMap]. rewrite E. cbn [pybind]. rewrite E'. cbn [pybind].
  eexists. split; [reflexivity|]. constructor; auto. exists t, ee. auto.
Qed.
Lemma parsed_sound es Ts : Forall plainText es -> pyMap (fun a => parseLTL (a ++ ";")) es = Ret Ts -> exists fs, Forall2 reads es fs /\ Forall2 entry Ts fs.
Proof.
  revert Ts. induction es as [|e es IH]; intros Ts P E; cbn [pyMap] in E; [injection E as <-; exists []; split; constructor|]. inversion P as [|? ? P1 P2]; subst.
  destruct (parseLTL (e ++ ";")) as [T| |] eqn:ET; try discriminate E. cbn [pybind] in E. destruct (pyMap _ es) as [Ts'| |] eqn:ES; try discriminate E. injection E as <-.
  destruct (IH _ P2 eq_refl) as (fs & A & B). destruct (parseLTL_sound _ _ (plain_semi _ P1) ET) as (f & t & ee & X & R & ->). exists (f :: fs). split; constructor; auto.
  - now apply reads_entry.
  - exists t, ee. auto.
Qed.

(** ** Atoms *)
Section Atoms.
  Variables ins outs : list string.
  Variable atomS : string -> option bool -> bool.
  Hypothesis names : forall x v, atomS x v = true -> forallb name (ins ++ outs) = true.
  Hypothesis nodup : forall x v, atomS x v = true -> NoDup (ins ++ outs).
  Lemma ratsy_atom t x v p : repr t (LAtom x v) -> res ratsyAssignment ratsyAtom atomS (fun x => x) ins outs p (flatten t) (LAtom x v).
  Proof.
    intros R. unfold res. cbn [stepFormula]. inversion R; subst.
    - reflexivity.
    - exists ["!"; if p then x ++ "'" else x]. split; [reflexivity|]. intros s A U. apply (denotes_not _ _ _ _ _ (denotes_var (fun x => x) ins outs (names _ _ A) (nodup _ _ A) s p x (Some false) U)).
    - exists [if p then x ++ "'" else x]. split; [reflexivity|]. intros s A U. apply (denotes_var (fun x => x) ins outs (names _ _ A) (nodup _ _ A) s p x (Some true) U).
    - match goal with H : unary _ _ |- _ => inversion H; subst; discriminate end.
    - match goal with H : binary _ _ |- _ => inversion H; subst; discriminate end.
  Qed.
  Lemma dotted_mono x v : ltlmopAtom x v = true -> dotted x v = true.
  Proof. unfold ltlmopAtom. destruct v; [discriminate|auto]. Qed.
  Lemma ltlmop_case x cs p : (if dotted x None then ltlmopAssignment (TLeaf ("id", x) :: cs) p = Ret [if p then ltlmopVar x ++ "'" else ltlmopVar x] else ltlmopAssignment (TLeaf ("id", x) :: cs) p = Raise).
  Proof. destruct x as [|b [|a x]]; try reflexivity. cbn [dotted]. destruct (Ascii.eqb_spec a "."); [subst; reflexivity|]. cbn. destruct a as [[] [] [] [] [] [] [] []]; try reflexivity. now elim n. Qed.
  Hypothesis noComp : forall x v, atomS x v = true -> ltlmopAtom x v = true.
  Lemma ltlmop_atom t x v p : repr t (LAtom x v) -> res ltlmopAssignment dotted atomS ltlmopVar ins outs p (flatten t) (LAtom x v).
  Proof.
    intros R. unfold res. cbn [stepFormula]. assert (X : forall cs, t = TNode "Assignment" (TLeaf ("id", x) :: cs) -> Forall (fun c => flatten c = c) cs ->
      if dotted x v then exists ws, parseSimpleFormula ltlmopAssignment (flatten t) p = Ret ws /\
        (forall s, atomS x v = true -> usable ltlmopVar ins outs s p (LAtom x v) = true -> denotes ins outs s ws (fun st st' => value ltlmopVar ins outs p st st' (LAtom x v)))
      else parseSimpleFormula ltlmopAssignment (flatten t) p = Raise).
    { intros cs -> F. assert (E : map flatten cs = cs) by (clear - F; induction F; cbn; congruence).
      assert (E2 : parseSimpleFormula ltlmopAssignment (flatten (TNode "Assignment" (TLeaf ("id", x) :: cs))) p = ltlmopAssignment (TLeaf ("id", x) :: cs) p) by (cbn [flatten map]; rewrite E; reflexivity).
      rewrite E2. pose proof (ltlmop_case x cs p) as C. change (dotted x v) with (dotted x None). destruct (dotted x None) eqn:D; [|exact C]. rewrite C. eexists. split; [reflexivity|].
      intros s A U. assert (V : v = None) by (pose proof (noComp _ _ A) as A'; destruct v; [discriminate A'|reflexivity]). subst v.
      apply (denotes_var ltlmopVar ins outs (names _ _ A) (nodup _ _ A) s p x None U). }
    inversion R; subst.
    - apply (X [] eq_refl). constructor.
    - eapply X; [reflexivity|repeat constructor].
    - eapply X; [reflexivity|repeat constructor].
    - match goal with H : unary _ _ |- _ => inversion H; subst; discriminate end.
    - match goal with H : binary _ _ |- _ => inversion H; subst; discriminate end.
  Qed.
End Atoms.

(** ** Entries *)
Lemma lacks_in c s : lacks c s <-> ~ In c (list_ascii_of_string s).
Proof.
  unfold lacks. induction s as [|a s IH]; cbn [allChars list_ascii_of_string In]; [split; auto|]. rewrite andb_true_iff, IH, negb_true_iff. split.
  - intros [A B] [->|H]; [now rewrite Ascii.eqb_refl in A|auto].
  - intros H. split; [|tauto]. apply Ascii.eqb_neq. intros ->. auto.
Qed.
Lemma split_concat c ps : ps <> [] -> Forall (fun p => ~ In c (list_ascii_of_string p)) ps -> splitChar c (String.concat (String c "") ps) = ps.
Proof.
  intros N F. induction F as [|p ps H F IH]; [now elim N|]. apply lacks_in in H. destruct ps as [|q ps]; [now apply splitChar_lacks|].
  change (String.concat (String c "") (p :: q :: ps)) with (p ++ String c "" ++ String.concat (String c "") (q :: ps)). cbn [append]. rewrite splitChar_cut by assumption. f_equal. apply IH. discriminate.
Qed.
Lemma concat_split c s : String.concat (String c "") (splitChar c s) = s /\ Forall (fun p => ~ In c (list_ascii_of_string p)) (splitChar c s).
Proof.
  induction s as [|a s [IH F]]; [split; [reflexivity|repeat constructor; intros []]|]. cbn [splitChar]. pose proof (splitChar_ne c s) as N. destruct (splitChar c s) as [|p ps] eqn:E; [now elim N|].
  destruct (Ascii.eqb_spec a c) as [->|D].
  - split; [|constructor; [intros []|exact F]]. change (String.concat (String c "") ("" :: p :: ps)) with (String c "" ++ String.concat (String c "") (p :: ps)). now rewrite IH.
  - inversion F as [|? ? F1 F2]; subst. split; [|constructor; [intros [->|H]; auto|exact F2]]. destruct ps as [|q ps]; cbn [String.concat append] in *; reflexivity.
Qed.
Definition entriesF (text : string) : list string := filter (fun e => negb (String.eqb e "")) (map trim (splitChar ";" text)).
Lemma map_trim ps : map trim ps = map strip ps.
Proof. apply map_ext. exact trim_spec. Qed.
Lemma entriesOf_spec text es : entriesOf text es <-> es = entriesF text.
Proof.
  unfold entriesF. rewrite map_trim. split.
  - intros (ps & N & -> & F & ->). change ";" with (String ";" ""). now rewrite split_concat.
  - intros ->. exists (splitChar ";" text). destruct (concat_split ";" text) as [E F]. repeat split; auto. apply splitChar_ne.
Qed.

(** ** Files of RATSY *)
Lemma hd_prefix c s : String.prefix (String c "") s = match firstChar s with Some a => Ascii.eqb a c | None => false end.
Proof.
  destruct s as [|a s]; [reflexivity|]. cbn [String.prefix firstChar]. destruct (ascii_dec c a) as [->|N]; [rewrite Ascii.eqb_refl; now destruct s|].
  symmetry. apply Ascii.eqb_neq. congruence.
Qed.
Lemma index_some x l i : indexOf x l = Some i -> nth_error l i = Some x.
Proof.
  revert i. induction l as [|y l IH]; intros i H; [discriminate|]. cbn [indexOf] in H. destruct (String.eqb_spec y x) as [->|N]; [injection H as <-; reflexivity|].
  destruct (indexOf x l) as [j|]; [|discriminate]. injection H as <-. now apply IH.
Qed.
Lemma index_in x l : In x l -> exists i, indexOf x l = Some i.
Proof.
  induction l as [|y l IH]; [intros []|]. intros H. cbn [indexOf]. destruct (String.eqb_spec y x) as [E|N]; [eauto|]. destruct H as [E|H]; [now elim N|]. destruct (IH H) as (i & ->). cbn. eauto.
Qed.
Definition bodyText (ls : list string) : string := String.concat "" (map strip (filter (fun l => negb (skipped l)) ls)).
Lemma concat_cons a l : String.concat "" (a :: l) = a ++ String.concat "" l.
Proof. destruct l; [|reflexivity]. cbn. induction a; cbn; congruence. Qed.
Lemma concat_app_s a b : String.concat "" (a ++ b)%list = String.concat "" a ++ String.concat "" b.
Proof. induction a as [|x a IH]; [reflexivity|]. cbn [app]. rewrite !concat_cons, IH. now rewrite sapp_assoc. Qed.
Lemma empty_first l : String.eqb l "" = match firstChar l with None => true | Some _ => false end.
Proof. now destruct l. Qed.
Lemma body_none l : bodyLine l = true -> skipped l = false -> indexOf (strip l) ratsyHeaders = None /\ String.prefix "[" (strip l) = false /\ String.prefix "#" (strip l) = false /\ String.eqb (strip l) "" = false.
Proof.
  unfold bodyLine, skipped. rewrite empty_first, !hd_prefix. destruct (strip l) as [|a s]; cbn [firstChar]; [discriminate|]. intros H K. apply negb_true_iff in H. rewrite H, K. repeat split; auto.
  destruct (indexOf (String a s) ratsyHeaders) as [i|] eqn:E; [|reflexivity]. apply index_some in E. apply nth_error_In in E. cbn in E. repeat (destruct E as [E|E]; [injection E as <- _; discriminate H|]). destruct E.
Qed.
Lemma skip_line m st l ls : skipped l = true -> ratsyRead m st (l :: ls) = ratsyRead m st ls.
Proof.
  unfold skipped. intros H. cbn [ratsyRead]. rewrite trim_spec, hd_prefix, empty_first. destruct (firstChar (strip l)) as [a|]; [|reflexivity]. now rewrite H.
Qed.
Lemma body_line i st l ls : bodyLine l = true -> skipped l = false ->
  ratsyRead (S i) st (l :: ls) = ratsyRead (S i) (fun m => if Nat.eqb m (S i) then st m ++ strip l else st m) ls.
Proof. intros B K. destruct (body_none l B K) as (A1 & A2 & A3 & A4). cbn [ratsyRead]. rewrite !trim_spec, A1, A2, A3, A4. reflexivity. Qed.
Lemma header_line m st l ls i : indexOf (strip l) ratsyHeaders = Some i -> ratsyRead m st (l :: ls) = ratsyRead (S i) st ls.
Proof.
  intros H. cbn [ratsyRead]. rewrite !trim_spec, H. apply index_some in H. apply nth_error_In in H. cbn in H. repeat (destruct H as [H|H]; [rewrite <- H; reflexivity|]). destruct H.
Qed.
Lemma read_body (P : pyres (nat -> string) -> Prop) i rest : forall ls st, forallb bodyLine ls = true ->
  (forall st', (forall m, st' m = if Nat.eqb m (S i) then st m ++ bodyText ls else st m) -> P (ratsyRead (S i) st' rest)) -> P (ratsyRead (S i) st (ls ++ rest)).
Proof.
  induction ls as [|l ls IH]; intros st B K.
  - apply K. intros m. cbn. destruct (Nat.eqb m (S i)); [|reflexivity]. symmetry. induction (st m); cbn; congruence.
  - cbn [forallb] in B. apply andb_true_iff in B. destruct B as [B1 B2]. cbn [app]. unfold bodyText in K. cbn [filter] in K. destruct (skipped l) eqn:Sk; cbn [negb] in K.
    + rewrite skip_line by assumption. apply IH; auto.
    + rewrite body_line by assumption. apply IH; auto. intros st' E. apply K. intros m. rewrite E. destruct (Nat.eqb m (S i)); [|reflexivity]. cbn [map]. rewrite concat_cons. apply sapp_assoc.
Qed.
Definition blockOK (b : block) : Prop := In (strip (fst b)) ratsySections /\ forallb bodyLine (snd b) = true.
Lemma nth_sections i j : i < 8 -> j < 8 -> nth i ratsySections "" = nth j ratsySections "" -> i = j.
Proof.
  intros I J. do 8 (destruct i as [|i]; [do 8 (destruct j as [|j]; [first [reflexivity|discriminate]|]); lia|]). lia.
Qed.
Lemma read_blocks bs : Forall blockOK bs -> forall m st, exists st', ratsyRead m st (flat_map (fun b => fst b :: snd b) bs) = Ret st' /\
  forall i, i < 8 -> st' (S i) = st (S i) ++ sectionText (nth i ratsySections "") bs.
Proof.
  induction 1 as [|[h ls] bs [H1 H2] F IH]; intros m st.
  - exists st. split; [reflexivity|]. intros i _. cbn. induction (st (S i)); cbn; congruence.
  - cbn [flat_map fst snd app] in *. destruct (index_in (strip h) ratsySections H1) as (i & Hi). rewrite (header_line m st h _ i Hi). apply read_body; [exact H2|]. intros st1 E1.
    destruct (IH (S i) st1) as (st' & E & K). exists st'. split; [exact E|]. intros j Hj. rewrite K by assumption. rewrite E1. unfold sectionText. cbn [flat_map fst snd]. rewrite concat_app_s.
    apply index_some in Hi. assert (Li : i < 8) by (change 8 with (length ratsySections); apply nth_error_Some; congruence).
    assert (Ni : nth i ratsySections "" = strip h) by (now apply nth_error_nth). cbn [Nat.eqb]. destruct (Nat.eqb_spec j i) as [->|N].
    + rewrite Ni, String.eqb_refl. apply sapp_assoc.
    + destruct (String.eqb_spec (strip h) (nth j ratsySections "")) as [X|X]; [|reflexivity]. elim N. apply nth_sections; auto. congruence.
Qed.
Lemma read_pre pre : forallb skipped pre = true -> forall m st rest, ratsyRead m st (pre ++ rest) = ratsyRead m st rest.
Proof. induction pre as [|l pre IH]; intros H m st rest; [reflexivity|]. cbn [forallb] in H. apply andb_true_iff in H. destruct H. cbn [app]. rewrite skip_line by assumption. auto. Qed.
Lemma ratsyRead_ok lines bs : ratsyFile lines bs -> exists st, ratsyRead 0 (fun _ => "") lines = Ret st /\ forall i, i < 8 -> st (S i) = sectionText (nth i ratsySections "") bs.
Proof.
  intros (pre & -> & P & F). rewrite read_pre by assumption. exact (read_blocks bs F 0 (fun _ => "")).
Qed.
Lemma ratsyRead_sound ls : forall m st st', ratsyRead m st ls = Ret st' ->
  exists pre bs, ls = (pre ++ flat_map (fun b => fst b :: snd b) bs)%list /\ forallb (if Nat.eqb m 0 then skipped else bodyLine) pre = true /\ Forall blockOK bs.
Proof.
  induction ls as [|l ls IH]; intros m st st' E; [exists [], []; repeat constructor|].
  destruct (skipped l) eqn:Sk.
  - rewrite skip_line in E by assumption. destruct (IH _ _ _ E) as (pre & bs & -> & P & F). exists (l :: pre), bs. split; [reflexivity|]. split; [|exact F]. cbn [forallb]. rewrite P, andb_true_r.
    destruct (Nat.eqb m 0); [exact Sk|]. unfold bodyLine, skipped in *. destruct (firstChar (strip l)) as [a|]; [|reflexivity]. apply Ascii.eqb_eq in Sk. now subst a.
  - cbn [ratsyRead] in E. rewrite trim_spec, !hd_prefix, empty_first in E. unfold skipped in Sk. destruct (firstChar (strip l)) as [a|] eqn:FC; [|discriminate Sk]. rewrite Sk in E.
    destruct (indexOf (strip l) ratsyHeaders) as [i|] eqn:I.
    + destruct (IH _ _ _ E) as (pre & bs & -> & P & F). exists [], ((l, pre) :: bs). split; [reflexivity|]. split; [reflexivity|]. constructor; [|exact F]. split; [|exact P]. cbn [fst]. apply index_some in I. now apply nth_error_In in I.
    + destruct (Ascii.eqb a "[") eqn:B; [discriminate E|]. destruct (Nat.eqb m 0) eqn:M; [discriminate E|]. destruct (IH _ _ _ E) as (pre & bs & -> & P & F). rewrite M in P. exists (l :: pre), bs.
      split; [reflexivity|]. split; [|exact F]. cbn [forallb]. rewrite P, andb_true_r. unfold bodyLine. rewrite FC, B. reflexivity.
Qed.

Section Ratsy.
  Variable text : string.
  Variables ins outs es gs : list string.
  Lemma ratsy_parts : ratsyParts text ins outs es gs -> exists st, ratsyRead 0 (fun _ => "") (getlines text) = Ret st /\
    ins = entriesF (st 1) /\ outs = entriesF (st 2) /\ es = (entriesF (st 3) ++ entriesF (st 5) ++ entriesF (st 7))%list /\ gs = (entriesF (st 4) ++ entriesF (st 6) ++ entriesF (st 8))%list.
  Proof.
    intros (bs & a1 & a2 & a3 & g1 & g2 & g3 & RF & I & O & A1 & A2 & A3 & G1 & G2 & G3 & -> & ->). rewrite getlines_spec. destruct (ratsyRead_ok _ _ RF) as (st & E & K). exists st. split; [exact E|].
    rewrite (K 0), (K 1), (K 2), (K 3), (K 4), (K 5), (K 6), (K 7) by lia. cbn [nth ratsySections]. apply entriesOf_spec in I, O, A1, A2, A3, G1, G2, G3. subst. auto.
  Qed.
End Ratsy.
Lemma ratsy_parts_sound text st : ratsyRead 0 (fun _ => "") (getlines text) = Ret st ->
  ratsyParts text (entriesF (st 1)) (entriesF (st 2)) (entriesF (st 3) ++ entriesF (st 5) ++ entriesF (st 7)) (entriesF (st 4) ++ entriesF (st 6) ++ entriesF (st 8)).
Proof.
  rewrite getlines_spec. intros E. destruct (ratsyRead_sound _ _ _ _ E) as (pre & bs & L & P & F).
  assert (RF : ratsyFile (file_lines text) bs) by (exists pre; auto). destruct (ratsyRead_ok _ _ RF) as (st' & E' & K). rewrite E in E'. injection E' as <-.
  rewrite (K 0), (K 1), (K 2), (K 3), (K 4), (K 5), (K 6), (K 7) by lia. cbn [nth ratsySections].
  exists bs. do 6 eexists. split; [exact RF|]. rewrite !entriesOf_spec. repeat split.
Qed.
Lemma ratsy_conv text st : ratsyRead 0 (fun _ => "") (getlines text) = Ret st -> ratsyConversion text =
  pybind (pyMap (fun a => parseLTL (a ++ ";")) (entriesF (st 3) ++ entriesF (st 5) ++ entriesF (st 7))) (fun Ta =>
  pybind (pyMap (fun a => parseLTL (a ++ ";")) (entriesF (st 4) ++ entriesF (st 6) ++ entriesF (st 8))) (fun Tg =>
    printed ratsyAssignment (map trim (splitChar ";" (st 1))) (map trim (splitChar ";" (st 2))) Ta Tg)).
Proof. intros E. unfold ratsyConversion. rewrite E. cbn [pybind]. rewrite !filter_app. reflexivity. Qed.

Theorem ratsy_accepts text : (forall ins outs es gs, ratsyParts text ins outs es gs -> Forall plainText (es ++ gs)) ->
  (exists out, ratsyConversion text = Ret out) <->
  exists ins outs es gs fa fg, ratsyParts text ins outs es gs /\ Forall2 reads es fa /\ Forall2 reads gs fg /\ translatable ratsyAtom fa fg = true.
Proof.
  intros PL. assert (AT : forall t x v p, repr t (LAtom x v) -> res ratsyAssignment ratsyAtom (fun _ _ => false) (fun x => x) [] [] p (flatten t) (LAtom x v)) by (apply ratsy_atom; discriminate). split.
  - intros (out & E). destruct (ratsyRead 0 (fun _ => "") (getlines text)) as [st| |] eqn:ER; try (unfold ratsyConversion in E; rewrite ER in E; discriminate E).
    rewrite (ratsy_conv _ _ ER) in E. pose proof (ratsy_parts_sound _ _ ER) as RP. pose proof (PL _ _ _ _ RP) as P. apply Forall_app in P. destruct P as [Pa Pg].
    destruct (pyMap _ (entriesF (st 3) ++ _)) as [Ta| |] eqn:EA; try discriminate E. cbn [pybind] in E. destruct (pyMap _ (entriesF (st 4) ++ _)) as [Tg| |] eqn:EG; try discriminate E. cbn [pybind] in E.
    destruct (parsed_sound _ _ Pa EA) as (fa & RA & NA). destruct (parsed_sound _ _ Pg EG) as (fg & RG & NG).
    pose proof (printed_if ratsyAssignment ratsyAtom (fun _ _ => false) (fun x => x) [] [] AT fa fg Ta Tg NA NG (map trim (splitChar ";" (st 1))) (map trim (splitChar ";" (st 2)))) as PI.
    destruct (translatable ratsyAtom fa fg) eqn:T; [|rewrite PI in E; discriminate E]. exists (entriesF (st 1)), (entriesF (st 2)). do 2 eexists. exists fa, fg. split; [exact RP|auto].
  - intros (ins & outs & es & gs & fa & fg & RP & RA & RG & T). pose proof (PL _ _ _ _ RP) as P. apply Forall_app in P. destruct P as [Pa Pg].
    destruct (ratsy_parts _ _ _ _ _ RP) as (st & ER & -> & -> & -> & ->). rewrite (ratsy_conv _ _ ER). destruct (parsed_ok _ _ Pa RA) as (Ta & -> & NA). destruct (parsed_ok _ _ Pg RG) as (Tg & -> & NG). cbn [pybind].
    pose proof (printed_if ratsyAssignment ratsyAtom (fun _ _ => false) (fun x => x) [] [] AT fa fg Ta Tg NA NG (map trim (splitChar ";" (st 1))) (map trim (splitChar ";" (st 2)))) as PI.
    rewrite T in PI. destruct PI as (? & ? & _ & _ & ->). eauto.
Qed.

Theorem ratsy_answer text ins outs es gs fa fg : ratsyParts text ins outs es gs -> Forall2 reads es fa -> Forall2 reads gs fg -> Forall plainText (es ++ gs) ->
  forallb name (ins ++ outs) = true -> NoDup (ins ++ outs) -> translatable ratsyAtom fa fg = true -> wellScoped (fun x => x) ins outs fa fg = true ->
  exists out, ratsyConversion text = Ret out /\ forall ord, match executeFile ord out with
    | POk Realizable => realizable (ltlGame (fun x => x) ins outs fa fg)
    | POk Unrealizable => ~ realizable (ltlGame (fun x => x) ins outs fa fg)
    | _ => False
    end.
Proof.
  intros RP RA RG P N D T W. apply Forall_app in P. destruct P as [Pa Pg].
  destruct (ratsy_parts _ _ _ _ _ RP) as (st & ER & EI & EO & -> & ->). rewrite (ratsy_conv _ _ ER). destruct (parsed_ok _ _ Pa RA) as (Ta & -> & NA). destruct (parsed_ok _ _ Pg RG) as (Tg & -> & NG). cbn [pybind].
  apply (printed_answer ratsyAssignment ratsyAtom ratsyAtom (fun x => x) ins outs); auto. intros. apply ratsy_atom; auto.
Qed.

(** ** Files of LTLMop *)
Definition lineText (ls : list string) : string := String.concat "" (map (fun l => " " ++ strip l) ls).
Definition isHeader (l : string) : bool := String.eqb (strip l) "LTLSPEC -- Assumptions" || String.eqb (strip l) "LTLSPEC -- Guarantees".
Lemma ltlmop_lines ls r a g : existsb isHeader ls = false ->
  ltlmopRead 0 a g (ls ++ r) = ltlmopRead 0 a g r /\ ltlmopRead 1 a g (ls ++ r) = ltlmopRead 1 (a ++ lineText ls) g r /\ ltlmopRead 2 a g (ls ++ r) = ltlmopRead 2 a (g ++ lineText ls) r.
Proof.
  assert (Z : forall s : string, s ++ "" = s) by (induction s; cbn; congruence).
  revert a g. induction ls as [|l ls IH]; intros a g H; [cbn [lineText map String.concat]; unfold lineText; cbn; now rewrite !Z|].
  cbn [existsb] in H. apply orb_false_iff in H. destruct H as [H1 H2]. unfold isHeader in H1. apply orb_false_iff in H1. destruct H1 as [H0 H1].
  cbn [app ltlmopRead]. rewrite !trim_spec, H0, H1. cbn [Nat.eqb]. unfold lineText in *. cbn [map]. rewrite concat_cons. repeat split; [now apply IH| |].
  - destruct (IH (a ++ " " ++ strip l) g H2) as (_ & -> & _). now rewrite sapp_assoc.
  - destruct (IH a (g ++ " " ++ strip l) H2) as (_ & _ & ->). now rewrite sapp_assoc.
Qed.
Lemma ltlmopRead_ok lines a g : ltlmopFile lines a g -> ltlmopRead 0 "" "" lines = (a, g).
Proof.
  intros (pre & h & ls & h' & ls' & -> & H & E1 & E2 & -> & ->). rewrite !existsb_app in H. apply orb_false_iff in H. destruct H as [Hp H]. apply orb_false_iff in H. destruct H as [Hl Hl'].
  destruct (ltlmop_lines pre (h :: ls ++ h' :: ls') "" "" Hp) as (-> & _). cbn [ltlmopRead]. rewrite !trim_spec, E1. cbn.
  destruct (ltlmop_lines ls (h' :: ls') "" "" Hl) as (_ & -> & _). cbn [ltlmopRead]. rewrite !trim_spec, E2. cbn.
  destruct (ltlmop_lines ls' [] (lineText ls) "" Hl') as (_ & _ & E). rewrite app_nil_r in E. cbn [append] in E. rewrite E. reflexivity.
Qed.
Lemma beforeColon_some s x : beforeColon s = Some x -> exists y, s = x ++ " : " ++ y.
Proof.
  revert x. induction s as [|a s IH]; intros x H; [discriminate|]. cbn [beforeColon] in H. destruct (String.prefix " : " (String a s)) eqn:P.
  - injection H as <-. clear IH. apply prefix_correct in P. destruct s as [|b [|c s]]; cbn in P; try discriminate P. injection P as -> -> ->. exists s. reflexivity.
  - destruct (beforeColon s) as [z|]; [|discriminate]. injection H as <-. destruct (IH z eq_refl) as (y & ->). exists y. reflexivity.
Qed.
Lemma beforeColon_name x y : allIdChars x = true -> beforeColon (x ++ " : " ++ y) = Some x.
Proof.
  induction x as [|a x IH]; intros H; [destruct y; reflexivity|]. cbn [allIdChars] in H. apply andb_true_iff in H. destruct H as [H1 H2]. cbn [append beforeColon].
  assert (P : String.prefix " : " (String a (x ++ " : " ++ y)) = false).
  { cbn [String.prefix]. destruct (ascii_dec " " a) as [<-|]; [discriminate H1|reflexivity]. }
  cbn [append] in P, IH. rewrite P, (IH H2). reflexivity.
Qed.
Definition isModule (l : string) : bool := beginsWith "MODULE env" l || beginsWith "MODULE sys" l.
Lemma smv_pre ls r : existsb isModule ls = false -> smvRead 0 [] [] (ls ++ r) = smvRead 0 [] [] r.
Proof.
  induction ls as [|l ls IH]; intros H; [reflexivity|]. cbn [existsb] in H. apply orb_false_iff in H. destruct H as [H1 H2]. unfold isModule, beginsWith in H1. apply orb_false_iff in H1. destruct H1 as [H0 H1].
  cbn [app smvRead]. rewrite !trim_spec, H0, H1. destruct (beforeColon (strip l)) as [[|a x]|]; cbn [Nat.eqb]; auto.
Qed.
Lemma smv_lines ls xs : declarations ls xs -> existsb isModule ls = false -> forall r a b,
  smvRead 1 a b (ls ++ r) = smvRead 1 (a ++ xs) b r /\ smvRead 2 a b (ls ++ r) = smvRead 2 a (b ++ xs) r.
Proof.
  induction 1 as [|l ls xs N D IH|l ls x y xs E X D IH]; intros H r a b; [now rewrite !app_nil_r| |];
    cbn [existsb] in H; apply orb_false_iff in H; destruct H as [H1 H2]; unfold isModule, beginsWith in H1; apply orb_false_iff in H1; destruct H1 as [H0 H1];
    cbn [app smvRead]; rewrite !trim_spec, H0, H1.
  - destruct (beforeColon (strip l)) as [z|] eqn:B; [apply beforeColon_some in B; destruct B as (y & B); now elim (N z y)|]. now apply IH.
  - unfold name in X. apply andb_true_iff in X. destruct X as [X _]. apply andb_true_iff in X. destruct X as [X1 X2]. rewrite E, beforeColon_name by assumption.
    destruct x as [|c x]; [discriminate X1|]. cbn [Nat.eqb]. destruct (IH H2 r (a ++ [String c x])%list b) as [A _]. destruct (IH H2 r a (b ++ [String c x])%list) as [_ B]. rewrite A, B, <- !app_assoc. auto.
Qed.
Lemma smvRead_ok lines ins outs : smvFile lines ins outs -> smvRead 0 [] [] lines = (ins, outs).
Proof.
  intros (pre & h & ls & h' & ls' & -> & H & E1 & E2 & D1 & D2). rewrite !existsb_app in H. apply orb_false_iff in H. destruct H as [Hp H]. apply orb_false_iff in H. destruct H as [Hl Hl'].
  rewrite smv_pre by exact Hp. unfold beginsWith in *. cbn [smvRead]. rewrite !trim_spec, E1. destruct (smv_lines ls ins D1 Hl (h' :: ls') [] []) as [-> _]. cbn [smvRead]. rewrite !trim_spec, E2.
  assert (N : String.prefix "MODULE env" (strip h') = false).
  { destruct (String.prefix "MODULE env" (strip h')) eqn:X; [|reflexivity]. exfalso. clear - E2 X. revert E2 X. generalize (strip h'). intros s.
    intros A B. apply prefix_correct in A, B. cbn [String.length] in A, B. rewrite A in B. discriminate. }
  rewrite N. destruct (smv_lines ls' outs D2 Hl' [] ins []) as [_ E]. rewrite app_nil_r in E. cbn [app] in E. cbn [app]. rewrite E. reflexivity.
Qed.

Theorem ltlmop_answer smv text ins outs a g fa fg : smvFile (file_lines smv) ins outs -> ltlmopFile (file_lines text) a g ->
  entryText a fa -> entryText g fg -> plainText a -> plainText g ->
  forallb name (ins ++ outs) = true -> NoDup (ins ++ outs) -> translatable ltlmopAtom [fa] [fg] = true -> wellScoped ltlmopVar ins outs [fa] [fg] = true ->
  exists out, ltlmopConversion smv text = Ret out /\ forall ord, match executeFile ord out with
    | POk Realizable => realizable (ltlGame ltlmopVar ins outs [fa] [fg])
    | POk Unrealizable => ~ realizable (ltlGame ltlmopVar ins outs [fa] [fg])
    | _ => False
    end.
Proof.
  intros SF LF RA RG PA PG N D T W. unfold ltlmopConversion. rewrite !getlines_spec, (ltlmopRead_ok _ _ _ LF), (smvRead_ok _ _ _ SF).
  destruct (parseLTL_complete _ _ PA RA) as (ta & ea & NA & ->). destruct (parseLTL_complete _ _ PG RG) as (tg & eg & NG & ->). cbn [pybind].
  assert (F : forall l, forallb name l = true -> filter (fun e => negb (String.eqb e "")) l = l).
  { induction l as [|x l IH]; [reflexivity|]. cbn [forallb filter]. intros H. apply andb_true_iff in H. destruct H as [H1 H2]. unfold name in H1. destruct (negb (String.eqb x "")); [|discriminate]. f_equal. auto. }
  pose proof N as N'. rewrite forallb_app in N'. apply andb_true_iff in N'. destruct N' as [N1 N2].
  apply (printed_answer ltlmopAssignment dotted ltlmopAtom ltlmopVar ins outs); auto.
  - intros. apply ltlmop_atom; auto.
  - apply dotted_mono.
  - constructor; [exists ta, ea; auto|constructor].
  - constructor; [exists tg, eg; auto|constructor].
Qed.

Theorem ltlmop_accepts smv text ins outs a g : smvFile (file_lines smv) ins outs -> ltlmopFile (file_lines text) a g -> plainText a -> plainText g ->
  ((exists out, ltlmopConversion smv text = Ret out) <->
   exists fa fg, entryText a fa /\ entryText g fg /\ translatable dotted [fa] [fg] = true).
Proof.
  intros SF LF PA PG. unfold ltlmopConversion. rewrite !getlines_spec, (ltlmopRead_ok _ _ _ LF), (smvRead_ok _ _ _ SF).
  assert (AT : forall t x v p, repr t (LAtom x v) -> res ltlmopAssignment dotted (fun _ _ => false) ltlmopVar [] [] p (flatten t) (LAtom x v)) by (apply ltlmop_atom; discriminate).
  assert (ONE : forall t e f, repr t f -> Forall2 entry [flatten (TNode "Formula" [t; TLeaf e])] [f]) by (intros t e f R; constructor; [exists t, e; auto|constructor]).
  split.
  - intros (out & E). destruct (parseLTL a) as [Ta| |] eqn:EA; try discriminate E. cbn [pybind] in E. destruct (parseLTL g) as [Tg| |] eqn:EG; try discriminate E. cbn [pybind] in E.
    destruct (parseLTL_sound _ _ PA EA) as (fa & ta & ea & XA & RA & ->). destruct (parseLTL_sound _ _ PG EG) as (fg & tg & eg & XG & RG & ->).
    pose proof (printed_if ltlmopAssignment dotted (fun _ _ => false) ltlmopVar [] [] AT _ _ _ _ (ONE ta ea fa RA) (ONE tg eg fg RG) ins outs) as PI.
    destruct (translatable dotted [fa] [fg]) eqn:T; [|rewrite PI in E; discriminate E]. exists fa, fg. auto.
  - intros (fa & fg & XA & XG & T). destruct (parseLTL_complete _ _ PA XA) as (ta & ea & RA & ->). destruct (parseLTL_complete _ _ PG XG) as (tg & eg & RG & ->). cbn [pybind].
    pose proof (printed_if ltlmopAssignment dotted (fun _ _ => false) ltlmopVar [] [] AT _ _ _ _ (ONE ta ea fa RA) (ONE tg eg fg RG) ins outs) as PI.
    rewrite T in PI. destruct PI as (? & ? & _ & _ & ->). eauto.
Qed.

(** ** Formulas of a text are unique *)
Lemma entry_unique a f g : entryText a f -> entryText a g -> f = g.
Proof.
  intros (us & L & F) (vs & M & G). pose proof (lexes_fun _ _ _ L M) as E. apply app_inj_tail in E. destruct E as [<- _]. destruct (lexes_ok _ _ L) as [_ NE].
  destruct (formula_tree _ _ _ F) as (t & D & Y & E). destruct (formula_tree _ _ _ G) as (t' & D' & Y' & E'). cbn [fmlNT] in D, D'.
  assert (X : forall t, deriv "Biimplication" t -> yield t = us -> parseTree (us ++ [sym ";"]) = Some (Node "Formula" [t; Leaf (";", "")])).
  { intros u Du Yu. apply parse_spec; auto. split; [node 0; [exact Du|now constructor]|cbn; rewrite Yu; reflexivity]. }
  pose proof (X _ D Y) as P. rewrite (X _ D' Y') in P. injection P as ->. congruence.
Qed.
Lemma reads_unique a f g : reads a f -> reads a g -> f = g.
Proof. intros F G. apply reads_entry in F, G. exact (entry_unique _ _ _ F G). Qed.

(** ** Games and words *)
Lemma value_false atom a b c f : stepFormula atom false f = true -> stepValue a b f = stepValue a c f.
Proof.
  induction f; cbn [stepFormula stepValue]; intros H; try reflexivity; try discriminate H; try (apply andb_true_iff in H; destruct H as [H1 H2]; now rewrite (IHf1 H1), (IHf2 H2)). now rewrite (IHf H).
Qed.
Lemma sat_step atom n (w : word) f : forall i, stepFormula atom n f = true -> (sat w i f <-> stepValue (w i) (w (S i)) f = true).
Proof.
  revert n. induction f; intros m i; cbn [stepFormula stepValue sat]; intros H; try discriminate H;
    try (apply andb_true_iff in H; destruct H as [H1 H2]).
  - tauto.
  - split; [intros []|discriminate].
  - tauto.
  - rewrite (IHf m i H). destruct (stepValue (w i) (w (S i)) f); cbn; split; congruence.
  - rewrite (IHf false (S i) H2). now rewrite (value_false atom _ (w (S (S i))) (w (S i)) f H2).
  - rewrite (IHf1 m i H1), (IHf2 m i H2), andb_true_iff. tauto.
  - rewrite (IHf1 m i H1), (IHf2 m i H2), orb_true_iff. tauto.
  - rewrite (IHf1 m i H1), (IHf2 m i H2). destruct (stepValue _ _ f1), (stepValue _ _ f2); cbn; intuition congruence.
  - rewrite (IHf1 m i H1), (IHf2 m i H2). destruct (stepValue _ _ f1), (stepValue _ _ f2); cbn; intuition congruence.
Qed.
Lemma sat_conj w i f : sat w i f <-> forall g, In g (conjuncts f) -> sat w i g.
Proof.
  induction f; try (cbn [conjuncts In]; split; [intros H g [<-|[]]; exact H|intros H; apply H; now left]).
  cbn [conjuncts sat]. rewrite IHf1, IHf2. split.
  - intros [A B] g H. apply in_app_or in H. destruct H; auto.
  - intros H. split; intros g G; apply H; apply in_or_app; auto.
Qed.
Lemma sat_parts w fs : (forall f, In f fs -> sat w 0 f) <->
  (forall g, In g (parts initialOf fs) -> sat w 0 g) /\ (forall g, In g (parts alwaysOf fs) -> forall n, sat w n g) /\
  (forall g, In g (parts recurringOf fs) -> forall n, exists m, n <= m /\ sat w m g).
Proof.
  assert (E : (forall f, In f fs -> sat w 0 f) <-> forall g, In g (flat_map conjuncts fs) -> sat w 0 g).
  { split.
    - intros H g G. apply in_flat_map in G. destruct G as (f & Hf & G). apply (proj1 (sat_conj w 0 f) (H f Hf) g G).
    - intros H f Hf. apply sat_conj. intros g G. apply H. apply in_flat_map. eauto. }
  rewrite E. clear E. unfold parts. generalize (flat_map conjuncts fs). clear fs. intros gs. split.
  - intros H. repeat split; intros g G; apply in_flat_map in G; destruct G as (f & Hf & G); specialize (H f Hf); destruct f; try contradiction; try (destruct G as [<-|[]]; exact H).
    + intros n. assert (X : g = f) by (destruct f; cbn in G; try contradiction; destruct G as [G|[]]; auto). subst g. apply H. lia.
    + cbn [recurringOf] in G. destruct f; try contradiction. destruct G as [<-|[]]. intros n. destruct (H n ltac:(lia)) as (m & Hm & S). eauto.
  - intros (A & B & C) g G. assert (X : forall (k : ltl -> list ltl) h, In h (k g) -> In h (flat_map k gs)) by (intros; apply in_flat_map; eauto).
    destruct g; try (apply A, X; now left). cbn [sat]. intros j _. destruct g; try (apply B, X; now left). cbn [sat]. apply C, X. now left.
Qed.
Lemma init_next varOf ins outs s f : s = SEnvInit \/ s = SSysInit -> usable varOf ins outs s true f = true -> forall a b c d, stepValue a b f = stepValue c d f.
Proof.
  intros Hs. induction f; cbn [usable stepValue]; intros H k b c d; try reflexivity; try (apply andb_true_iff in H; destruct H as [H1 H2]; now rewrite (IHf1 H1 k b c d), (IHf2 H2 k b c d)).
  - destruct Hs; subst s; cbn in H; rewrite !andb_false_r in H; discriminate H.
  - now rewrite (IHf H k b c d).
  - now apply IHf.
Qed.
Lemma init_value varOf ins outs s f : s = SEnvInit \/ s = SSysInit -> forall p, usable varOf ins outs s p f = true -> forall a b c, stepValue a b f = stepValue a c f.
Proof.
  intros Hs. induction f; intros p; cbn [usable stepValue]; intros H a b c; try reflexivity; try (apply andb_true_iff in H; destruct H as [H1 H2]; now rewrite (IHf1 p H1 a b c), (IHf2 p H2 a b c)).
  - now rewrite (IHf p H a b c).
  - now apply (init_next varOf ins outs s f Hs).
Qed.

Section Meaning.
  Variable atom : string -> option bool -> bool.
  Variable varOf : string -> string.
  Variables ins outs : list string.
  Variables fa fg : list ltl.
  Hypothesis T : translatable atom fa fg = true.
  Hypothesis W : wellScoped varOf ins outs fa fg = true.
  Variable pi : nat -> state.
  Definition wordOf : word := fun i => at_ varOf ins outs (pi i).
  Lemma side fs (initS : section) (sw : bool) : initS = SEnvInit \/ initS = SSysInit ->
    forallb (stepFormula atom true) (parts initialOf fs) = true -> forallb (stepFormula atom true) (parts alwaysOf fs) = true -> forallb (stepFormula atom (negb sw)) (parts recurringOf fs) = true ->
    forallb (usable varOf ins outs initS false) (parts initialOf fs) = true ->
    ((forall f, In f fs -> sat wordOf 0 f) <->
     forallb (stepValue (wordOf 0) (wordOf 0)) (parts initialOf fs) = true /\ (forall n, forallb (stepValue (wordOf n) (wordOf (S n))) (parts alwaysOf fs) = true) /\
     forall p, In p (map (fun f st st' => stepValue (at_ varOf ins outs (if sw then st' else st)) (at_ varOf ins outs st') f) (parts recurringOf fs)) -> inf_often p pi).
  Proof.
    intros Hs T1 T2 T3 U. rewrite forallb_forall in T1, T2, T3, U. rewrite sat_parts. split.
    - intros (A & B & C). split; [|split].
      + apply forallb_forall. intros g G. rewrite (init_value varOf ins outs initS g Hs false (U g G) _ _ (wordOf 1)). apply (sat_step atom true wordOf g 0 (T1 g G)). auto.
      + intros n. apply forallb_forall. intros g G. apply (sat_step atom true wordOf g n (T2 g G)). auto.
      + intros p P. apply in_map_iff in P. destruct P as (g & <- & G). intros n. destruct sw; cbn [negb] in T3.
        * destruct (C g G (S n)) as (m & Hm & Q). destruct m as [|m]; [lia|]. exists m. split; [lia|]. apply (sat_step atom false wordOf g (S m) (T3 g G)) in Q. rewrite <- Q. apply (value_false atom _ _ _ g (T3 g G)).
        * destruct (C g G n) as (m & Hm & Q). exists m. split; [lia|]. now apply (sat_step atom true wordOf g m (T3 g G)) in Q.
    - intros (A & B & C). rewrite forallb_forall in A. split; [|split].
      + intros g G. apply (sat_step atom true wordOf g 0 (T1 g G)). rewrite (init_value varOf ins outs initS g Hs false (U g G) _ _ (wordOf 0)). auto.
      + intros g G n. specialize (B n). rewrite forallb_forall in B. apply (sat_step atom true wordOf g n (T2 g G)). auto.
      + intros g G n. destruct (C _ (in_map _ _ _ G) n) as (m & Hm & Q). cbv beta in Q. destruct sw; cbn [negb] in T3.
        * exists (S m). split; [lia|]. apply (sat_step atom false wordOf g (S m) (T3 g G)). rewrite <- Q. apply (value_false atom _ _ _ g (T3 g G)).
        * exists m. split; [lia|]. apply (sat_step atom true wordOf g m (T3 g G)). exact Q.
  Qed.
  Lemma meaning : let g := ltlGame varOf ins outs fa fg in
    ((forall f, In f fa -> sat wordOf 0 f) <-> g_initE g (pi 0) = true /\ (forall n, g_safeE g (pi n) (pi (S n)) = true) /\ (forall p, In p (g_liveA g) -> inf_often p pi)) /\
    ((forall f, In f fg -> sat wordOf 0 f) <-> g_initS g (pi 0) = true /\ (forall n, g_safeS g (pi n) (pi (S n)) = true) /\ (forall p, In p (g_liveG g) -> inf_often p pi)).
  Proof.
    pose proof T as T'. pose proof W as W'. unfold translatable, wellScoped in T', W'. rewrite !andb_true_iff in T', W'. destruct T' as [[[[[T1 T2] T3] T4] T5] T6], W' as [[[[[W1 W2] W3] W4] W5] W6].
    split; [apply (side fa SEnvInit false)|apply (side fg SSysInit true)]; auto.
  Qed.
  Lemma objective_sat : objective (ltlGame varOf ins outs fa fg) pi -> (forall f, In f fa -> sat wordOf 0 f) -> forall f, In f fg -> sat wordOf 0 f.
  Proof.
    intros O A. destruct meaning as [MA MG]. apply MA in A. destruct A as (I & S & L). apply MG. destruct (O I) as (I' & S' & L'). split; [exact I'|]. split; [|now apply L'].
    intros n. apply S'. intros m _. apply S.
  Qed.
End Meaning.
