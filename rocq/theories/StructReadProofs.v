(** * Proofs: readings have derivation trees; tokens of lines *)

From Coq Require Import String Ascii List Bool Arith NArith ZArith Lia.
From Verif Require Import FormulaSpec StructuredSpec StructGrammar Structured StructTables StructParse StructItems StructParseProofs StructTreeProofs.
Import ListNotations.
Local Open Scope string_scope.

Ltac node p := apply (d_node p _ _ _ ltac:(unfold startProduction; lia) eq_refl); repeat (apply ds_cons; [|]); [..|apply ds_nil].

Definition numNT (l : nat) : string :=
  match l with 0 => "AtomicNumberExpression" | 1 => "LeastSignificantBitOverwriteExpression" | 2 => "MultiplicativeNumber" | _ => "NumberExpression" end.
Definition fmlNT (l : nat) : string :=
  match l with 0 => "AtomicFormula" | 1 => "UnaryFormula" | 2 => "BinaryTemporalFormula" | 3 => "Conjunction" | 4 => "Disjunction" | 5 => "Xor"
  | 6 => "Implication" | _ => "Biimplication" end.

Lemma leaf_op A k p : nth_error productions p = Some (A, [k]) -> p < startProduction -> isTerm k = true -> deriv A (Node A [Leaf (k, "")]).
Proof. intros H Hp Hk. apply (d_node p _ _ _ Hp H). repeat constructor; auto. Qed.

Lemma number_tree l ts a : number l ts a -> exists t, deriv (numNT l) t /\ yield t = ts /\ numOf t = Some a.
Proof.
  induction 1 as [x|w|ts a H IH|l ts a L H IH|ts us a b _ IH1 _ IH2|ts us a b _ IH1 _ IH2|ts us a b _ IH1 _ IH2].
  - exists (Node "AtomicNumberExpression" [Leaf ("numID", x)]). split; [|split; reflexivity]. node 32. now constructor.
  - exists (Node "AtomicNumberExpression" [Leaf ("numeral", w)]). split; [|split; reflexivity]. node 33. now constructor.
  - destruct IH as (t & D & <- & E). exists (Node "AtomicNumberExpression" [Node "NumberBrackets" [Leaf ("(", ""); t; Leaf (")", "")]]).
    split; [|split; [cbn; rewrite !app_nil_r; reflexivity|cbn; rewrite E; reflexivity]].
    node 34. node 35; [now constructor|exact D|now constructor].
  - destruct IH as (t & D & <- & E). exists (Node (numNT (S l)) [t]).
    split; [|split; [cbn; rewrite app_nil_r; reflexivity|]].
    + destruct l as [|[|[|]]]; [| | |lia]; cbn [numNT] in *; [node 30|node 28|node 25]; exact D.
    + destruct l as [|[|[|]]]; [| | |lia]; cbn; exact E.
  - destruct IH1 as (t & D & <- & E), IH2 as (t' & D' & <- & E').
    exists (Node (numNT 1) [t; Node "LeastSignificantBitOverwriteOperator" [Leaf ("LEASTSIGNIFICANTBITOVERWRITES", "")]; t']).
    split; [|split; [cbn; rewrite app_nil_r; reflexivity|cbn; rewrite E, E'; reflexivity]].
    cbn [numNT]. node 31; [exact D| |exact D']. now apply (leaf_op _ _ 64); [|unfold startProduction; lia|].
  - destruct IH1 as (t & D & <- & E), IH2 as (t' & D' & <- & E').
    exists (Node (numNT 2) [t; Node "MultiplicationOperator" [Leaf ("*", "")]; t']).
    split; [|split; [cbn; rewrite app_nil_r; reflexivity|cbn; rewrite E, E'; reflexivity]].
    cbn [numNT]. node 29; [exact D| |exact D']. now apply (leaf_op _ _ 63); [|unfold startProduction; lia|].
  - destruct IH1 as (t & D & <- & E), IH2 as (t' & D' & <- & E').
    exists (Node (numNT 3) [t; Node "AdditionOperator" [Leaf ("+", "")]; t']).
    split; [|split; [cbn; rewrite app_nil_r; reflexivity|cbn; rewrite E, E'; reflexivity]].
    cbn [numNT]. node 26; [exact D| |exact D']. now apply (leaf_op _ _ 62); [|unfold startProduction; lia|].
Qed.

(** The tree of an operator with a tree for each of its tokens. *)
Definition opTree (A : string) (ks : list string) : ptree := Node A (map (fun k => Leaf (k, "")) ks).
Lemma opTree_deriv A ks p : nth_error productions p = Some (A, ks) -> p < startProduction -> forallb isTerm ks = true -> deriv A (opTree A ks).
Proof.
  intros H Hp Hk. apply (d_node p _ _ _ Hp H). clear - Hk. induction ks as [|k ks IH]; [constructor|].
  cbn in *. apply andb_true_iff in Hk. destruct Hk. constructor; auto. now constructor.
Qed.
Ltac opt A ks p := exists (opTree A ks); split; [now apply (opTree_deriv A ks p); [|unfold startProduction; lia|]|reflexivity].
Ltac wopt W q A ks p := exists (Node W [opTree A ks]); split; [node q; now apply (opTree_deriv A ks p); [|unfold startProduction; lia|]|split; reflexivity].

Lemma comparing_tree os c : comparing os c -> exists t, deriv "NumberComparisonOperator" t /\ yield t = os /\ comparatorOf t = Some c.
Proof.
  destruct 1.
  - wopt "NumberComparisonOperator" 50 "GreaterOperator" [">"] 56.
  - wopt "NumberComparisonOperator" 53 "GreaterEqualOperator" [">"; "="] 61.
  - wopt "NumberComparisonOperator" 55 "SmallerOperator" ["<"] 57.
  - wopt "NumberComparisonOperator" 54 "SmallerEqualOperator" ["<"; "="] 60.
  - wopt "NumberComparisonOperator" 51 "EqualOperator" ["="] 58.
  - wopt "NumberComparisonOperator" 52 "UnequalOperator" ["!"; "="] 59.
Qed.

Lemma prefixed_tree os o : prefixed os o -> exists t, deriv "UnaryTemporalOperator" t /\ yield t = os /\ unopOf t = Some o.
Proof.
  destruct 1 as [ts H|ts H|ts H|ts H]; cbn in H; repeat (destruct H as [<-|H]); try contradiction.
  - wopt "UnaryTemporalOperator" 69 "NotOperator" ["!"] 77.
  - wopt "UnaryTemporalOperator" 69 "NotOperator" ["~"] 78.
  - wopt "UnaryTemporalOperator" 67 "NextOperator" ["("; ")"] 72.
  - wopt "UnaryTemporalOperator" 67 "NextOperator" ["next"] 73.
  - wopt "UnaryTemporalOperator" 67 "NextOperator" ["X"] 74.
  - wopt "UnaryTemporalOperator" 66 "FinallyOperator" ["<"; ">"] 70.
  - wopt "UnaryTemporalOperator" 66 "FinallyOperator" ["F"] 71.
  - wopt "UnaryTemporalOperator" 68 "GloballyOperator" ["["; "]"] 75.
  - wopt "UnaryTemporalOperator" 68 "GloballyOperator" ["G"] 76.
Qed.

Lemma infixed_tree l os c t t' f g : infixed (S l) os c -> deriv (fmlNT (S l)) t -> deriv (fmlNT l) t' -> fmlOf t = Some f -> fmlOf t' = Some g ->
  exists u, deriv (fmlNT (S l)) u /\ yield u = (yield t ++ os ++ yield t')%list /\ fmlOf u = Some (c f g).
Proof.
  intros H D D' E E'.
  assert (K : forall p A o, nth_error productions p = Some (fmlNT (S l), [fmlNT (S l); A; fmlNT l]) -> p < startProduction -> deriv A o ->
    fmlOf (Node (fmlNT (S l)) [t; o; t']) = Some (c f g) -> yield o = os ->
    exists u, deriv (fmlNT (S l)) u /\ yield u = (yield t ++ os ++ yield t')%list /\ fmlOf u = Some (c f g)).
  { intros p A o Hn Hp Do Eo <-. exists (Node (fmlNT (S l)) [t; o; t']). split; [|split; [cbn; now rewrite app_nil_r|exact Eo]].
    apply (d_node p _ _ _ Hp Hn). repeat (apply ds_cons; [assumption|]). apply ds_nil. }
  Ltac fin K q A ks p E E' := apply (K q A (opTree A ks)); [reflexivity|unfold startProduction; lia
    |now apply (opTree_deriv A ks p); [|unfold startProduction; lia|]|cbn; rewrite E, E'; reflexivity|reflexivity].
  inversion H as [U1 U2 U3|U1 U2 U3|ts H0 U1 U2 U3|ts H0 U1 U2 U3|U1 U2 U3|ts H0 U1 U2 U3|ts H0 U1 U2 U3]; subst l os c.
  - apply (K 12 "BinaryTemporalOperator" (Node "BinaryTemporalOperator" [opTree "UntilOperator" ["U"]]));
      [reflexivity|unfold startProduction; lia| |cbn; rewrite E, E'; reflexivity|reflexivity].
    node 36. now apply (opTree_deriv _ _ 38); [|unfold startProduction; lia|].
  - apply (K 12 "BinaryTemporalOperator" (Node "BinaryTemporalOperator" [opTree "WeakUntilOperator" ["W"]]));
      [reflexivity|unfold startProduction; lia| |cbn; rewrite E, E'; reflexivity|reflexivity].
    node 37. now apply (opTree_deriv _ _ 39); [|unfold startProduction; lia|].
  - cbn in H0. repeat (destruct H0 as [<-|H0]); try contradiction.
    + fin K 10 "ConjunctionOperator" ["/"; "\"] 47 E E'.
    + fin K 10 "ConjunctionOperator" ["&"] 48 E E'.
    + fin K 10 "ConjunctionOperator" ["&"; "&"] 49 E E'.
  - cbn in H0. repeat (destruct H0 as [<-|H0]); try contradiction.
    + fin K 8 "DisjunctionOperator" ["\"; "/"] 44 E E'.
    + fin K 8 "DisjunctionOperator" ["|"] 45 E E'.
    + fin K 8 "DisjunctionOperator" ["|"; "|"] 46 E E'.
  - fin K 6 "XorOperator" ["^"] 65 E E'.
  - cbn in H0. repeat (destruct H0 as [<-|H0]); try contradiction.
    + fin K 4 "ImplicationOperator" ["-"; "-"; ">"] 40 E E'.
    + fin K 4 "ImplicationOperator" ["-"; ">"] 41 E E'.
  - cbn in H0. repeat (destruct H0 as [<-|H0]); try contradiction.
    + fin K 2 "BiimplicationOperator" ["<"; "-"; "-"; ">"] 42 E E'.
    + fin K 2 "BiimplicationOperator" ["<"; "-"; ">"] 43 E E'.
Qed.

Lemma formula_tree l ts f : formula l ts f -> exists t, deriv (fmlNT l) t /\ yield t = ts /\ fmlOf t = Some f.
Proof.
  induction 1 as [| |x|ts f _ IH|ts f _ IH|ts os us a c b Ha Hc Hb|os ts o f Ho _ IH|l ts f L _ IH|l os c ts us f g Ho _ IH1 _ IH2].
  - exists (Node "AtomicFormula" [Leaf ("TRUE", "")]). split; [|split; reflexivity]. node 16. now constructor.
  - exists (Node "AtomicFormula" [Leaf ("FALSE", "")]). split; [|split; reflexivity]. node 15. now constructor.
  - exists (Node "AtomicFormula" [Node "BooleanAtomicFormula" [Node "Assignment" [Leaf ("boolID", x)]]]). split; [|split; reflexivity].
    node 18. node 21. node 23. now constructor.
  - destruct IH as (t & D & <- & E). exists (Node "AtomicFormula" [Node "Brackets" [Leaf ("(", ""); t; Leaf (")", "")]]).
    split; [|split; [cbn; rewrite !app_nil_r; reflexivity|cbn; rewrite E; reflexivity]].
    node 17. node 19; [now constructor|exact D|now constructor].
  - destruct IH as (t & D & <- & E). exists (Node "AtomicFormula" [Node "Brackets" [Leaf ("[", ""); t; Leaf ("]", "")]]).
    split; [|split; [cbn; rewrite !app_nil_r; reflexivity|cbn; rewrite E; reflexivity]].
    node 17. node 20; [now constructor|exact D|now constructor].
  - destruct (number_tree _ _ _ Ha) as (t & D & <- & E), (number_tree _ _ _ Hb) as (t' & D' & <- & E'), (comparing_tree _ _ Hc) as (o & Do & <- & Eo).
    exists (Node "AtomicFormula" [Node "BooleanAtomicFormula" [Node "CalculationSubformula" [t; o; t']]]).
    split; [|split; [cbn; rewrite !app_nil_r; reflexivity|cbn; rewrite E, E', Eo; reflexivity]].
    node 18. node 22. node 24; assumption.
  - destruct IH as (t & D & <- & E), (prefixed_tree _ _ Ho) as (u & Du & <- & Eu).
    exists (Node "UnaryFormula" [u; t]). split; [|split; [cbn; now rewrite app_nil_r|cbn; rewrite Eu, E; reflexivity]].
    cbn [fmlNT]. node 14; assumption.
  - destruct IH as (t & D & <- & E). exists (Node (fmlNT (S l)) [t]).
    split; [|split; [cbn; rewrite app_nil_r; reflexivity|]].
    + destruct l as [|[|[|[|[|[|[|]]]]]]]; [| | | | | | |lia]; cbn [fmlNT] in *; [node 13|node 11|node 9|node 7|node 5|node 3|node 1]; exact D.
    + destruct l as [|[|[|[|[|[|[|]]]]]]]; [| | | | | | |lia]; cbn; exact E.
  - destruct IH1 as (t & D & <- & E), IH2 as (t' & D' & <- & E'). exact (infixed_tree l os c t t' f g Ho D D' E E').
Qed.

(** ** Tokens *)

Lemma takeWhile_spec P s : exists r, s = takeWhile P s ++ r /\ allChars P (takeWhile P s) = true /\ endsBefore P r.
Proof.
  induction s as [|a s IH]; [exists ""; repeat split; auto|]. cbn [takeWhile]. destruct (P a) eqn:Pa.
  - destruct IH as (r & E & A & B). exists r. cbn [append allChars]. rewrite Pa. split; [f_equal; exact E|auto].
  - exists (String a s). cbn. auto.
Qed.

Lemma allChars_digits w : allChars isDigit w = allDigits w.
Proof. induction w as [|a w IH]; cbn; [reflexivity|now rewrite IH]. Qed.

Lemma in_key w : existsb (String.eqb w) keyWords = true <-> In w keyWords.
Proof. rewrite existsb_exists. split; [intros (x & I & E); apply String.eqb_eq in E; now subst|intros I; exists w; split; [exact I|apply String.eqb_refl]]. Qed.
Lemma in_names w l : existsb (String.eqb w) l = true <-> In w l.
Proof. rewrite existsb_exists. split; [intros (x & I & E); apply String.eqb_eq in E; now subst|intros I; exists w; split; [exact I|apply String.eqb_refl]]. Qed.

Lemma wordToken_spec aps w t : word_token aps w t <-> t = wordToken aps w.
Proof.
  unfold wordToken. fold keyWords. destruct (existsb (String.eqb w) keyWords) eqn:K.
  - apply in_key in K. split; [now inversion 1|intros ->; now apply wt_key].
  - assert (K' : ~ In w keyWords) by (rewrite <- in_key; congruence). destruct (existsb (String.eqb w) aps) eqn:B.
    + apply in_names in B. split; [now inversion 1|intros ->; now apply wt_bool].
    + assert (B' : ~ In w aps) by (rewrite <- in_names; congruence). split; [now inversion 1|intros ->; now apply wt_num].
Qed.

Lemma skip_spec aps w r : tokenizeFrom aps (String.length w) (w ++ r) = tokenizeFrom aps 0 r.
Proof. induction w as [|a w IH]; [reflexivity|exact IH]. Qed.

Lemma takeWhile_app P w r : allChars P w = true -> endsBefore P r -> takeWhile P (w ++ r) = w.
Proof.
  induction w as [|a w IH]; intros H E; cbn in *.
  - destruct r as [|a r]; [reflexivity|]. cbn in *. now rewrite E.
  - apply andb_true_iff in H. destruct H as [-> H]. f_equal. auto.
Qed.

Lemma space_word a : isWordStart a = true -> isSpace a = false.
Proof. destruct a as [[] [] [] [] [] [] [] []]; vm_compute; intros H; try reflexivity; discriminate. Qed.
Lemma space_digit a : isDigit a = true -> isSpace a = false /\ isWordStart a = false.
Proof. destruct a as [[] [] [] [] [] [] [] []]; vm_compute; intros H; try (split; reflexivity); discriminate. Qed.

Lemma lexes_tokenize aps line ts : lexes aps line ts -> ts = tokenize aps line.
Proof.
  unfold tokenize. induction 1 as [|a s ts Ha _ IH|w s t ts Hw He Ht _ IH|w s ts Hn Hd He _ IH|a s ts Ha Hb Hc _ IH].
  - reflexivity.
  - cbn [tokenizeFrom]. now rewrite Ha.
  - destruct w as [|a w]; [discriminate|]. cbn in Hw. apply andb_true_iff in Hw. destruct Hw as [Ha Hw].
    cbn [append tokenizeFrom]. rewrite (space_word a Ha), Ha.
    rewrite (takeWhile_app _ w s Hw He), skip_spec. cbv zeta. f_equal; [now apply wordToken_spec|exact IH].
  - destruct w as [|a w]; [now elim Hn|]. cbn in Hd. apply andb_true_iff in Hd. destruct Hd as [Ha Hd].
    destruct (space_digit a Ha) as [E1 E2]. cbn [append tokenizeFrom]. rewrite E1, E2, Ha.
    rewrite <- allChars_digits in Hd. rewrite (takeWhile_app _ w s Hd He), skip_spec. cbv zeta. now f_equal.
  - cbn [tokenizeFrom]. rewrite Ha, Hb, Hc. now f_equal.
Qed.

Lemma tokenize_lexes aps line : lexes aps line (tokenize aps line).
Proof.
  unfold tokenize. remember (String.length line) as n eqn:E. assert (L : String.length line <= n) by lia. clear E. revert line L.
  induction n as [|n IH]; intros [|a s] L; cbn in L; try lia; [constructor|constructor|]. cbn [tokenizeFrom].
  destruct (isSpace a) eqn:Es; [apply lex_space; auto; apply IH; lia|].
  destruct (isWordStart a) eqn:Ew.
  - cbv zeta. destruct (takeWhile_spec (fun b => isWordStart b || isDigit b) s) as (r & E & A & B).
    remember (takeWhile (fun b => isWordStart b || isDigit b) s) as w. rewrite E in L |- * at 2. rewrite E at 1.
    rewrite skip_spec. change (String a (w ++ r)) with (String a w ++ r). apply lex_word; auto.
    + cbn. now rewrite Ew, A.
    + now apply wordToken_spec.
    + apply IH. clear - L. revert L. induction w; cbn; intros; [lia|]. apply IHw. lia.
  - destruct (isDigit a) eqn:Ed.
    + cbv zeta. destruct (takeWhile_spec isDigit s) as (r & E & A & B).
      remember (takeWhile isDigit s) as w. rewrite E in L |- * at 2. rewrite E at 1.
      rewrite skip_spec. change (String a (w ++ r)) with (String a w ++ r). apply lex_number; auto.
      * discriminate.
      * cbn. now rewrite Ed, <- allChars_digits, A.
      * apply IH. clear - L. revert L. induction w; cbn; intros; [lia|]. apply IHw. lia.
    + apply lex_symbol; auto. apply IH. lia.
Qed.

Lemma lexes_ok aps line ts : lexes aps line ts -> Forall okTok ts /\ noEOF ts.
Proof.
  induction 1 as [|a s ts Ha _ [IH1 IH2]|w s t ts Hw He Ht _ [IH1 IH2]|w s ts Hn Hd He _ [IH1 IH2]|a s ts Ha Hb Hc _ [IH1 IH2]]; auto.
  - split; [constructor|intros t []].
  - destruct Ht as [K|K B|K B].
    + cbn in K. split; [constructor; auto|intros u [<-|I]; auto]; repeat (destruct K as [<-|K]; [repeat split; cbn; auto; discriminate|]); contradiction.
    + split; [constructor; auto; split; cbn; auto; discriminate|intros u [<-|I]; auto; discriminate].
    + split; [constructor; auto; split; cbn; auto; discriminate|intros u [<-|I]; auto; discriminate].
  - split; [constructor; auto; split; cbn; auto; discriminate|intros u [<-|I]; auto; discriminate].
  - split; [constructor; auto; split; cbn; auto; discriminate|intros u [<-|I]; auto; discriminate].
Qed.

(** ** Lines *)

Theorem parseLTL_spec aps line f : parseLTL aps line = Some f <-> reads aps line f.
Proof.
  unfold parseLTL, reads. pose proof (tokenize_lexes aps line) as Lx. destruct (lexes_ok _ _ _ Lx) as [OK NE]. split.
  - destruct (parseTree (tokenize aps line)) as [t|] eqn:E; [|discriminate]. intros Ef.
    apply (parse_spec _ _ NE) in E. destruct E as [D Y]. exists (tokenize aps line). split; [exact Lx|].
    assert (M := proj1 means_sound _ _ D). red in M. rewrite Y in M. specialize (M OK). kk M.
    destruct M as (f' & Ef' & G). rewrite Ef in Ef'. injection Ef' as <-. exact G.
  - intros (ts & Lx' & G). apply lexes_tokenize in Lx'. subst ts.
    destruct (formula_tree _ _ _ G) as (t & D & Y & E). cbn [fmlNT] in D.
    assert (D' : deriv "Formula" (Node "Formula" [t])) by (node 0; exact D).
    assert (P : parseTree (tokenize aps line) = Some (Node "Formula" [t])).
    { apply parse_spec; [exact NE|]. split; [exact D'|]. cbn. now rewrite app_nil_r. }
    rewrite P. exact E.
Qed.
