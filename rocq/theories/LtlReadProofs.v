(** * Proofs: readings have derivation trees; tokens; trees of texts (translators for RATSY and LTLMop) *)

From Coq Require Import String Ascii List Bool Arith NArith ZArith Lia.
From Verif Require Import FormulaSpec LtlTables StructParse Structured LtlSpec Ltl LtlItems LtlParseProofs LtlTreeProofs.
Import ListNotations.
Local Open Scope string_scope.

Ltac node p := apply (d_node p _ _ _ ltac:(unfold startProduction; lia) eq_refl); repeat (apply ds_cons; [|]); [..|apply ds_nil].

Definition fmlNT (l : nat) : string :=
  match l with 0 => "AtomicFormula" | 1 => "UnaryFormula" | 2 => "BinaryTemporalFormula" | 3 => "Conjunction" | 4 => "Disjunction" | 5 => "Xor"
  | 6 => "Implication" | _ => "Biimplication" end.

(** The tree of an operator with a tree for each of its tokens. *)
Definition opTree (A : string) (ks : list string) : ptree := Node A (map (fun k => Leaf (k, "")) ks).
Lemma opTree_deriv A ks p : nth_error productions p = Some (A, ks) -> p < startProduction -> forallb isTerm ks = true -> deriv A (opTree A ks).
Proof.
  intros H Hp Hk. apply (d_node p _ _ _ Hp H). clear - Hk. induction ks as [|k ks IH]; [constructor|].
  cbn in *. apply andb_true_iff in Hk. destruct Hk. constructor; auto. now constructor.
Qed.
Ltac opt A ks p := exists (opTree A ks); split; [now apply (opTree_deriv A ks p); [|unfold startProduction; lia|]|reflexivity].
Ltac wopt W q A ks p := exists (Node W [opTree A ks]); split; [node q; now apply (opTree_deriv A ks p); [|unfold startProduction; lia|]|split; reflexivity].

Lemma prefixed_tree os o : prefixed os o -> exists t, deriv "UnaryTemporalOperator" t /\ yield t = os /\ unopOf t = Some o.
Proof.
  destruct 1 as [ts H|ts H|ts H|ts H]; cbn in H; repeat (destruct H as [<-|H]); try contradiction.
  - wopt "UnaryTemporalOperator" 41 "NotOperator" ["!"] 49.
  - wopt "UnaryTemporalOperator" 41 "NotOperator" ["~"] 50.
  - wopt "UnaryTemporalOperator" 39 "NextOperator" ["("; ")"] 44.
  - wopt "UnaryTemporalOperator" 39 "NextOperator" ["next"] 45.
  - wopt "UnaryTemporalOperator" 39 "NextOperator" ["X"] 46.
  - wopt "UnaryTemporalOperator" 38 "FinallyOperator" ["<"; ">"] 42.
  - wopt "UnaryTemporalOperator" 38 "FinallyOperator" ["F"] 43.
  - wopt "UnaryTemporalOperator" 40 "GloballyOperator" ["["; "]"] 47.
  - wopt "UnaryTemporalOperator" 40 "GloballyOperator" ["G"] 48.
Qed.

Lemma infixed_tree l os c t t' f g : infixed (S l) os c -> deriv (fmlNT (S l)) t -> deriv (fmlNT l) t' -> fmlOf t = Some f -> fmlOf t' = Some g ->
  exists u, deriv (fmlNT (S l)) u /\ yield u = (yield t ++ os ++ yield t')%list /\ fmlOf u = Some (c f g).
Proof.
  intros H D D' E E'.
  assert (K : forall p A o, nth_error productions p = Some (fmlNT (S l), [fmlNT (S l); A; fmlNT l]) -> p < startProduction -> deriv A o ->
    fmlOf (Node (fmlNT (S l)) [t; o; t']) = Some (c f g) -> yield o = os ->
    exists u, deriv (fmlNT (S l)) u /\ yield u = (yield t ++ os ++ yield t')%list /\ fmlOf u = Some (c f g)).
  { intros p A o Hn Hp Do Eo <-. exists (Node (fmlNT (S l)) [t; o; t']). split; [|split; [cbn; now rewrite app_nil_r|exact Eo]].
    apply (d_node p _ _ _ Hp Hn). repeat (apply ds_cons; [assumption|]). apply ds_nil. }
  Ltac fin K q A ks p E E' := apply (K q A (opTree A ks)); [reflexivity|unfold startProduction; lia
    |now apply (opTree_deriv A ks p); [|unfold startProduction; lia|]|cbn; rewrite E, E'; reflexivity|reflexivity].
  inversion H as [U1 U2 U3|U1 U2 U3|ts H0 U1 U2 U3|ts H0 U1 U2 U3|U1 U2 U3|ts H0 U1 U2 U3|ts H0 U1 U2 U3]; subst l os c.
  - apply (K 12 "BinaryTemporalOperator" (Node "BinaryTemporalOperator" [opTree "UntilOperator" ["U"]]));
      [reflexivity|unfold startProduction; lia| |cbn; rewrite E, E'; reflexivity|reflexivity].
    node 21. now apply (opTree_deriv _ _ 23); [|unfold startProduction; lia|].
  - apply (K 12 "BinaryTemporalOperator" (Node "BinaryTemporalOperator" [opTree "WeakUntilOperator" ["W"]]));
      [reflexivity|unfold startProduction; lia| |cbn; rewrite E, E'; reflexivity|reflexivity].
    node 22. now apply (opTree_deriv _ _ 24); [|unfold startProduction; lia|].
  - cbn in H0. repeat (destruct H0 as [<-|H0]); try contradiction.
    + fin K 10 "ConjunctionOperator" ["*"] 33 E E'.
    + fin K 10 "ConjunctionOperator" ["/"; "\"] 34 E E'.
    + fin K 10 "ConjunctionOperator" ["&"] 35 E E'.
    + fin K 10 "ConjunctionOperator" ["&"; "&"] 36 E E'.
  - cbn in H0. repeat (destruct H0 as [<-|H0]); try contradiction.
    + fin K 8 "DisjunctionOperator" ["+"] 29 E E'.
    + fin K 8 "DisjunctionOperator" ["\"; "/"] 30 E E'.
    + fin K 8 "DisjunctionOperator" ["|"] 31 E E'.
    + fin K 8 "DisjunctionOperator" ["|"; "|"] 32 E E'.
  - fin K 6 "XorOperator" ["^"] 37 E E'.
  - cbn in H0. repeat (destruct H0 as [<-|H0]); try contradiction.
    + fin K 4 "ImplicationOperator" ["-"; "-"; ">"] 25 E E'.
    + fin K 4 "ImplicationOperator" ["-"; ">"] 26 E E'.
  - cbn in H0. repeat (destruct H0 as [<-|H0]); try contradiction.
    + fin K 2 "BiimplicationOperator" ["<"; "-"; "-"; ">"] 27 E E'.
    + fin K 2 "BiimplicationOperator" ["<"; "-"; ">"] 28 E E'.
Qed.

Lemma formula_tree l ts f : formula l ts f -> exists t, deriv (fmlNT l) t /\ yield t = ts /\ fmlOf t = Some f.
Proof.
  induction 1 as [| |x|x|x|ts f _ IH|ts f _ IH|os ts o f Ho _ IH|l ts f L _ IH|l os c ts us f g Ho _ IH1 _ IH2].
  - exists (Node "AtomicFormula" [Leaf ("TRUE", "")]). split; [|split; reflexivity]. node 16. now constructor.
  - exists (Node "AtomicFormula" [Leaf ("FALSE", "")]). split; [|split; reflexivity]. node 15. now constructor.
  - exists (Node "AtomicFormula" [Node "Assignment" [Leaf ("id", x)]]). split; [|split; reflexivity].
    node 18. node 51. now constructor.
  - exists (Node "AtomicFormula" [Node "Assignment" [Leaf ("id", x); Leaf ("=", ""); Leaf ("0", "")]]). split; [|split; reflexivity].
    node 18. node 52; now constructor.
  - exists (Node "AtomicFormula" [Node "Assignment" [Leaf ("id", x); Leaf ("=", ""); Leaf ("1", "")]]). split; [|split; reflexivity].
    node 18. node 53; now constructor.
  - destruct IH as (t & D & <- & E). exists (Node "AtomicFormula" [Node "Brackets" [Leaf ("(", ""); t; Leaf (")", "")]]).
    split; [|split; [cbn; rewrite !app_nil_r; reflexivity|cbn; rewrite E; reflexivity]].
    node 17. node 19; [now constructor|exact D|now constructor].
  - destruct IH as (t & D & <- & E). exists (Node "AtomicFormula" [Node "Brackets" [Leaf ("[", ""); t; Leaf ("]", "")]]).
    split; [|split; [cbn; rewrite !app_nil_r; reflexivity|cbn; rewrite E; reflexivity]].
    node 17. node 20; [now constructor|exact D|now constructor].
  - destruct IH as (t & D & <- & E), (prefixed_tree _ _ Ho) as (u & Du & <- & Eu).
    exists (Node "UnaryFormula" [u; t]). split; [|split; [cbn; now rewrite app_nil_r|cbn; rewrite Eu, E; reflexivity]].
    cbn [fmlNT]. node 14; assumption.
  - destruct IH as (t & D & <- & E). exists (Node (fmlNT (S l)) [t]).
    split; [|split; [cbn; rewrite app_nil_r; reflexivity|]].
    + destruct l as [|[|[|[|[|[|[|]]]]]]]; [| | | | | | |lia]; cbn [fmlNT] in *; [node 13|node 11|node 9|node 7|node 5|node 3|node 1]; exact D.
    + destruct l as [|[|[|[|[|[|[|]]]]]]]; [| | | | | | |lia]; cbn; exact E.
  - destruct IH1 as (t & D & <- & E), IH2 as (t' & D' & <- & E'). exact (infixed_tree l os c t t' f g Ho D D' E E').
Qed.

(** ** Tokens *)

Definition endsBefore (s : string) : Prop := match s with "" => True | String a _ => isIdChar a = false end.
Lemma takeWhile_spec s : exists r, s = takeWhile isIdChar s ++ r /\ allIdChars (takeWhile isIdChar s) = true /\ endsBefore r.
Proof.
  induction s as [|a s IH]; [exists ""; repeat split; auto|]. cbn [takeWhile]. destruct (isIdChar a) eqn:Pa.
  - destruct IH as (r & E & A & B). exists r. cbn [append allIdChars]. rewrite Pa. split; [f_equal; exact E|auto].
  - exists (String a s). cbn. auto.
Qed.
Lemma takeWhile_app w r : allIdChars w = true -> endsBefore r -> takeWhile isIdChar (w ++ r) = w.
Proof.
  induction w as [|a w IH]; intros H E; cbn in *.
  - destruct r as [|a r]; [reflexivity|]. cbn in *. now rewrite E.
  - apply andb_true_iff in H. destruct H as [-> H]. f_equal. auto.
Qed.
Lemma skip_spec w r : tokenizeFrom (String.length w) (w ++ r) = tokenizeFrom 0 r.
Proof. induction w as [|a w IH]; [reflexivity|exact IH]. Qed.
Lemma space_id a : isIdChar a = true -> isWs a = false.
Proof. destruct a as [[] [] [] [] [] [] [] []]; vm_compute; intros H; try reflexivity; discriminate. Qed.

Lemma prefix_word k w r : allIdChars k = true -> endsBefore r -> String.prefix k (w ++ r) = true -> String.prefix k w = true.
Proof.
  revert w. induction k as [|a k IH]; intros w A E P.
  - destruct w; reflexivity.
  - cbn in A. apply andb_true_iff in A. destruct A as [Aa A]. destruct w as [|b w].
    + exfalso. destruct r as [|b r]; cbn in P; [discriminate|]. destruct (ascii_dec a b) as [->|]; [|discriminate]. cbn in E. congruence.
    + cbn in *. destruct (ascii_dec a b); [|discriminate]. auto.
Qed.

Definition noLong (ts : list token) : Prop := forall x k, In ("id", x) ts -> In k longKeys -> String.prefix k x = false.

Lemma long_word w r k : allIdChars w = true -> endsBefore r -> noLong [wordToken w] -> In k longKeys ->
  String.prefix k (w ++ r) = true -> w = k.
Proof.
  intros A E N K P. apply prefix_word in P; [| |exact E].
  - unfold wordToken in N. destruct (existsb (String.eqb w) keys) eqn:B.
    + apply existsb_str in B. cbn in B, K.
      repeat (destruct B as [<-|B]; [repeat (destruct K as [<-|K]; [try reflexivity; discriminate|]); contradiction|]). contradiction.
    + rewrite (N w k (or_introl eq_refl) K) in P. discriminate.
  - cbn in K. repeat (destruct K as [<-|K]; [reflexivity|]). contradiction.
Qed.

Lemma lexes_tokenize text ts : lexes text ts -> noLong ts -> tokenize text = ts.
Proof.
  unfold tokenize. induction 1 as [|a s ts Ha _ IH|w s ts Hn Hw He _ IH|a s ts Ha Hb _ IH]; intros N.
  - reflexivity.
  - cbn [tokenizeFrom]. rewrite Ha. auto.
  - assert (N1 : noLong [wordToken w]) by (intros x k [I|[]]; apply N; now left).
    assert (N2 : noLong ts) by (intros x k I; apply N; now right). specialize (IH N2).
    destruct (in_dec string_dec w longKeys) as [L|L].
    + cbn in L. repeat (destruct L as [<-|L]; [destruct s; rewrite <- IH; reflexivity|]). contradiction.
    + assert (PF : forall k, In k longKeys -> String.prefix k (w ++ s) = false).
      { intros k K. destruct (String.prefix k (w ++ s)) eqn:P; [|reflexivity]. apply (long_word w s k Hw He N1 K) in P. subst. contradiction. }
      destruct w as [|a w]; [now elim Hn|]. cbn in Hw. apply andb_true_iff in Hw. destruct Hw as [Ha Hw].
      change (String a w ++ s) with (String a (w ++ s)) in *. cbn [tokenizeFrom]. rewrite (space_id a Ha).
      rewrite (PF "FALSE"), (PF "TRUE"), (PF "next") by (cbn; auto). rewrite Ha, (takeWhile_app w s Hw He).
      destruct w as [|b w].
      * cbn [append]. rewrite IH. f_equal. unfold wordToken, keys. rewrite existsb_app.
        replace (existsb (String.eqb (String a "")) longKeys) with false; [reflexivity|].
        cbn [longKeys existsb String.eqb]. destruct (Ascii.eqb a "F"), (Ascii.eqb a "T"), (Ascii.eqb a "n"); reflexivity.
      * rewrite skip_spec, IH. f_equal. unfold wordToken. destruct (existsb (String.eqb (String a (String b w))) keys) eqn:B; [|reflexivity].
        exfalso. apply existsb_str in B. unfold keys in B. apply in_app_or in B. destruct B as [B|B]; [contradiction|].
        cbn in B. repeat (destruct B as [B|B]; [discriminate|]). contradiction.
  - assert (N2 : noLong ts) by (intros x k I; apply N; now right). cbn [tokenizeFrom]. rewrite Ha.
    assert (PF : forall k, In k longKeys -> String.prefix k (String a s) = false).
    { intros k K. cbn in K. repeat (destruct K as [<-|K]; [cbn [String.prefix]; match goal with |- (if ascii_dec ?b a then _ else _) = _ => destruct (ascii_dec b a) as [<-|]; [vm_compute in Hb; discriminate|reflexivity] end|]). contradiction. }
    rewrite (PF "FALSE"), (PF "TRUE"), (PF "next") by (cbn; auto). rewrite Hb, (IH N2). reflexivity.
Qed.

Lemma lexes_total s : exists ts, lexes s ts.
Proof.
  remember (String.length s) as n eqn:E. assert (L : String.length s <= n) by lia. clear E. revert s L.
  induction n as [|n IH]; intros [|a s] L; cbn in L; try lia; [eexists; constructor|eexists; constructor|].
  destruct (isWs a) eqn:Ea; [destruct (IH s) as (ts & H); [lia|]; eexists; apply lex_space; eauto|].
  destruct (isIdChar a) eqn:Ei.
  - destruct (takeWhile_spec s) as (r & E & A & B). remember (takeWhile isIdChar s) as w. clear Heqw. subst s.
    destruct (IH r) as (ts & H). { clear - L. revert L. induction w; cbn; intros; [lia|]. apply IHw. lia. }
    exists (wordToken (String a w) :: ts). change (String a (w ++ r)) with (String a w ++ r). apply lex_word; auto; [discriminate|].
    cbn. now rewrite Ei, A.
  - destruct (IH s) as (ts & H); [lia|]. eexists. apply lex_symbol; eauto.
Qed.

Lemma lexes_ok text ts : lexes text ts -> Forall okTok ts /\ noEOF ts.
Proof.
  induction 1 as [|a s ts Ha _ [IH1 IH2]|w s ts Hn Hw He _ [IH1 IH2]|a s ts Ha Hb _ [IH1 IH2]]; auto.
  - split; [constructor|intros t []].
  - unfold wordToken. destruct (existsb (String.eqb w) keys) eqn:B.
    + apply existsb_str in B. split; [constructor; auto; right; reflexivity|intros u [<-|I]; auto].
      cbn in B. repeat (destruct B as [<-|B]; [discriminate|]). contradiction.
    + split; [constructor; auto; left; reflexivity|intros u [<-|I]; auto; discriminate].
  - split; [constructor; auto; right; reflexivity|intros u [<-|I]; auto; discriminate].
Qed.

(** ** The tree of a text that ends with a semicolon *)


Theorem parseLTL_sound text r : plainText text -> parseLTL text = Ret r ->
  exists f t e, entryText text f /\ repr t f /\ r = flatten (TNode "Formula" [t; TLeaf e]).
Proof.
  intros P H. destruct (lexes_total text) as (ts & Lx). destruct (lexes_ok _ _ Lx) as [OK NE].
  assert (T : tokenize text = ts) by (apply lexes_tokenize; [exact Lx|intros x k; apply P; exact Lx]).
  unfold parseLTL in H. rewrite T in H. destruct (parseTree ts) as [t|] eqn:E; [|discriminate].
  apply (parse_spec _ _ NE) in E. destruct E as [D Y]. assert (M := proj1 means_sound _ _ D). red in M. rewrite Y in M. specialize (M OK). kk M.
  destruct M as (f & t' & e & us & Ef & C & R & -> & G). rewrite C in H. injection H as <-.
  exists f, t', e. split; [|auto]. exists us. auto.
Qed.
Theorem parseLTL_complete text f : plainText text -> entryText text f ->
  exists t e, repr t f /\ parseLTL text = Ret (flatten (TNode "Formula" [t; TLeaf e])).
Proof.
  intros P (us & Lx & G). destruct (lexes_ok _ _ Lx) as [OK NE].
  assert (T : tokenize text = (us ++ [sym ";"])%list) by (apply lexes_tokenize; [exact Lx|intros x k; apply P; exact Lx]).
  destruct (formula_tree _ _ _ G) as (t & D & Y & E). cbn [fmlNT] in D.
  assert (D' : deriv "Formula" (Node "Formula" [t; Leaf (";", "")])) by (node 0; [exact D|now constructor]).
  assert (Y' : yield (Node "Formula" [t; Leaf (";", "")]) = (us ++ [sym ";"])%list) by (cbn; rewrite Y; reflexivity).
  assert (Q : parseTree (us ++ [sym ";"]) = Some (Node "Formula" [t; Leaf (";", "")])) by (apply parse_spec; auto).
  assert (M := proj1 means_sound _ _ D'). red in M. rewrite Y' in M. specialize (M OK). kk M.
  destruct M as (f' & t' & e & us' & Ef & C & R & _ & _). cbn in Ef. rewrite E in Ef. injection Ef as <-.
  exists t', e. split; [exact R|]. unfold parseLTL. now rewrite T, Q, C.
Qed.
