(** * Proofs: the files of the integer variable substitutor *)

From Coq Require Import String Ascii List Bool Arith NArith ZArith Lia.
From Verif Require Import FormulaSpec Parser FileSpec ParserProofs FileProofs OutputProofs SymbolicProofs MinCoreProofs FastSlowFile MonoProofs
  StructuredSpec Structured StructuredProofs StructuredTrans StructuredAccept StructGrammar StructParse StructReadProofs StructFileSpec StructFile StructFileProofs StructDeclProofs
  StructTokenProofs StructConvProofs StructMain StuckProofs DecoderProofs LtlMain SubstSpec Subst SubstProofs SubstFileSpec SubstFile.
Import ListNotations.
Local Open Scope string_scope.

(** ** Plain texts *)
Definition plain (s : string) : Prop := noNl s /\ startsPlain s.
Lemma strip_app_first s t a r : strip s = String a r -> exists r', strip (s ++ t) = String a r'.
Proof.
  induction s as [|b s IH]; [discriminate|]. cbn [append]. destruct (isWs b) eqn:W; [rewrite !strip_ws by exact W; exact IH|].
  destruct (strip_first b s W) as (r1 & ->), (strip_first b (s ++ t) W) as (r2 & ->). intros E. injection E as <- _. eauto.
Qed.
Lemma plain_app s t : plain s -> noNl t -> plain (s ++ t).
Proof. intros [N (a & r & E & H)] M. split; [now apply noNl_app|]. destruct (strip_app_first s t a r E) as (r' & E'). exists a, r'. auto. Qed.
Lemma plain_char a s : isWs a = false -> a <> "["%char -> a <> "#"%char -> noNl (String a s) -> plain (String a s).
Proof. intros W H1 H2 N. split; [exact N|]. destruct (strip_first a s W) as (r & E). exists a, r. auto. Qed.
Lemma noNl_cons a s : a <> "010"%char -> noNl s -> noNl (String a s).
Proof. intros H N b [<-|Hb]; auto. Qed.
Lemma plain_open s : noNl s -> plain (String "(" s).
Proof. intros N. apply plain_char; [reflexivity|discriminate|discriminate|apply noNl_cons; [discriminate|exact N]]. Qed.
Lemma plain_word x : isWordToken x = true -> plain x.
Proof.
  intros T. pose proof (noWs_noNl _ (token_noWs _ T)) as N. destruct (token_cons x T) as (a & r & -> & Ha). apply plain_char; auto; [|intros ->; discriminate Ha..].
  pose proof (token_noWs _ T) as W. unfold noWs in W. cbn [allChars] in W. apply andb_prop in W. destruct W as [W _]. now apply negb_true_iff.
Qed.
Lemma plain_showZ n : (0 <= n)%Z -> plain (showZ n).
Proof.
  intros H. pose proof (noWs_showZ n) as W. pose proof (noWs_noNl _ W) as N. destruct (showZ_numeral n H) as (H1 & H2 & _). destruct (showZ n) as [|a r]; [congruence|].
  cbn in H2. apply andb_prop in H2. destruct H2 as [H2 _]. unfold noWs in W. cbn [allChars] in W. apply andb_prop in W. destruct W as [W _]. apply plain_char; auto; [now apply negb_true_iff|intros ->; discriminate H2..].
Qed.
Lemma plain_line s : plain s -> lineOK s /\ contentS s = true.
Proof.
  intros [N (a & r & E & H1 & H2)]. apply Ascii.eqb_neq in H1, H2. split; [split; [exact N|rewrite E; cbn; exact H1]|]. unfold contentS, content. rewrite E. cbn. now rewrite H2.
Qed.
Lemma noNl_join c l : noNl c -> Forall noNl l -> noNl (String.concat c l).
Proof.
  intros C F. induction F as [|a l H F IH]; [intros b []|]. destruct l as [|b l]; [exact H|]. change (String.concat c (a :: b :: l)) with (a ++ c ++ String.concat c (b :: l)). repeat apply noNl_app; auto.
Qed.

Ltac nonl := repeat first [assumption | apply noNl_lit; reflexivity | apply noNl_app | (apply noNl_cons; [discriminate|])].

(** ** The text of a translated line *)
Section TEXT.
  Variable repl : string -> option (string * string).
  Hypothesis RP : forall x p m, repl x = Some (p, m) -> plain p /\ noNl m.
  Fixpoint numQ (a : num) : Prop :=
    match a with
    | NumID x => noNl x
    | Numeral n => (0 <= n)%Z
    | Add a b | Mul a b | Overwrite a b => numQ a /\ numQ b
    | NumBrackets a => numQ a
    end.
  Definition leftP (a : num) : Prop :=
    match a with NumID x => plain x | _ => True end.
  Lemma numQ_line next a : forall w, numQ a -> numLine next a = Ret w -> noNl w.
  Proof.
    induction a as [x|n|a IHa b IHb|a IHa b IHb|a IHa|a IHa b IHb]; cbn [numQ numLine]; intros w Q E; try discriminate E.
    - destruct next; [discriminate E|]. now injection E as <-.
    - injection E as <-. now apply plain_showZ.
    - destruct (numLine next a) as [u| |]; try discriminate E. cbn [pybind] in E. destruct (numLine next b) as [v| |]; try discriminate E. cbn [pybind] in E. injection E as <-. destruct Q as [Q1 Q2].
      pose proof (IHa _ Q1 eq_refl). pose proof (IHb _ Q2 eq_refl). nonl.
  Qed.
  Lemma numP_line next a w : numQ a -> leftP a -> numLine next a = Ret w -> plain w.
  Proof.
    intros Q P E. pose proof (numQ_line next a w Q E) as N. destruct a as [x|n|a b|a b|a|a b]; cbn [numLine] in E; try discriminate E.
    - destruct next; [discriminate E|]. now injection E as <-.
    - injection E as <-. now apply plain_showZ.
    - destruct (numLine next a) as [u| |]; try discriminate E. cbn [pybind] in E. destruct (numLine next b) as [v| |]; try discriminate E. cbn [pybind] in E. injection E as <-.
      apply plain_open. intros c Hc. apply N. now right.
  Qed.
  Lemma expr_P a : forall a' adds, numTokens a = true -> treeReplaceExpression repl a = Ret (a', adds) -> numQ a' /\ leftP a' /\ Forall noNl adds.
  Proof.
    induction a as [x|n|a IHa b IHb|a IHa b IHb|a IHa|a IHa b IHb]; cbn [numTokens treeReplaceExpression]; intros a' adds T E; try discriminate E.
    - pose proof (plain_word x T) as Hx. destruct (repl x) as [[p m]|] eqn:R; injection E as <- <-.
      + destruct (RP x p m R) as [H1 H2]. split; [apply H1|]. split; [exact H1|]. repeat constructor. exact H2.
      + split; [apply Hx|]. split; [exact Hx|constructor].
    - injection E as <- <-. apply Z.leb_le in T. repeat split; auto.
    - apply andb_prop in T. destruct T as [T1 T2]. destruct (treeReplaceExpression repl a) as [[a1 r1]| |] eqn:E1; try discriminate E. cbn [pybind] in E.
      destruct (treeReplaceExpression repl b) as [[b1 r2]| |] eqn:E2; try discriminate E. cbn [pybind] in E. injection E as <- <-. destruct (IHa _ _ T1 eq_refl) as (A1 & A2 & A3), (IHb _ _ T2 eq_refl) as (B1 & B2 & B3).
      cbn [numQ leftP]. repeat split; auto. apply Forall_app. auto.
  Qed.
  Lemma addAll_P a adds : numQ a -> leftP a -> Forall noNl adds -> numQ (addAll a adds) /\ leftP (addAll a adds).
  Proof.
    intros Q P F. destruct adds as [|x l]; [auto|]. unfold addAll. cbn [numQ leftP]. split; [|exact I]. split; [exact Q|]. apply noNl_join; [now apply noNl_lit|exact F].
  Qed.

  Fixpoint treeP (t : tree) : Prop :=
    match t with
    | TBiimp f g | TImp f g => treeP f /\ treeP g
    | TXor fs | TOr fs | TAnd fs => fold_right (fun f P => treeP f /\ P) True fs
    | TUnary _ f => treeP f
    | TTemporal | TFalse | TTrue => True
    | TAssign x => isWordToken x = true
    | TCalc a _ b => numTokens a = true /\ numTokens b = true
    end.
  Lemma treeP_all fs : fold_right (fun f P => treeP f /\ P) True fs <-> Forall treeP fs.
  Proof. induction fs as [|f fs IH]; cbn; split; intros H; auto; [constructor; [apply H|apply IH, H]|inversion H; subst; split; [assumption|now apply IH]]. Qed.
  Lemma clean_P f : tokens f = true -> treeP (clean f).
  Proof.
    induction f; cbn [tokens clean treeP fold_right]; intros T; auto; apply andb_prop in T; destruct T; auto.
  Qed.
  Lemma flatten_P t : treeP t -> treeP (flatten t).
  Proof.
    induction t as [f g IHf IHg|f g IHf IHg|fs IH|fs IH|fs IH| |o f IHf| | |x|a c b] using tree_rec'; cbn [treeP flatten]; auto; try (intros [H1 H2]; split; auto; fail).
    all : rewrite !treeP_all; intros H; apply Forall_forall; intros t Ht; apply in_flat_map in Ht; destruct Ht as (f & Hf & Ht); rewrite Forall_forall in IH, H; specialize (IH f Hf (H f Hf));
      destruct (flatten f); try (destruct Ht as [<-|[]]; exact IH); cbn [treeP] in IH; rewrite treeP_all, Forall_forall in IH; now apply IH.
  Qed.
  Definition lineP next t : Prop := forall t' out, treeP t -> treeReplace repl t = Ret t' -> toLine next t' = Ret out -> plain out.
  Lemma lines_P next fs : Forall (fun t => forall next, lineP next t) fs -> forall fs' outs, Forall treeP fs -> pyMap (treeReplace repl) fs = Ret fs' -> pyMap (toLine next) fs' = Ret outs -> Forall plain outs.
  Proof.
    induction 1 as [|f fs H _ IH]; intros fs' outs HP E1 E2; cbn in E1; fold (pyMap (treeReplace repl)) in E1; [injection E1 as <-; cbn in E2; injection E2 as <-; constructor|].
    destruct (treeReplace repl f) as [t'| |] eqn:Ef; try discriminate E1; cbn [pybind] in E1; destruct (pyMap (treeReplace repl) fs) as [gs| |] eqn:Eg; try discriminate E1; injection E1 as <-.
    cbn in E2; fold (pyMap (toLine next)) in E2; destruct (toLine next t') as [o| |] eqn:Eo; try discriminate E2; cbn [pybind] in E2; destruct (pyMap (toLine next) gs) as [os| |] eqn:Es; try discriminate E2.
    injection E2 as <-. inversion HP; subst. constructor; [eapply H; eauto|eapply IH; eauto].
  Qed.
  Lemma chain_noNl c outs : noNl c -> Forall plain outs -> noNl (String.concat c (map inBrackets outs)).
  Proof.
    intros C F. apply noNl_join; [exact C|]. apply Forall_map. eapply Forall_impl; [|exact F]. intros o [N _]. unfold inBrackets. nonl.
  Qed.
  Theorem tree_plain t : forall next, lineP next t.
  Proof.
    induction t as [f g IHf IHg|f g IHf IHg|fs IH|fs IH|fs IH| |o f IHf| | |x|a c b] using tree_rec'; intros next t' out P E1 E2; cbn [treeP] in P; cbn [treeReplace] in E1.
    - destruct (treeReplace repl f) as [f'| |] eqn:Ef; try discriminate E1; cbn [pybind] in E1; destruct (treeReplace repl g) as [g'| |] eqn:Eg; try discriminate E1; cbn [pybind] in E1; injection E1 as <-; cbn [toLine] in E2.
      destruct (toLine next f') as [u| |] eqn:Eu; try discriminate E2; cbn [pybind] in E2; destruct (toLine next g') as [v| |] eqn:Ev; try discriminate E2; cbn [pybind] in E2; injection E2 as <-. destruct P as [P1 P2].
      destruct (IHf _ _ _ P1 Ef Eu) as [N1 _], (IHg _ _ _ P2 Eg Ev) as [N2 _]. apply plain_open. nonl.
    - destruct (treeReplace repl f) as [f'| |] eqn:Ef; try discriminate E1; cbn [pybind] in E1; destruct (treeReplace repl g) as [g'| |] eqn:Eg; try discriminate E1; cbn [pybind] in E1; injection E1 as <-; cbn [toLine] in E2.
      destruct (toLine next f') as [u| |] eqn:Eu; try discriminate E2; cbn [pybind] in E2; destruct (toLine next g') as [v| |] eqn:Ev; try discriminate E2; cbn [pybind] in E2; injection E2 as <-. destruct P as [P1 P2].
      destruct (IHf _ _ _ P1 Ef Eu) as [N1 _], (IHg _ _ _ P2 Eg Ev) as [N2 _]. apply plain_open. nonl.
    - destruct (pyMap (treeReplace repl) fs) as [gs| |]; try discriminate E1. injection E1 as <-. discriminate E2.
    - destruct (pyMap (treeReplace repl) fs) as [gs| |] eqn:Eg; try discriminate E1. injection E1 as <-. cbn [toLine] in E2. destruct (pyMap (toLine next) gs) as [os| |] eqn:Eo; try discriminate E2. cbn [pybind] in E2. injection E2 as <-.
      apply plain_open. apply noNl_app; [|now apply noNl_lit]. apply chain_noNl; [now apply noNl_lit|]. rewrite treeP_all in P. eapply lines_P; eauto.
    - destruct (pyMap (treeReplace repl) fs) as [gs| |] eqn:Eg; try discriminate E1. injection E1 as <-. cbn [toLine] in E2. destruct (pyMap (toLine next) gs) as [os| |] eqn:Eo; try discriminate E2. cbn [pybind] in E2. injection E2 as <-.
      apply plain_open. apply noNl_app; [|now apply noNl_lit]. apply chain_noNl; [now apply noNl_lit|]. rewrite treeP_all in P. eapply lines_P; eauto.
    - injection E1 as <-. discriminate E2.
    - destruct (treeReplace repl f) as [f'| |] eqn:Ef; try discriminate E1; cbn [pybind] in E1; injection E1 as <-; cbn [toLine] in E2. destruct o; try discriminate E2.
      + destruct (toLine next f') as [u| |] eqn:Eu; try discriminate E2. cbn [pybind] in E2. injection E2 as <-. destruct (IHf _ _ _ P Ef Eu) as [N1 _]. apply plain_char; [reflexivity|discriminate|discriminate|]. change (String "!" (String " " u)) with ("! " ++ u). apply noNl_app; [now apply noNl_lit|exact N1].
      + destruct next; [discriminate E2|]. eapply IHf; eauto.
    - injection E1 as <-. injection E2 as <-. now apply plain_word.
    - injection E1 as <-. injection E2 as <-. now apply plain_word.
    - injection E1 as <-. cbn [toLine] in E2. pose proof (plain_word x P) as Hx. destruct next; [|now injection E2 as <-]. destruct (existsb _ _); [discriminate E2|]. injection E2 as <-. apply plain_app; [exact Hx|now apply noNl_lit].
    - destruct P as [P1 P2]. destruct (treeReplaceExpression repl a) as [[a' ad1]| |] eqn:Ea; try discriminate E1. cbn [pybind] in E1. destruct (treeReplaceExpression repl b) as [[b' ad2]| |] eqn:Eb; try discriminate E1. cbn [pybind] in E1. injection E1 as <-. cbn [toLine] in E2.
      destruct (numLine next (addAll a' ad2)) as [w1| |] eqn:N1; try discriminate E2. cbn [pybind] in E2. destruct (numLine next (addAll b' ad1)) as [w2| |] eqn:N2; try discriminate E2. cbn [pybind] in E2. injection E2 as <-.
      destruct (expr_P _ _ _ P1 Ea) as (A1 & A2 & A3), (expr_P _ _ _ P2 Eb) as (B1 & B2 & B3). destruct (addAll_P a' ad2 A1 A2 B3) as [C1 C2], (addAll_P b' ad1 B1 B2 A3) as [D1 D2].
      apply plain_app; [exact (numP_line _ _ _ C1 C2 N1)|]. apply noNl_app; [apply noNl_lit; destruct c; reflexivity|]. exact (numQ_line _ _ _ D1 N2).
  Qed.
  Lemma substitute_plain bools line out : (forall pre post, line <> pre ++ long ++ post) -> plain line -> substituteLine bools repl line = Ret out -> plain out.
  Proof.
    intros N P E. unfold substituteLine in E. destruct (firstIs _ _); [now injection E as <-|]. destruct (isValidRecursiveSlugsProperty _ _); [now injection E as <-|].
    rewrite parse_long in E by exact N. destruct (parseLTL bools line) as [f|] eqn:PL; [|discriminate E]. apply parseLTL_spec in PL. destruct (reads_tokens _ _ _ PL) as [T _].
    destruct (treeReplace repl _) as [t| |] eqn:Et; try discriminate E. eapply (tree_plain _ false); eauto. now apply flatten_P, clean_P.
  Qed.
End TEXT.

(** ** The file with the replacements *)
Lemma firstIs_not c s : firstIs c s = false <-> forall r, s <> String c r.
Proof.
  destruct s as [|a s]; cbn; [split; [discriminate|reflexivity]|]. rewrite Ascii.eqb_neq. split; [intros H r E; now injection E|intros H E; subst; now apply (H s)].
Qed.
Lemma split_definition line x d : splitChar "," line = [x; d] <-> line = x ++ "," ++ d /\ ~ occursIn "," x /\ ~ occursIn "," d.
Proof.
  split; [intros E; destruct (concat_split "," line) as [C F]; rewrite E in C, F; split; [symmetry; exact C|]; inversion F as [|? ? F1 F']; inversion F' as [|? ? F2 _]; split; assumption|].
  intros (-> & H1 & H2). apply (split_concat "," [x; d]); [discriminate|]. repeat constructor; assumption.
Qed.
Lemma split_expression line x p m : splitChar "," line = [x; p; m] <-> line = x ++ "," ++ p ++ "," ++ m /\ ~ occursIn "," x /\ ~ occursIn "," p /\ ~ occursIn "," m.
Proof.
  split; [intros E; destruct (concat_split "," line) as [C F]; rewrite E in C, F; split; [symmetry; exact C|]; inversion F as [|? ? F1 F']; inversion F' as [|? ? F2 F'']; inversion F'' as [|? ? F3 _]; repeat split; assumption|].
  intros (-> & H1 & H2 & H3). apply (split_concat "," [x; p; m]); [discriminate|]. repeat constructor; assumption.
Qed.
Lemma read_definition r l x v : definitions (readReplacement r l) x = Some v <-> definitionLine l x v \/ (forall d, ~ definitionLine l x d) /\ definitions r x = Some v.
Proof.
  assert (D : forall d, definitionLine l x d <-> splitChar "," (strip l) = [x; d] /\ firstIs "#" (strip l) = false).
  { intros d. unfold definitionLine. rewrite split_definition, firstIs_not. tauto. }
  unfold readReplacement. rewrite trim_spec. destruct (strip l) as [|a s] eqn:Es.
  { cbn [String.eqb orb]. split; [intros H; right; split; [|exact H]; intros d; rewrite D; now intros [X _]|]. intros [H|[_ H]]; [|exact H]. apply D in H. now destruct H. }
  cbn [String.eqb orb]. destruct (firstIs "#" (String a s)) eqn:F.
  { split; [intros H; right; split; [|exact H]; intros d; rewrite D; now intros [_ X]|]. intros [H|[_ H]]; [|exact H]. apply D in H. now destruct H. }
  destruct (splitChar "," (String a s)) as [|y [|d [|m [|]]]] eqn:S; cbn [definitions]; unfold setKey; try (split; [intros H; right; split; [|exact H]; intros d'; rewrite D; intros [X _]; discriminate X|intros [H|[_ H]]; [|exact H]; apply D in H; destruct H as [H _]; discriminate H]).
  destruct (String.eqb_spec x y) as [->|NE].
  - split; [intros H; injection H as ->; left; apply D; auto|]. intros [H|[H _]]; [apply D in H; destruct H as [H _]; now injection H as ->|]. exfalso. apply (H d). apply D. auto.
  - split; [intros H; right; split; [|exact H]; intros d'; rewrite D; intros [X _]; injection X; congruence|]. intros [H|[_ H]]; [apply D in H; destruct H as [H _]; injection H; congruence|exact H].
Qed.
Lemma read_expression r l x v : expressions (readReplacement r l) x = Some v <-> expressionLine l x v \/ (forall d, ~ expressionLine l x d) /\ expressions r x = Some v.
Proof.
  assert (D : forall d, expressionLine l x d <-> splitChar "," (strip l) = [x; fst d; snd d] /\ firstIs "#" (strip l) = false).
  { intros d. unfold expressionLine. rewrite split_expression, firstIs_not. tauto. }
  unfold readReplacement. rewrite trim_spec. destruct (strip l) as [|a s] eqn:Es.
  { cbn [String.eqb orb]. split; [intros H; right; split; [|exact H]; intros d; rewrite D; now intros [X _]|]. intros [H|[_ H]]; [|exact H]. apply D in H. now destruct H. }
  cbn [String.eqb orb]. destruct (firstIs "#" (String a s)) eqn:F.
  { split; [intros H; right; split; [|exact H]; intros d; rewrite D; now intros [_ X]|]. intros [H|[_ H]]; [|exact H]. apply D in H. now destruct H. }
  destruct (splitChar "," (String a s)) as [|y [|d [|m [|]]]] eqn:S; cbn [expressions]; unfold setKey; try (split; [intros H; right; split; [|exact H]; intros d'; rewrite D; intros [X _]; discriminate X|intros [H|[_ H]]; [|exact H]; apply D in H; destruct H as [H _]; discriminate H]).
  destruct (String.eqb_spec x y) as [->|NE].
  - split; [intros H; injection H as <-; left; apply D; auto|]. intros [H|[H _]]; [apply D in H; destruct H as [H _]; injection H as -> ->; now destruct v|]. exfalso. apply (H (d, m)). apply D. auto.
  - split; [intros H; right; split; [|exact H]; intros d'; rewrite D; intros [X _]; injection X; congruence|]. intros [H|[_ H]]; [apply D in H; destruct H as [H _]; injection H; congruence|exact H].
Qed.
Lemma last_entry {A} (entry : string -> string -> A -> Prop) (get : replacements -> string -> option A) :
  (forall r l x v, get (readReplacement r l) x = Some v <-> entry l x v \/ (forall d, ~ entry l x d) /\ get r x = Some v) ->
  (forall x, get noReplacements x = None) ->
  forall ls x v, get (fold_left readReplacement ls noReplacements) x = Some v <-> lastEntry entry ls x v.
Proof.
  intros ST E0 ls x v. rewrite <- (rev_involutive ls). generalize (rev ls). clear ls. intros ls.
  induction ls as [|l ls IH]; cbn [rev].
  - cbn [fold_left]. rewrite E0. split; [discriminate|]. intros (b & l & a & E & _). now destruct b.
  - rewrite fold_left_app. cbn [fold_left]. rewrite ST, IH. split.
    + intros [H|[H (b & k & a & E & H1 & H2)]].
      * exists (rev ls), l, []. split; [reflexivity|]. split; [exact H|intros ? ? []].
      * exists b, k, (a ++ [l])%list. split; [rewrite E, <- app_assoc; reflexivity|]. split; [exact H1|]. intros l' v' Hl. apply in_app_or in Hl. destruct Hl as [Hl|[<-|[]]]; auto.
    + intros (b & k & a & E & H1 & H2). destruct a as [|y a] using rev_ind; [apply app_inj_tail in E; destruct E as [_ ->]; now left|]. clear IHa.
      rewrite app_comm_cons, app_assoc in E. apply app_inj_tail in E. destruct E as [E ->]. right. split; [intros d; apply H2; apply in_or_app; right; now left|].
      exists b, k, a. split; [exact E|]. split; [exact H1|]. intros l' v' Hl. apply H2. apply in_or_app. now left.
Qed.
Theorem read_replacements text x :
  (forall d, definitions (readReplacements text) x = Some d <-> lastEntry definitionLine (file_lines text) x d) /\
  (forall pm, expressions (readReplacements text) x = Some pm <-> lastEntry expressionLine (file_lines text) x pm).
Proof.
  unfold readReplacements. rewrite getlines_spec. split; intros v.
  - apply (last_entry definitionLine definitions read_definition). reflexivity.
  - apply (last_entry expressionLine expressions read_expression). reflexivity.
Qed.
Lemma noNl_parts a b : noNl (a ++ b) -> noNl a /\ noNl b.
Proof. intros H. split; intros c Hc; apply H; rewrite las_app; apply in_or_app; auto. Qed.
Lemma definition_noNl text x d : definitions (readReplacements text) x = Some d -> noNl d.
Proof.
  intros H. apply read_replacements in H. destruct H as (b & l & a & E & (H & _) & _). pose proof (file_lines_noNl text) as N. rewrite Forall_forall in N.
  specialize (N l). rewrite E in N. apply noNl_strip in N; [|apply in_or_app; right; now left]. rewrite H in N. apply noNl_parts in N. destruct N as [_ N]. intros c Hc. apply N. now right.
Qed.
Lemma expression_noNl text x p m : expressions (readReplacements text) x = Some (p, m) -> noNl p /\ noNl m.
Proof.
  intros H. apply read_replacements in H. destruct H as (b & l & a & E & (H & _) & _). pose proof (file_lines_noNl text) as N. rewrite Forall_forall in N.
  specialize (N l). rewrite E in N. apply noNl_strip in N; [|apply in_or_app; right; now left]. rewrite H in N. cbn [fst snd] in N. apply noNl_parts in N. destruct N as [_ N]. apply noNl_parts in N. destruct N as [_ N]. apply noNl_parts in N. destruct N as [N1 N2].
  split; [exact N1|]. intros c Hc. apply N2. now right.
Qed.

(** ** Reading the specification *)
Lemma section_key s : existsb (String.eqb (header s)) sectionKeys = true.
Proof. destruct s; reflexivity. Qed.
Lemma readSpecification_spec : forall ls cur d L, Forall noNl ls -> layout cur ls = Some L ->
  exists d' add, readSpecification (nameOf cur) d ls = Ret d' /\ (forall k, d' k = d k ++ add k)%list /\ (forall k, Forall tidy (add k)) /\ (forall k, filter content (add k) = keyLines k L) /\ (forall k, ~ In ""%string (add k)) /\
    (forall k, ~ In k (map header sections) -> add k = []).
Proof.
  induction ls as [|l ls IH]; intros cur d L N; cbn [layout readSpecification].
  - intros E. injection E as <-. exists d, (fun _ => []). repeat split; auto. intros k. now rewrite app_nil_r.
  - inversion N as [|? ? N1 N2]; subst. rewrite trim_spec.
    assert (PUSH : forall s L1, firstIs "[" (strip l) = false -> strip l <> ""%string -> layout (Some s) ls = Some L1 ->
      exists d' add, readSpecification (header s) (pushLine d (header s) (strip l)) ls = Ret d' /\ (forall k, d' k = d k ++ add k)%list /\ (forall k, Forall tidy (add k)) /\
      (forall k, filter content (add k) = if String.eqb k (header s) then (if content (strip l) then [strip l] else []) ++ keyLines k L1 else keyLines k L1)%list /\ (forall k, ~ In ""%string (add k)) /\
      (forall k, ~ In k (map header sections) -> add k = [])).
    { intros s L1 F NE E. destruct (IH (Some s) (pushLine d (header s) (strip l)) L1 N2 E) as (d' & add & R & A1 & A2 & A3 & A4 & A5).
      exists d', (fun k => if String.eqb k (header s) then strip l :: add k else add k). split; [exact R|]. repeat split.
      - intros k. rewrite A1. unfold pushLine. destruct (String.eqb k (header s)); auto. now rewrite <- app_assoc.
      - intros k. destruct (String.eqb k (header s)); auto. constructor; auto. split; [apply strip_idem|]. split; auto. now apply noNl_strip.
      - intros k. destruct (String.eqb k (header s)); [|apply A3]. cbn [filter]. destruct (content (strip l)); cbn [app]; now rewrite A3.
      - intros k. destruct (String.eqb k (header s)); [|apply A4]. intros [X|X]; [contradiction|now apply (A4 k)].
      - intros k K. destruct (String.eqb_spec k (header s)) as [->|_]; [|now apply A5]. elim K. apply in_map. destruct s; cbn; auto 10. }
    destruct (strip l) as [|a r] eqn:S; [apply IH; auto|]. cbn [String.eqb].
    rewrite !firstIs_cons. destruct (a =? "#")%char eqn:A1.
    { replace (a =? "[")%char with false by (apply Ascii.eqb_eq in A1; now subst). intros E. destruct cur as [s|]; cbn [nameOf].
      - replace (String.eqb (header s) "") with false by now destruct s. cbn [andb]. rewrite section_key.
        destruct (PUSH s L) as (d' & add & R & B1 & B2 & B3 & B4 & B5); auto; [apply Ascii.eqb_eq in A1; now subst|discriminate|]. exists d', add. split; [exact R|]. repeat split; auto.
        intros k. rewrite B3. unfold content. cbn [String.eqb firstIs]. rewrite A1. cbn [orb negb app]. now destruct (String.eqb k (header s)).
      - cbn [String.eqb andb]. apply (IH None d L N2 E). }
    destruct (a =? "[")%char eqn:A2.
    + destruct (find _ sections) as [s|] eqn:Fd; [|discriminate]. intros E.
      apply find_some in Fd. destruct Fd as [_ Fd]. apply String.eqb_eq in Fd. rewrite <- Fd. apply (IH (Some s) d L N2 E).
    + destruct cur as [s|]; [|discriminate]. destruct (layout (Some s) ls) as [L1|] eqn:E; [|discriminate].
      intros X. injection X as <-. cbn [nameOf]. rewrite andb_false_r, section_key.
      destruct (PUSH s L1) as (d' & add & R & B1 & B2 & B3 & B4 & B5); auto; [discriminate|]. exists d', add. split; [exact R|]. repeat split; auto.
      intros k. rewrite B3, keyLines_cons, (String.eqb_sym (header s) k). unfold content. cbn [String.eqb firstIs]. rewrite A1. cbn [orb negb app]. reflexivity.
Qed.

(** ** The printed file *)
Definition newLines bools r (d : lineDict) (k : string) : list string := match pyMap (substituteLine bools (expressions r)) (d k) with Ret ls => ls | _ => [] end.
Lemma pyMap_F2 {A B} (f : A -> pyres B) l : forall l', pyMap f l = Ret l' <-> Forall2 (fun a b => f a = Ret b) l l'.
Proof.
  induction l as [|a l IH]; intros l'; cbn; fold (pyMap f).
  - split; [intros E; injection E as <-; constructor|intros F; now inversion F].
  - split.
    + intros E. destruct (f a) as [b| |] eqn:Ea; try discriminate E. cbn [pybind] in E. destruct (pyMap f l) as [bs| |] eqn:El; try discriminate E. cbn [pybind] in E. injection E as <-. constructor; [exact Ea|]. now apply IH.
    + intros F. inversion F as [|? b ? bs H1 H2]; subst. apply IH in H2. now rewrite H1, H2.
Qed.
Lemma sections_spec bools r d keys : forall ls, substituteSections bools r d keys = Ret ls ->
  ls = flat_map (fun k => printSection k (newLines bools r d k)) keys /\ forall k, In k keys -> pyMap (substituteLine bools (expressions r)) (d k) = Ret (newLines bools r d k).
Proof.
  induction keys as [|k keys IH]; intros ls E; cbn [substituteSections] in E; [injection E as <-; split; [reflexivity|intros k []]|].
  destruct (pyMap _ (d k)) as [l1| |] eqn:E1; cbn [pybind] in E; try discriminate E.
  destruct (substituteSections bools r d keys) as [rest| |] eqn:E2; cbn [pybind] in E; try discriminate E. apply (f_equal (fun r => match r with Ret q => q | _ => [] end)) in E. cbv beta iota in E. subst ls.
  destruct (IH rest eq_refl) as [-> IH2]. assert (X : newLines bools r d k = l1) by (unfold newLines; now rewrite E1).
  cbn [flat_map]. rewrite X. split; [reflexivity|]. intros k' [<-|H]; [now rewrite X|auto].
Qed.
Lemma sections_total bools r d keys : (forall k, In k keys -> exists ls, pyMap (substituteLine bools (expressions r)) (d k) = Ret ls) -> exists ls, substituteSections bools r d keys = Ret ls.
Proof.
  induction keys as [|k keys IH]; intros H; cbn [substituteSections]; [eauto|]. destruct (H k (or_introl eq_refl)) as (l1 & ->). cbn [pybind]. destruct IH as (rest & ->); [intros k' Hk; apply H; now right|]. cbn [pybind]. eauto.
Qed.
Lemma in_linesOf s l L : In l (linesOf s L) <-> In (s, l) L.
Proof.
  unfold linesOf. rewrite in_map_iff. split.
  - intros ([s' l'] & <- & H). apply filter_In in H. destruct H as [H1 H2]. cbn in *. apply sec_eqb_eq in H2. now subst.
  - intros H. exists (s, l). split; [reflexivity|]. apply filter_In. split; [exact H|]. now apply sec_eqb_eq.
Qed.
Definition order : list section := [SInput; SOutput; SEnvTrans; SEnvInit; SSysTrans; SSysInit; SEnvLive; SSysLive].
Lemma declared_names ls b : In b (flat_map declaredNames ls) <-> declaresBoolean ls b.
Proof.
  rewrite in_flat_map. unfold declaresBoolean, declaredNames. split; intros (x & H1 & H2); exists x; (split; [exact H1|]).
  - destruct (hasChar ":" x) eqn:E; [destruct H2|]. apply hasChar_false in E. split; [exact E|]. destruct H2 as [<-|[<-|[]]]; auto.
  - destruct H2 as [E H2]. apply hasChar_false in E. rewrite E. cbn. destruct H2 as [->| ->]; auto.
Qed.

Theorem replacement_file text rtext L :
  let r := readReplacements rtext in
  layout None (file_lines text) = Some L ->
  (forall x d, definitions r x = Some d -> startsPlain d) ->
  (forall x p m, expressions r x = Some (p, m) -> startsPlain p) ->
  (forall s line pre post, In (s, line) L -> formulaSection s = true -> line <> pre ++ long ++ post) ->
  exists bools,
    (forall b, declaresBoolean (linesOf SInput L ++ linesOf SOutput L) b -> In b bools) /\
    (forall b, In b bools -> declaresBoolean (linesOf SInput L ++ linesOf SOutput L) b \/ exists c, b = String "#" c) /\
    ((exists out, performReplacement text rtext = Ret out) <->
     forall s line, In (s, line) L -> formulaSection s = true -> exists o, substituteLine bools (expressions r) line = Ret o) /\
    (forall out, performReplacement text rtext = Ret out ->
     exists L', layout None (file_lines out) = Some L' /\
       (forall s, formulaSection s = false -> linesOf s L' = map (fun x => match definitions r x with Some d => strip d | None => x end) (linesOf s L)) /\
       (forall s, formulaSection s = true -> Forall2 (fun line line' => exists o, substituteLine bools (expressions r) line = Ret o /\ line' = strip o) (linesOf s L) (linesOf s L'))).
Proof.
  intros r EL HD HE HL. destruct (readSpecification_spec (file_lines text) None emptyDict L (file_lines_noNl text) EL) as (d & add & R & A1 & A2 & A3 & A4 & A5). cbn [nameOf] in R.
  assert (DA : forall k, d k = add k) by (intros k; now rewrite A1).
  assert (CL : forall s, filter content (d (header s)) = linesOf s L) by (intros s; now rewrite DA, A3, keyLines_header).
  assert (TD : forall k, Forall tidy (d k)) by (intros k; now rewrite DA).
  assert (NIL : d "[OBSERVABLE_INPUT]" = [] /\ d "[UNOBSERVABLE_INPUT]" = [] /\ d "[CONTROLLABLE_INPUT]" = []).
  { rewrite !DA. repeat split; apply A5; cbn; intuition discriminate. } destruct NIL as (K1 & K2 & K3).
  assert (CM : forall k l, In l (d k) -> content l = true \/ exists c, l = String "#" c).
  { intros k l H. unfold content. destruct l as [|a c]; [exfalso; apply (A4 k); now rewrite <- DA|]. cbn. destruct (Ascii.eqb_spec a "#"); [subst; eauto|now left]. }
  assert (RP : forall x p m, expressions r x = Some (p, m) -> plain p /\ noNl m).
  { intros x p m H. destruct (expression_noNl _ _ _ _ H). split; [split; eauto|assumption]. }
  assert (PL : forall k l, In l (d k) -> content l = true -> plain l).
  { intros k l H C. pose proof (TD k) as T. rewrite Forall_forall in T. destruct (T l H) as (T1 & T2 & T3). split; [exact T3|]. unfold startsPlain. rewrite T1. unfold content in C. destruct l as [|a c]; [discriminate C|].
    cbn in C, T2. apply negb_true_iff in C. exists a, c. apply Ascii.eqb_neq in C, T2. auto. }
  exists (declaredBooleans d). set (bools := declaredBooleans d).
  assert (BE : bools = (flat_map declaredNames (d (header SInput)) ++ flat_map declaredNames (d (header SOutput)))%list).
  { unfold bools, declaredBooleans, ioKeys. cbn [flat_map]. rewrite K1, K2, K3. cbn [flat_map app]. rewrite app_nil_r. reflexivity. }
  assert (CMT : forall k l, In l (d k) -> content l = false -> substituteLine bools (expressions r) l = Ret l).
  { intros k l H C. destruct (CM k l H) as [C'|(c & ->)]; [congruence|]. apply substitute_copied. left. pose proof (TD k) as T. rewrite Forall_forall in T. destruct (T _ H) as (T1 & _). eauto. }
  assert (NL : forall s o, formulaSection s = true -> Forall2 (fun a b => substituteLine bools (expressions r) a = Ret b) (d (header s)) o ->
    Forall lineOK o /\ Forall2 (fun line line' => exists o, substituteLine bools (expressions r) line = Ret o /\ line' = strip o) (linesOf s L) (map strip (filter contentS o))).
  { intros s o FS F. rewrite <- CL. assert (HL' : forall l, In l (d (header s)) -> content l = true -> forall pre post, l <> pre ++ long ++ post).
    { intros l Hl C pre post. apply (HL s); auto. apply in_linesOf. rewrite <- CL. apply filter_In. auto. }
    pose proof (TD (header s)) as T. rewrite Forall_forall in T. assert (PL' := PL (header s)). assert (CMT' := CMT (header s)). clear - F HL' T PL' CMT' RP.
    induction F as [|a b l o H F IH]; [split; constructor|]. destruct IH as [I1 I2]; [intros x Hx; apply HL'; now right|intros x Hx; apply T; now right|intros x Hx; apply PL'; now right|intros x Hx; apply CMT'; now right|].
    cbn [filter]. destruct (content a) eqn:C.
    - assert (P : plain b) by (eapply (substitute_plain (expressions r)); [exact RP|apply HL'; [now left|exact C]|apply PL'; [now left|exact C]|exact H]). destruct (plain_line b P) as [P1 P2]. rewrite P2. cbn [map]. split; [now constructor|]. constructor; [eauto|exact I2].
    - rewrite (CMT' a (or_introl eq_refl) C) in H. injection H as <-. destruct (T a (or_introl eq_refl)) as (T1 & T2 & T3). unfold contentS at 1. rewrite T1, C. split; [|exact I2]. constructor; [|exact I1]. split; [exact T3|now rewrite T1]. }
  assert (ND : forall s, Forall lineOK (map (redeclare r) (d (header s))) /\ map strip (filter contentS (map (redeclare r) (d (header s)))) = map (fun x => match definitions r x with Some d => strip d | None => x end) (linesOf s L)).
  { intros s. rewrite <- CL. pose proof (TD (header s)) as T. assert (CM' := CM (header s)). assert (PL' := PL (header s)). rewrite Forall_forall in T. assert (DN : forall x v, definitions r x = Some v -> plain v) by (intros x v H; split; [eapply definition_noNl; eauto|eauto]). clear - T CM' PL' DN.
    induction (d (header s)) as [|a l IH]; [split; [constructor|reflexivity]|]. destruct IH as [I1 I2]; [intros x Hx; apply T; now right|intros x Hx; apply CM'; now right|intros x Hx; apply PL'; now right|]. cbn [map filter]. destruct (T a (or_introl eq_refl)) as (T1 & T2 & T3).
    destruct (content a) eqn:C.
    - assert (F : firstIs "#" a = false) by (unfold content in C; apply negb_true_iff, orb_false_iff in C; apply C). assert (RD : redeclare r a = match definitions r a with Some v => v | None => a end) by (unfold redeclare; now rewrite F). rewrite RD. destruct (definitions r a) as [v|] eqn:E.
      + destruct (plain_line v (DN _ _ E)) as [P1 P2]. rewrite P2. cbn [map]. rewrite E. split; [constructor; assumption|]. f_equal. exact I2.
      + destruct (plain_line a (PL' a (or_introl eq_refl) C)) as [P1 P2]. rewrite P2. cbn [map]. rewrite E, T1. split; [constructor; assumption|]. f_equal. exact I2.
    - destruct (CM' a (or_introl eq_refl)) as [C'|(c & ->)]; [congruence|]. change (redeclare r (String "#" c)) with (String "#" c). unfold contentS at 1. rewrite T1, C. split; [|exact I2]. constructor; [|exact I1]. split; [exact T3|now rewrite T1]. }
  assert (IN : forall s, In s order) by (intros []; cbn; auto 10).
  assert (KEY : forall s, formulaSection s = true -> In (header s) propertyKeys) by (intros []; cbn; intros; try discriminate; auto 10).
  assert (KEY' : forall k, In k propertyKeys -> exists s, formulaSection s = true /\ k = header s).
  { intros k Hk. cbn in Hk. repeat (destruct Hk as [<-|Hk]; [first [now exists SEnvTrans|now exists SEnvInit|now exists SSysTrans|now exists SSysInit|now exists SEnvLive|now exists SSysLive]|]). destruct Hk. }
  split; [|split; [|split]].
  - intros b (x & H1 & H2). rewrite BE. apply in_or_app. apply in_app_or in H1. destruct H1 as [H1|H1]; [left|right]; apply declared_names; exists x; (split; [|exact H2]); rewrite <- CL in H1; apply filter_In in H1; apply H1.
  - intros b Hb. rewrite BE in Hb. apply in_app_or in Hb.
    assert (G : forall s, In b (flat_map declaredNames (d (header s))) -> declaresBoolean (linesOf s L) b \/ exists c, b = String "#" c).
    { intros s H. apply declared_names in H. destruct H as (x & H1 & H2 & H3). destruct (CM _ _ H1) as [C|(c & ->)].
      - left. exists x. split; [|auto]. rewrite <- CL. apply filter_In. auto.
      - right. destruct H3 as [->| ->]; cbn [append]; eauto. }
    destruct Hb as [H|H]; apply G in H; (destruct H as [(x & H1 & H2)|H]; [left; exists x; split; [apply in_or_app; auto|exact H2]|now right]).
  - unfold performReplacement. rewrite getlines_spec. fold r. rewrite R. cbn [pybind]. fold bools. split.
    + intros (out & E) s line Hl FS. destruct (substituteSections bools r d propertyKeys) as [ls| |] eqn:ES; try discriminate E. destruct (sections_spec _ _ _ _ _ ES) as [_ Q]. specialize (Q _ (KEY s FS)). apply pyMap_F2 in Q.
      apply in_linesOf in Hl. rewrite <- CL in Hl. apply filter_In in Hl. destruct Hl as [Hl _]. clear - Q Hl. induction Q as [|a b l l' H F IH]; [destruct Hl|]. destruct Hl as [<-|Hl]; eauto.
    + intros H. destruct (sections_total bools r d propertyKeys) as (ls & ->); [|cbn [pybind]; eauto]. intros k Hk. destruct (KEY' k Hk) as (s & FS & ->).
      assert (G : forall l, In l (d (header s)) -> exists o, substituteLine bools (expressions r) l = Ret o).
      { intros l Hl. destruct (content l) eqn:C; [|rewrite (CMT _ _ Hl C); eauto]. apply (H s); [|exact FS]. apply in_linesOf. rewrite <- CL. apply filter_In. auto. }
      clear - G. induction (d (header s)) as [|a l IH]; [exists []; reflexivity|]. destruct (G a (or_introl eq_refl)) as (o & E). destruct IH as (ls & E'); [intros x Hx; apply G; now right|]. exists (o :: ls). apply pyMap_F2. apply pyMap_F2 in E'. constructor; assumption.
  - intros out. unfold performReplacement. rewrite getlines_spec. fold r. rewrite R. cbn [pybind]. fold bools. intros E. destruct (substituteSections bools r d propertyKeys) as [ls| |] eqn:ES; try discriminate E. cbn [pybind] in E. destruct (sections_spec _ _ _ _ _ ES) as [-> Q]. clear ES.
    set (body := fun s => if formulaSection s then newLines bools r d (header s) else map (redeclare r) (d (header s))).
    assert (Q' : forall s, formulaSection s = true -> Forall lineOK (body s) /\ Forall2 (fun line line' => exists o, substituteLine bools (expressions r) line = Ret o /\ line' = strip o) (linesOf s L) (map strip (filter contentS (body s)))).
    { intros s FS. unfold body. rewrite FS. apply NL; [exact FS|]. apply pyMap_F2. now apply Q, KEY. }
    assert (OK : forall s, Forall lineOK (body s)) by (intros s; destruct (formulaSection s) eqn:FS; [now apply Q'|]; unfold body; rewrite FS; apply ND).
    exists (flat_map (fun p => itemsOf (fst p) (snd p)) (map (fun s => (s, body s)) order)).
    assert (EO : out = unlines (flat_map (fun p => printSection (header (fst p)) (snd p)) (map (fun s => (s, body s)) order))).
    { apply (f_equal (fun q => match q with Ret t => t | _ => ""%string end)) in E. cbv beta iota in E. rewrite <- E, unlines_concat. f_equal. unfold ioKeys, propertyKeys, order. cbn [flat_map map fst snd]. rewrite K1, K2, K3. cbn [map printSection app]. rewrite !app_nil_r, <- app_assoc. reflexivity. }
    split; [|split].
    + rewrite EO, file_lines_unlines; [apply layout_sections; apply Forall_forall; intros p Hp; apply in_map_iff in Hp; destruct Hp as (s & <- & _); apply OK|].
      apply Forall_forall. intros l Hl. apply in_flat_map in Hl. destruct Hl as (p & Hp & Hl). apply in_map_iff in Hp. destruct Hp as (s & <- & _). cbn [fst snd] in Hl. unfold printSection in Hl. pose proof (OK s) as O. destruct (body s) as [|b0 bl]; [destruct Hl|].
      destruct Hl as [<-|Hl]; [apply noNl_header|]. apply in_app_iff in Hl. destruct Hl as [Hl|[<-|[]]]; [|now apply noNl_lit]. rewrite Forall_forall in O. now apply O.
    + intros s FS. destruct (ND s) as [_ <-]. unfold order. cbn [map flat_map fst snd]. rewrite !linesOf_app, !linesOf_items. destruct s; try discriminate FS; cbn [sec_eqb linesOf filter map app body formulaSection]; now rewrite ?app_nil_r.
    + intros s FS. destruct (Q' s FS) as [_ Q2]. match goal with |- Forall2 _ _ ?l => replace l with (map strip (filter contentS (body s))) end; [exact Q2|].
      unfold order. cbn [map flat_map fst snd]. rewrite !linesOf_app, !linesOf_items. destruct s; try discriminate FS; cbn [sec_eqb linesOf filter map app]; now rewrite ?app_nil_r.
Qed.

(** ** Files in which all integers can be replaced *)
Lemma lexes_same A B line ts : (forall w, isWordToken w = true -> In w A <-> In w B) -> lexes A line ts -> lexes B line ts.
Proof.
  intros H. induction 1 as [|a s ts Ha L IH|w s t ts Hw He Ht L IH|w s ts Hw Hd He L IH|a s ts H1 H2 H3 L IH]; [apply lex_end|now apply lex_space| |now apply lex_number|now apply lex_symbol].
  apply lex_word; auto. pose proof (H w Hw) as X. destruct Ht; [now apply wt_key|apply wt_bool; tauto|apply wt_num; tauto].
Qed.
Theorem replacement_meaning names bools' (plus minus : string -> num) text rtext L :
  let r := readReplacements rtext in
  layout None (file_lines text) = Some L ->
  (forall b, In b names <-> declaresBoolean (linesOf SInput L ++ linesOf SOutput L) b) ->
  (forall b, In b names -> isWordToken b = true) ->
  (forall x d, definitions r x = Some d -> startsPlain d) ->
  (forall x p m, expressions r x = Some (p, m) -> startsPlain p) ->
  (forall s line pre post, In (s, line) L -> formulaSection s = true -> line <> pre ++ long ++ post) ->
  (forall s line, In (s, line) L -> formulaSection s = true -> exists f, reads names line f /\ substitutable false f /\
     (forall w, In w (boolWords false f) -> In w bools') /\
     (forall x, In x (integerWords f) -> match expressions r x with
        | Some (p, m) => readsNumber bools' p (plus x) /\ readsNumber bools' m (minus x)
        | None => ~ In x bools'
        end)) ->
  exists out L', performReplacement text rtext = Ret out /\ layout None (file_lines out) = Some L' /\
    (forall s, formulaSection s = false -> linesOf s L' = map (fun x => match definitions r x with Some d => strip d | None => x end) (linesOf s L)) /\
    (forall s, formulaSection s = true -> Forall2 (fun line line' => exists o f f', line' = strip o /\ reads names line f /\ reads bools' o f' /\
       forall D D' bv nv nv',
         (forall x, In x (integerWords f) -> wordValue nv x = match expressions r x with
            | Some _ => numValue D' nv' false (plus x) - numValue D' nv' false (minus x)
            | None => wordValue nv' x
            end)%Z ->
         truth D' bv nv' false f' = truth D bv nv false f) (linesOf s L) (linesOf s L')).
Proof.
  intros r EL NB WB HD HE HLong HF. destruct (replacement_file text rtext L EL HD HE HLong) as (bools & B1 & B2 & T & O).
  assert (BW : forall b, In b bools -> isWordToken b = true \/ exists c, b = String "#" c).
  { intros b Hb. destruct (B2 b Hb) as [H|H]; [left; apply WB; now apply NB|now right]. }
  assert (SAME : forall w, isWordToken w = true -> In w names <-> In w bools).
  { intros w Hw. rewrite NB. split; [apply B1|]. intros H. destruct (B2 w H) as [X|(c & ->)]; [exact X|discriminate Hw]. }
  assert (G : forall s line, In (s, line) L -> formulaSection s = true -> exists o f f', substituteLine bools (expressions r) line = Ret o /\ reads names line f /\ reads bools' o f' /\
    forall D D' bv nv nv', (forall x, In x (integerWords f) -> wordValue nv x = match expressions r x with Some _ => numValue D' nv' false (plus x) - numValue D' nv' false (minus x) | None => wordValue nv' x end)%Z -> truth D' bv nv' false f' = truth D bv nv false f).
  { intros s line Hl FS. destruct (HF s line Hl FS) as (f & R & S & W & I). assert (R' : reads bools line f) by (destruct R as (ts & R1 & R2); exists ts; split; [now apply (lexes_same names)|exact R2]).
    destruct (substitute_line bools bools' (expressions r) plus minus line f R' S BW W I) as (o & f' & E1 & E2 & E3). exists o, f, f'. auto. }
  destruct T as [_ T]. destruct T as (out & E); [intros s line Hl FS; destruct (G s line Hl FS) as (o & _ & _ & E & _); eauto|].
  destruct (O out E) as (L' & O1 & O2 & O3). exists out, L'. split; [exact E|]. split; [exact O1|]. split; [exact O2|]. intros s FS. specialize (O3 s FS).
  assert (G' : forall line, In line (linesOf s L) -> In (s, line) L) by (intros line; apply in_linesOf). revert G' O3. generalize (linesOf s L) (linesOf s L'). clear - G FS. intros l l' G' F.
  induction F as [|a b l l' (o & E & ->) F IH]; constructor; [|apply IH; intros x Hx; apply G'; now right]. destruct (G s a (G' a (or_introl eq_refl)) FS) as (o' & f & f' & E1 & E2 & E3 & E4). pose proof (eq_trans (eq_sym E) E1) as X. injection X as <-. exists o, f, f'. auto.
Qed.
