(** * Proofs: replacing integer variables by differences *)

From Coq Require Import String Ascii List Bool Arith NArith ZArith Lia.
From Verif Require Import FormulaSpec FileSpec Parser FileProofs OutputProofs StructuredSpec Structured StructuredTrans StructGrammar StructParse StructReadProofs
  StructFileSpec StructFile StuckProofs PropsStructured StructConvProofs StructTokenProofs SubstSpec Subst.
Import ListNotations.
Local Open Scope string_scope.

(** ** Texts and their tokens *)

Section LEX.
  Variable bs : list string.
  Definition lexK (out : string) (ts : list token) : Prop :=
    forall s us, endsBefore isWordChar s -> lexes bs s us -> lexes bs (out ++ s) (ts ++ us)%list.

  Lemma lexK_all w ts : lexes bs w ts -> lexK w ts.
  Proof.
    intros H s us E L. induction H as [|a s0 ts Ha H IH|w s0 t ts Hw He Ht H IH|w s0 ts Hw Hd He H IH|a s0 ts H1 H2 H3 H IH].
    - exact L.
    - cbn [append]. now apply lex_space.
    - rewrite sapp_assoc. apply lex_word; auto. destruct s0; [exact E|exact He].
    - rewrite sapp_assoc. apply lex_number; auto. destruct s0; [|exact He]. destruct s as [|c s]; [exact I|]. cbn in *. unfold isWordChar in E. apply orb_false_iff in E. apply E.
    - cbn [append]. now apply lex_symbol.
  Qed.
  Lemma lexK_end w ts : lexK w ts -> lexes bs w ts.
  Proof. intros H. specialize (H "" [] I (lex_end bs)). rewrite sapp_nil, app_nil_r in H. exact H. Qed.
  Lemma lexK_nil : lexK "" [].
  Proof. intros s us E L. exact L. Qed.
  Lemma lexK_sym a w ts : isSpace a = false -> isWordStart a = false -> isDigit a = false -> lexK w ts -> lexK (String a w) (sym (String a "") :: ts).
  Proof. intros H1 H2 H3 H s us E L. cbn [append app]. apply lex_symbol; auto. Qed.
  Lemma lexK_space w ts : lexK w ts -> lexK (String " " w) ts.
  Proof. intros H s us E L. cbn [append]. apply lex_space; [reflexivity|auto]. Qed.
  Lemma lexK_app v w ts us : lexK v ts -> lexK w us -> w = "" \/ (exists a r, w = String a r /\ isWordChar a = false) -> lexK (v ++ w) (ts ++ us).
  Proof.
    intros H1 H2 H s xs E L. rewrite sapp_assoc, <- app_assoc. apply H1; [|now apply H2]. destruct H as [->|(a & r & -> & Ha)]; [exact E|exact Ha].
  Qed.
  Lemma lexK_word w t : isWordToken w = true -> word_token bs w t -> lexK w [t].
  Proof. intros H1 H2 s us E L. cbn [app]. now apply lex_word. Qed.
  Lemma lexK_numeral w : w <> "" -> allDigits w = true -> lexK w [("numeral", w)].
  Proof. intros H1 H2 s us E L. cbn [app]. apply lex_number; auto. destruct s as [|c s]; [exact I|]. cbn in *. unfold isWordChar in E. apply orb_false_iff in E. apply E. Qed.

  Lemma paren_app v w : ("(" ++ v ++ ")") ++ w = String "(" (v ++ String ")" w).
  Proof. cbn [append]. now rewrite sapp_assoc. Qed.
  Lemma lexK_paren v ts w us : lexK v ts -> lexK w us -> lexK (String "(" (v ++ String ")" w)) (sym "(" :: ts ++ sym ")" :: us).
  Proof.
    intros H1 H2. apply lexK_sym; [reflexivity..|]. apply lexK_app; [exact H1| |right; do 2 eexists; split; reflexivity]. apply lexK_sym; [reflexivity..|exact H2].
  Qed.
  Lemma lexK_paren0 v ts : lexK v ts -> lexK ("(" ++ v ++ ")") (sym "(" :: ts ++ [sym ")"]).
  Proof. intros H. apply lexK_paren; [exact H|apply lexK_nil]. Qed.

  (** ** Sums *)
  Definition sameValue (e : num) (v : limits -> (bool -> string -> Z) -> Z) : Prop := forall D nv, numValue D nv false e = v D nv.
  Lemma number3 l ts a : number l ts a -> (l <= 3)%nat -> number 3 ts a.
  Proof.
    intros H L. remember (3 - l)%nat as k eqn:K. revert l K L H. induction k as [|k IH]; intros l K L H; [replace l with 3%nat in H by lia; exact H|].
    apply (IH (S l)); [lia|lia|apply n_up; [lia|exact H]].
  Qed.
  Lemma sum_app ts a : number 3 ts a -> forall us b, number 3 us b ->
    exists c, number 3 (ts ++ sym "+" :: us) c /\ forall D nv, numValue D nv false c = (numValue D nv false a + numValue D nv false b)%Z.
  Proof.
    intros H. remember 3%nat as l eqn:El. induction H as [x|w|ts a H IH|l ts a Hl H IH|ts us a b H1 IH1 H2 IH2|ts us a b H1 IH1 H2 IH2|ts us a b H1 IH1 H2 IH2]; intros us' c Hc; try discriminate El.
    - injection El as ->. exists (Add a c). split; [now apply n_add|reflexivity].
    - destruct (IH2 eq_refl us' c Hc) as (d & D1 & D2). exists (Add a d). split.
      + rewrite <- app_assoc. cbn [app]. now apply n_add.
      + intros D nv. cbn [numValue]. rewrite D2. lia.
  Qed.
  Lemma sum_join l : l <> [] -> forall es, Forall2 (readsNumber bs) l es ->
    exists ts e, lexK (String.concat "+" l) ts /\ number 3 ts e /\ forall D nv, numValue D nv false e = fold_right Z.add 0%Z (map (numValue D nv false) es).
  Proof.
    intros NE es H. induction H as [|w e l es (ts & L & N) H IH]; [congruence|]. destruct l as [|w' l].
    - inversion H; subst. exists ts, e. split; [now apply lexK_all|]. split; [exact N|]. intros D nv. cbn. lia.
    - destruct (IH ltac:(discriminate)) as (us & e' & A1 & A2 & A3). destruct (sum_app ts e N us e' A2) as (c & C1 & C2).
      exists (ts ++ sym "+" :: us)%list, c. split; [|split; [exact C1|]].
      + change (lexK (w ++ String "+" (String.concat "+" (w' :: l))) (ts ++ sym "+" :: us)). apply lexK_app; [now apply lexK_all| |right; do 2 eexists; split; reflexivity].
        apply lexK_sym; [reflexivity..|exact A1].
      + intros D nv. rewrite C2, A3. reflexivity.
  Qed.

  (** ** Numbers *)
  Variable repl : string -> option (string * string).
  (** The word can be replaced or kept. *)
  Inductive canReplace (x : string) : num -> option num -> Prop :=
  | cr_yes p m ep em : repl x = Some (p, m) -> readsNumber bs p ep -> readsNumber bs m em -> canReplace x ep (Some em)
  | cr_no : repl x = None -> ~ In x keyWords -> ~ In x bs -> isWordToken x = true -> canReplace x (NumID x) None.

  Lemma paren_number ts a : number 3 ts a -> number 3 (sym "(" :: ts ++ [sym ")"]) (NumBrackets a).
  Proof. intros H. apply (number3 0); [now apply n_brackets|lia]. Qed.
  Lemma paren_sum ts a us b : number 3 ts a -> number 3 us b ->
    exists c, number 3 (sym "(" :: (sym "(" :: ts ++ sym ")" :: sym "+" :: sym "(" :: us ++ [sym ")"]) ++ [sym ")"]) c /\
      forall D nv, numValue D nv false c = (numValue D nv false a + numValue D nv false b)%Z.
  Proof.
    intros H1 H2. destruct (sum_app _ _ (paren_number _ _ H1) _ _ (paren_number _ _ H2)) as (c & C1 & C2). exists (NumBrackets c). split; [|exact C2].
    apply paren_number. revert C1. cbn [app]. now rewrite <- app_assoc.
  Qed.
  Lemma lexK_sum v ts w us : lexK v ts -> lexK w us ->
    lexK ("((" ++ v ++ ")+(" ++ w ++ "))") (sym "(" :: (sym "(" :: ts ++ sym ")" :: sym "+" :: sym "(" :: us ++ [sym ")"]) ++ [sym ")"]).
  Proof.
    intros H1 H2. cbn [append]. apply lexK_sym; [reflexivity..|]. replace ((sym "(" :: ts ++ sym ")" :: sym "+" :: sym "(" :: us ++ [sym ")"]) ++ [sym ")"])%list
      with (sym "(" :: ts ++ sym ")" :: sym "+" :: sym "(" :: us ++ [sym ")"; sym ")"])%list by (cbn [app]; rewrite <- app_assoc; cbn [app]; now rewrite <- app_assoc).
    change (lexK (String "(" (v ++ String ")" (String "+" (String "(" (w ++ String ")" (String ")" "")))))) (sym "(" :: ts ++ sym ")" :: sym "+" :: sym "(" :: us ++ sym ")" :: [sym ")"])).
    apply lexK_paren; [exact H1|]. apply lexK_sym; [reflexivity..|]. apply lexK_paren; [exact H2|]. apply lexK_sym; [reflexivity..|apply lexK_nil].
  Qed.

  Definition values D nv (es : list num) : Z := fold_right Z.add 0%Z (map (numValue D nv false) es).
  Lemma values_app D nv l l' : values D nv (l ++ l') = (values D nv l + values D nv l')%Z.
  Proof. unfold values. induction l as [|e l IH]; cbn [app map fold_right]; [lia|]. rewrite IH. lia. Qed.
  (** For fixed values: what the words mean. *)
  Section VAL.
    Variable expr : string -> num * option num.
    Definition wordsOK (ws : list string) : Prop := forall x, In x ws -> canReplace x (fst (expr x)) (snd (expr x)).
    Definition agreeOn (D' : limits) (nv nv' : bool -> string -> Z) (ws : list string) : Prop :=
      forall x, In x ws -> wordValue nv x = (numValue D' nv' false (fst (expr x)) - match snd (expr x) with Some e => numValue D' nv' false e | None => 0 end)%Z.

    Lemma expression_ok a next : numTokens a = true -> sumOnly next a -> wordsOK (numWords a) ->
      exists a' adds w ts e es, treeReplaceExpression repl a = Ret (a', adds) /\ numLine next a' = Ret w /\ lexK w ts /\ number 3 ts e /\ Forall2 (readsNumber bs) adds es /\
        forall D D' nv nv', agreeOn D' nv nv' (numWords a) -> numValue D nv next a = (numValue D' nv' false e - values D' nv' es)%Z.
    Proof.
      induction a as [x|n|a IHa b IHb|a IHa b IHb|a IHa|a IHa b IHb]; cbn [numTokens sumOnly numWords]; intros T S W; try (exfalso; exact S).
      - destruct next; [discriminate S|]. pose proof (W x (or_introl eq_refl)) as R. cbn [treeReplaceExpression]. 
        assert (V : forall D D' nv nv', agreeOn D' nv nv' [x] -> numValue D nv false (NumID x) = (numValue D' nv' false (fst (expr x)) - match snd (expr x) with Some e => numValue D' nv' false e | None => 0 end)%Z).
        { intros D D' nv nv' A. rewrite <- (A x (or_introl eq_refl)). cbn [numValue]. unfold wordValue. destruct (unprime x). now rewrite orb_false_r. }
        destruct R as [p m ep em E (tp & L1 & N1) (tm & L2 & N2)|E K B Tx].
        + rewrite E. exists (NumID p), [m], p, tp, ep, [em]. split; [reflexivity|]. split; [reflexivity|]. split; [now apply lexK_all|]. split; [exact N1|].
          split; [constructor; [exists tm; auto|constructor]|]. intros D D' nv nv' A. rewrite (V D D' nv nv' A). unfold values. cbn. lia.
        + rewrite E. exists (NumID x), [], x, [("numID", x)], (NumID x), []. split; [reflexivity|]. split; [reflexivity|]. split; [apply lexK_word; [exact Tx|now apply wt_num]|].
          split; [apply (number3 0); [apply n_id|lia]|]. split; [constructor|]. intros D D' nv nv' A. rewrite (V D D' nv nv' A). unfold values. cbn [map fold_right]. lia.
      - apply Z.leb_le in T. destruct (showZ_numeral n T) as (N1 & N2 & N3). exists (Numeral n), [], (showZ n), [("numeral", showZ n)], (Numeral (Z.of_N (decimal 0 (showZ n)))), [].
        split; [reflexivity|]. split; [reflexivity|]. split; [now apply lexK_numeral|]. split; [apply (number3 0); [apply n_numeral|lia]|]. split; [constructor|].
        intros. cbn [numValue]. rewrite N3. unfold values. cbn [map fold_right]. rewrite Z2N.id by exact T. lia.
      - apply andb_prop in T. destruct T as [T1 T2], S as [S1 S2].
        destruct (IHa T1 S1 ltac:(intros x Hx; apply W, in_or_app; auto)) as (a' & ad1 & w1 & ts1 & e1 & es1 & A1 & A2 & A3 & A4 & A5 & A6).
        destruct (IHb T2 S2 ltac:(intros x Hx; apply W, in_or_app; auto)) as (b' & ad2 & w2 & ts2 & e2 & es2 & B1 & B2 & B3 & B4 & B5 & B6).
        destruct (paren_sum _ _ _ _ A4 B4) as (c & C1 & C2). cbn [treeReplaceExpression]. rewrite A1, B1. cbn [pybind].
        do 4 eexists. exists c, (es1 ++ es2)%list. split; [reflexivity|]. cbn [numLine]. rewrite A2, B2. cbn [pybind]. split; [reflexivity|]. split; [apply lexK_sum; eassumption|].
        split; [exact C1|]. split; [now apply Forall2_app|]. intros D D' nv nv' Ag. cbn [numValue]. rewrite C2, values_app, (A6 D D' nv nv'), (B6 D D' nv nv'); [lia|..]; intros x Hx; apply Ag, in_or_app; auto.
    Qed.

    (** ** Comparisons *)
    Lemma addAll_ok a' next w ts e adds es : numLine next a' = Ret w -> (adds <> [] -> next = false) -> lexK w ts -> number 3 ts e -> Forall2 (readsNumber bs) adds es ->
      exists w' ts' e', numLine next (addAll a' adds) = Ret w' /\ lexK w' ts' /\ number 3 ts' e' /\ forall D nv, numValue D nv false e' = (numValue D nv false e + values D nv es)%Z.
    Proof.
      intros A2 NX A3 A4 A5. destruct adds as [|d adds].
      - inversion A5; subst. exists w, ts, e. repeat (split; [assumption|]). intros. unfold values. cbn [map fold_right]. lia.
      - destruct (sum_join (d :: adds) ltac:(discriminate) es A5) as (us & e' & J1 & J2 & J3). destruct (paren_sum _ _ _ _ A4 J2) as (c & C1 & C2).
        unfold addAll. cbn [numLine]. rewrite A2, (NX ltac:(discriminate)). cbn [pybind]. do 3 eexists. split; [reflexivity|]. split; [apply lexK_sum; eassumption|]. split; [exact C1|].
        intros D nv. rewrite C2, J3. reflexivity.
    Qed.
    Lemma no_adds a next a' adds : treeReplaceExpression repl a = Ret (a', adds) -> sumOnly next a -> adds <> [] -> next = false.
    Proof.
      revert a' adds. induction a as [x|n|a IHa b IHb|a IHa b IHb|a IHa|a IHa b IHb]; cbn [treeReplaceExpression sumOnly]; intros a' adds E S N; try discriminate E; auto.
      - injection E as _ <-. congruence.
      - destruct (treeReplaceExpression repl a) as [[a1 r1]| |]; try discriminate E. cbn [pybind] in E.
        destruct (treeReplaceExpression repl b) as [[b1 r2]| |]; try discriminate E. cbn [pybind] in E. injection E as _ <-.
        destruct r1 as [|y r1]; [|apply (IHa _ _ eq_refl); [apply S|discriminate]]. apply (IHb _ _ eq_refl); [apply S|exact N].
    Qed.
    Lemma op_tokens c : exists os, comparing os c /\ forall w us, lexK w us -> lexK (opString c ++ w) (os ++ us)%list /\ exists a r, opString c ++ w = String a r /\ isWordChar a = false.
    Proof.
      destruct c; cbn [opString append];
        [exists (syms [">"])|exists (syms [">"; "="])|exists (syms ["<"])|exists (syms ["<"; "="])|exists (syms ["="])|exists (syms ["!"; "="])];
        (split; [constructor|]; intros w us H; split; [cbn [syms map app]; repeat (apply lexK_sym; [reflexivity..|]); exact H|do 2 eexists; split; reflexivity]).
    Qed.
    Lemma compare_shift c a b x y : compareZ c (a - x) (b - y) = compareZ c (a + y) (b + x).
    Proof.
      destruct c; cbn [compareZ]; rewrite ?Z.eqb_sym with (x := (a - x)%Z); apply eq_true_iff_eq; rewrite ?negb_true_iff, ?Z.ltb_lt, ?Z.leb_le, ?Z.eqb_neq, ?Z.eqb_eq; lia.
    Qed.

    (** ** Formulas *)
    Fixpoint treeWords (t : tree) : list string :=
      match t with
      | TBiimp f g | TImp f g => treeWords f ++ treeWords g
      | TXor fs | TOr fs | TAnd fs => flat_map treeWords fs
      | TUnary _ f => treeWords f
      | TTemporal | TFalse | TTrue | TAssign _ => []
      | TCalc a _ b => numWords a ++ numWords b
      end.
    Fixpoint treeOK (next : bool) (t : tree) : Prop :=
      match t with
      | TBiimp f g | TImp f g => treeOK next f /\ treeOK next g
      | TOr fs | TAnd fs => fs <> [] /\ fold_right (fun f P => treeOK next f /\ P) True fs
      | TXor _ | TTemporal => False
      | TUnary ONot f => treeOK next f
      | TUnary ONext f => next = false /\ treeOK true f
      | TUnary _ _ => False
      | TFalse | TTrue => True
      | TAssign x => (next = true -> noQuote x = true) /\ isWordToken (prime next x) = true /\ ~ In (prime next x) keyWords /\ In (prime next x) bs
      | TCalc a _ b => (numTokens a = true /\ numTokens b = true) /\ (sumOnly next a /\ sumOnly next b) /\ wordsOK (numWords a ++ numWords b)
      end.
    Definition treeGoal (next : bool) (t : tree) : Prop :=
      exists t' out ts g, treeReplace repl t = Ret t' /\ toLine next t' = Ret out /\ lexK out ts /\ formula 1 ts g /\
        forall D D' bv nv nv', agreeOn D' nv nv' (treeWords t) -> truth D' bv nv' false g = treeTruth D bv nv next t.

    Lemma formula_up l k ts f : formula l ts f -> (l <= k)%nat -> (k <= 7)%nat -> formula k ts f.
    Proof.
      intros H L K. replace k with (l + (k - l))%nat by lia. remember (k - l)%nat as d eqn:E. assert (l + d <= 7)%nat by lia. clear E. induction d as [|d IH]; [now rewrite Nat.add_0_r|].
      rewrite Nat.add_succ_r. apply f_up; [lia|apply IH; lia].
    Qed.
    Lemma paren_formula ts f : formula 1 ts f -> formula 0 (sym "(" :: ts ++ [sym ")"]) (SBrackets f).
    Proof. intros H. apply f_round. eapply formula_up; [exact H|lia|lia]. Qed.

    Lemma chain_formula c a l con op : infixed (S l) [sym (String a "")] con -> (1 <= l)%nat -> (l <= 4)%nat -> isSpace a = false -> isWordStart a = false -> isDigit a = false -> c = String a "" ->
      forall rest, Forall (fun x : string * list token * sfml => lexK (fst (fst x)) (snd (fst x)) /\ formula 0 (snd (fst x)) (snd x)) rest ->
      (forall D bv nv f g, truth D bv nv false (con f g) = op (truth D bv nv false f) (truth D bv nv false g)) ->
      forall w0 ts0 g0, lexK w0 ts0 -> formula (S l) ts0 g0 ->
      exists ts g, lexK (w0 ++ fold_right (fun x s => c ++ fst (fst x) ++ s) "" rest) ts /\ formula (S l) ts g /\
        forall D bv nv, truth D bv nv false g = fold_left op (map (fun x => truth D bv nv false (snd x)) rest) (truth D bv nv false g0).
    Proof.
      intros HI L1 L4 S1 S2 S3 -> rest HR HT. induction HR as [|[[w us] f] rest [X1 X2] HR IH]; intros w0 ts0 g0 K0 F0; cbn [fst snd] in *.
      - exists ts0, g0. cbn [fold_right map fold_left]. rewrite sapp_nil. auto.
      - destruct (IH (w0 ++ String a w) (ts0 ++ [sym (String a "")] ++ us)%list (con g0 f)) as (ts & g & A1 & A2 & A3).
        + apply lexK_app; [exact K0|cbn [app]; now apply lexK_sym|]. right. exists a, w. split; [reflexivity|]. unfold isWordChar. now rewrite S2, S3.
        + apply f_binary; [exact HI|exact F0|]. eapply formula_up; [exact X2|lia|lia].
        + exists ts, g. split; [|split; [exact A2|]].
          * cbn [fold_right fst snd]. cbn [append]. rewrite sapp_assoc in A1. exact A1.
          * intros D bv nv. cbn [map fold_left snd]. rewrite A3, HT. reflexivity.
    Qed.
    Lemma concat_fold c (l : list string) x : String.concat c (x :: l) = x ++ fold_right (fun y s => c ++ y ++ s) "" l.
    Proof.
      revert x. induction l as [|y l IH]; intros x; [cbn; now rewrite sapp_nil|]. change (String.concat c (x :: y :: l)) with (x ++ c ++ String.concat c (y :: l)). now rewrite IH.
    Qed.
    Lemma fold_op_and l : forall b, fold_left andb l b = b && forallb (fun x => x) l.
    Proof. induction l as [|c l IH]; intros b; cbn; [now rewrite andb_true_r|]. now rewrite IH, andb_assoc. Qed.
    Lemma fold_op_or l : forall b, fold_left orb l b = b || existsb (fun x => x) l.
    Proof. induction l as [|c l IH]; intros b; cbn; [now rewrite orb_false_r|]. now rewrite IH, orb_assoc. Qed.
    Lemma goals_list next fs : Forall (treeGoal next) fs -> exists fs' outs xs,
      pyMap (treeReplace repl) fs = Ret fs' /\ pyMap (toLine next) fs' = Ret outs /\ map inBrackets outs = map (fun x : string * list token * sfml => fst (fst x)) xs /\
      Forall (fun x : string * list token * sfml => lexK (fst (fst x)) (snd (fst x)) /\ formula 0 (snd (fst x)) (snd x)) xs /\ length xs = length fs /\
      forall D D' bv nv nv', agreeOn D' nv nv' (flat_map treeWords fs) -> map (fun x => truth D' bv nv' false (snd x)) xs = map (treeTruth D bv nv next) fs.
    Proof.
      intros H. induction H as [|f fs (t' & out & ts & g & A1 & A2 & A3 & A4 & A5) H (fs' & outs & xs & B1 & B2 & B3 & B4 & B5 & B6)].
      - exists [], [], []. cbn. repeat split; auto.
      - exists (t' :: fs'), (out :: outs), ((inBrackets out, (sym "(" :: ts ++ [sym ")"]), SBrackets g) :: xs)%list. cbn [pyMap]. fold (pyMap (treeReplace repl)). fold (pyMap (toLine next)). rewrite A1, B1, A2. cbn [pybind]. rewrite B2. cbn [pybind].
        split; [reflexivity|]. split; [reflexivity|]. split; [cbn [map fst]; now rewrite B3|]. split; [constructor; [|exact B4]; cbn [fst snd]; split; [now apply lexK_paren0|now apply paren_formula]|].
        split; [cbn [length]; lia|]. intros D D' bv nv nv' Ag. cbn [map snd truth]. f_equal; [apply A5|apply B6]; intros x Hx; apply Ag; cbn [flat_map]; apply in_or_app; auto.
    Qed.
    Lemma chain_ok next c a l con op fs : infixed (S l) [sym (String a "")] con -> (1 <= l)%nat -> (l <= 4)%nat -> isSpace a = false -> isWordStart a = false -> isDigit a = false -> c = String a "" ->
      (forall D bv nv f g, truth D bv nv false (con f g) = op (truth D bv nv false f) (truth D bv nv false g)) -> fs <> [] -> Forall (treeGoal next) fs ->
      exists fs' outs ts g, pyMap (treeReplace repl) fs = Ret fs' /\ pyMap (toLine next) fs' = Ret outs /\ lexK ("(" ++ String.concat c (map inBrackets outs) ++ ")") ts /\ formula 1 ts g /\
        forall D D' bv nv nv', agreeOn D' nv nv' (flat_map treeWords fs) ->
          truth D' bv nv' false g = match map (treeTruth D bv nv next) fs with [] => false | b :: r => fold_left op r b end.
    Proof.
      intros HI L1 L4 S1 S2 S3 Ec HT NE H. destruct (goals_list next fs H) as (fs' & outs & xs & B1 & B2 & B3 & B4 & B5 & B6). exists fs', outs.
      destruct xs as [|[[w ts0] g0] xs]; [destruct fs; [congruence|discriminate B5]|]. inversion B4 as [|? ? [X1 X2] B4']; subst. cbn [fst snd] in X1, X2.
      destruct (chain_formula _ a l con op HI L1 L4 S1 S2 S3 eq_refl xs B4' HT w ts0 g0 X1) as (ts & g & C1 & C2 & C3); [eapply formula_up; [exact X2|lia|lia]|].
      exists (sym "(" :: ts ++ [sym ")"])%list, (SBrackets g). split; [exact B1|]. split; [exact B2|]. split; [|split].
      - apply lexK_paren0. rewrite B3. cbn [map fst]. rewrite concat_fold. replace (fold_right _ _ _) with (fold_right (fun x s => String a "" ++ fst (fst x) ++ s) "" xs); [exact C1|].
        clear. induction xs as [|x xs IH]; [reflexivity|]. cbn [map fold_right]. now rewrite IH.
      - apply f_up; [lia|]. apply f_round. eapply formula_up; [exact C2|lia|lia].
      - intros D D' bv nv nv' Ag. rewrite <- (B6 D D' bv nv nv' Ag). cbn [truth map snd]. apply C3.
    Qed.
    Lemma binary_ok (m : string) next f g t1 t2 l os con :
      treeGoal next f -> treeGoal next g -> (forall w us, lexK w us -> lexK (m ++ w) (os ++ us)%list) -> (exists a r, m = String a r /\ isWordChar a = false) -> infixed (S l) os con -> (1 <= l)%nat -> (l <= 6)%nat ->
      forall f' g' b1 b2, treeReplace repl f = Ret f' -> treeReplace repl g = Ret g' -> toLine next f' = Ret b1 -> toLine next g' = Ret b2 -> t1 = b1 -> t2 = b2 ->
      exists ts h, lexK ("((" ++ t1 ++ ")" ++ m ++ "(" ++ t2 ++ "))") ts /\ formula 1 ts h /\
      exists gf gg, h = SBrackets (con (SBrackets gf) (SBrackets gg)) /\ 
       (forall D D' bv nv nv', agreeOn D' nv nv' (treeWords f) -> truth D' bv nv' false gf = treeTruth D bv nv next f) /\
       (forall D D' bv nv nv', agreeOn D' nv nv' (treeWords g) -> truth D' bv nv' false gg = treeTruth D bv nv next g).
    Proof.
      intros (x1 & o1 & ts1 & gf & A1 & A2 & A3 & A4 & A5) (x2 & o2 & ts2 & gg & B1 & B2 & B3 & B4 & B5) HM HA HI L1 L6 f' g' b1 b2 E1 E2 E3 E4 -> ->.
      rewrite A1 in E1. injection E1 as <-. rewrite B1 in E2. injection E2 as <-. rewrite A2 in E3. injection E3 as <-. rewrite B2 in E4. injection E4 as <-.
      exists (sym "(" :: ((sym "(" :: ts1 ++ [sym ")"]) ++ os ++ (sym "(" :: ts2 ++ [sym ")"])) ++ [sym ")"])%list, (SBrackets (con (SBrackets gf) (SBrackets gg))). split; [|split].
      - replace ("((" ++ o1 ++ ")" ++ m ++ "(" ++ o2 ++ "))") with ("(" ++ (("(" ++ o1 ++ ")") ++ m ++ ("(" ++ o2 ++ ")")) ++ ")").
        + apply lexK_paren0. apply lexK_app; [now apply lexK_paren0| |]; [apply HM; now apply lexK_paren0|]. right. destruct HA as (a & r & -> & Ha). do 2 eexists. split; [reflexivity|exact Ha].
        + cbn [append]. repeat (rewrite sapp_assoc; cbn [append]). reflexivity.
      - apply f_up; [lia|]. apply f_round. apply (formula_up (S l)); [|lia|lia]. apply f_binary; [exact HI|eapply formula_up; [apply paren_formula; exact A4|lia|lia]|eapply formula_up; [apply paren_formula; exact B4|lia|lia]].
      - exists gf, gg. split; [reflexivity|]. split; [exact A5|exact B5].
    Qed.

    Theorem tree_ok t : forall next, treeOK next t -> treeGoal next t.
    Proof.
      induction t as [f g IHf IHg|f g IHf IHg|fs IH|fs IH|fs IH| |o f IHf| | |x|a c b] using tree_rec'; intros next H; cbn [treeOK] in H; try (exfalso; exact H).
      - destruct H as [H1 H2]. pose proof (IHf next H1) as G1. pose proof (IHg next H2) as G2. destruct G1 as (f' & o1 & G1). destruct G2 as (g' & o2 & G2).
        assert (F1 : treeGoal next f) by (exists f', o1; exact G1). assert (F2 : treeGoal next g) by (exists g', o2; exact G2). destruct G1 as (_ & _ & A1 & A2 & _), G2 as (_ & _ & B1 & B2 & _).
        destruct (binary_ok " <-> " next f g o1 o2 6 (syms ["<"; "-"; ">"]) SBiimp F1 F2) with (f' := f') (g' := g') (b1 := o1) (b2 := o2) as (ts & h & C1 & C2 & gf & gg & -> & C3 & C4); auto.
        { intros w us Hw. cbn [append syms map app]. apply lexK_space. repeat (apply lexK_sym; [reflexivity..|]). now apply lexK_space. }
        { do 2 eexists. split; reflexivity. } { apply i_biimp. cbn. auto. } all : try lia.
        exists (TBiimp f' g'). do 3 eexists. cbn [treeReplace]. rewrite A1, B1. cbn [pybind]. split; [reflexivity|]. cbn [toLine]. rewrite A2, B2. cbn [pybind]. split; [reflexivity|].
        split; [exact C1|]. split; [exact C2|]. intros D D' bv nv nv' Ag. cbn [truth treeTruth]. rewrite (C3 D D' bv nv nv'), (C4 D D' bv nv nv'); auto; intros x Hx; apply Ag; cbn [treeWords]; apply in_or_app; auto.
      - destruct H as [H1 H2]. pose proof (IHf next H1) as G1. pose proof (IHg next H2) as G2. destruct G1 as (f' & o1 & G1). destruct G2 as (g' & o2 & G2).
        assert (F1 : treeGoal next f) by (exists f', o1; exact G1). assert (F2 : treeGoal next g) by (exists g', o2; exact G2). destruct G1 as (_ & _ & A1 & A2 & _), G2 as (_ & _ & B1 & B2 & _).
        destruct (binary_ok " -> " next f g o1 o2 5 (syms ["-"; ">"]) SImp F1 F2) with (f' := f') (g' := g') (b1 := o1) (b2 := o2) as (ts & h & C1 & C2 & gf & gg & -> & C3 & C4); auto.
        { intros w us Hw. cbn [append syms map app]. apply lexK_space. repeat (apply lexK_sym; [reflexivity..|]). now apply lexK_space. }
        { do 2 eexists. split; reflexivity. } { apply i_imp. cbn. auto. } all : try lia.
        exists (TImp f' g'). do 3 eexists. cbn [treeReplace]. rewrite A1, B1. cbn [pybind]. split; [reflexivity|]. cbn [toLine]. rewrite A2, B2. cbn [pybind]. split; [reflexivity|].
        split; [exact C1|]. split; [exact C2|]. intros D D' bv nv nv' Ag. cbn [truth treeTruth]. rewrite (C3 D D' bv nv nv'), (C4 D D' bv nv nv'); auto; intros x Hx; apply Ag; cbn [treeWords]; apply in_or_app; auto.
      - destruct H as [NE H]. assert (FG : Forall (treeGoal next) fs).
        { clear NE. induction IH as [|f fs Hf _ IHl]; constructor; cbn [fold_right] in H; [apply Hf, H|apply IHl, H]. }
        destruct (chain_ok next "|" "|"%char 3 SOr orb fs) as (fs' & outs & ts & g & B1 & B2 & B3 & B4 & B5); auto. { apply i_or. cbn. auto. }
        exists (TOr fs'). do 3 eexists. cbn [treeReplace]. rewrite B1. cbn [pybind]. split; [reflexivity|]. cbn [toLine]. rewrite B2. cbn [pybind]. split; [reflexivity|]. split; [exact B3|]. split; [exact B4|].
        intros D D' bv nv nv' Ag. rewrite (B5 D D' bv nv nv' Ag). cbn [treeTruth]. destruct fs as [|f fs]; [congruence|]. cbn [map existsb]. rewrite fold_op_or. f_equal. clear. induction fs as [|h fs IHl]; cbn; [reflexivity|]. now rewrite IHl.
      - destruct H as [NE H]. assert (FG : Forall (treeGoal next) fs).
        { clear NE. induction IH as [|f fs Hf _ IHl]; constructor; cbn [fold_right] in H; [apply Hf, H|apply IHl, H]. }
        destruct (chain_ok next "&" "&"%char 2 SAnd andb fs) as (fs' & outs & ts & g & B1 & B2 & B3 & B4 & B5); auto. { apply i_and. cbn. auto. }
        exists (TAnd fs'). do 3 eexists. cbn [treeReplace]. rewrite B1. cbn [pybind]. split; [reflexivity|]. cbn [toLine]. rewrite B2. cbn [pybind]. split; [reflexivity|]. split; [exact B3|]. split; [exact B4|].
        intros D D' bv nv nv' Ag. rewrite (B5 D D' bv nv nv' Ag). cbn [treeTruth]. destruct fs as [|f fs]; [congruence|]. cbn [map forallb]. rewrite fold_op_and. f_equal. clear. induction fs as [|h fs IHl]; cbn; [reflexivity|]. now rewrite IHl.
      - destruct o; try (exfalso; exact H).
        + destruct (IHf next H) as (t' & out & ts & g & A1 & A2 & A3 & A4 & A5). exists (TUnary ONot t'), ("! " ++ out), (syms ["!"] ++ ts)%list, (SUnary ONot g). cbn [treeReplace]. rewrite A1. split; [reflexivity|].
          cbn [toLine]. rewrite A2. split; [reflexivity|]. split; [cbn [append syms map app]; apply lexK_sym; [reflexivity..|]; now apply lexK_space|]. split; [apply f_unary; [apply p_not; cbn; auto|exact A4]|].
          intros D D' bv nv nv' Ag. cbn [truth treeTruth]. f_equal. now apply A5.
        + destruct H as [-> H]. destruct (IHf true H) as (t' & out & ts & g & A1 & A2 & A3 & A4 & A5). exists (TUnary ONext t'), out, ts, g. cbn [treeReplace]. rewrite A1. split; [reflexivity|]. cbn [toLine]. auto.
      - exists TFalse, "FALSE", [sym "FALSE"], SFalse. repeat split. { apply lexK_word; [reflexivity|]. apply wt_key. cbn. auto 20. } { apply f_up; [lia|apply f_false]. }
      - exists TTrue, "TRUE", [sym "TRUE"], STrue. repeat split. { apply lexK_word; [reflexivity|]. apply wt_key. cbn. auto 20. } { apply f_up; [lia|apply f_true]. }
      - destruct H as (Q & T & K & B). exists (TAssign x), (prime next x), [("boolID", prime next x)], (SAssign (prime next x)). split; [reflexivity|].
        assert (EQ : next = true -> existsb (Ascii.eqb "'") (list_ascii_of_string x) = false).
        { intros N. specialize (Q N). clear - Q. unfold noQuote in Q. induction x as [|a x IH]; [reflexivity|]. cbn [allChars list_ascii_of_string existsb] in *. apply andb_prop in Q. destruct Q as [Q1 Q2]. rewrite (IH Q2), orb_false_r.
          rewrite Ascii.eqb_sym. now apply negb_true_iff in Q1. }
        split; [|split; [|split]].
        + cbn [toLine]. destruct next; [|reflexivity]. rewrite (EQ eq_refl). reflexivity.
        + apply lexK_word; [exact T|now apply wt_bool].
        + apply f_up; [lia|apply f_bool].
        + intros D D' bv nv nv' _. cbn [truth treeTruth]. destruct next; [|reflexivity]. rewrite (unprime_prime x true (Q eq_refl)).
          pose proof (unprime_prime x false (Q eq_refl)) as U. cbn [prime] in U. rewrite U. reflexivity.
      - destruct H as ((T1 & T2) & (S1 & S2) & W). destruct (expression_ok a next T1 S1) as (a' & ad1 & w1 & ts1 & e1 & es1 & A1 & A2 & A3 & A4 & A5 & A6); [intros x Hx; apply W, in_or_app; auto|].
        destruct (expression_ok b next T2 S2) as (b' & ad2 & w2 & ts2 & e2 & es2 & B1 & B2 & B3 & B4 & B5 & B6); [intros x Hx; apply W, in_or_app; auto|].
        destruct (addAll_ok a' next w1 ts1 e1 ad2 es2 A2 (no_adds _ _ _ _ B1 S2) A3 A4 B5) as (v1 & us1 & h1 & C1 & C2 & C3 & C4).
        destruct (addAll_ok b' next w2 ts2 e2 ad1 es1 B2 (no_adds _ _ _ _ A1 S1) B3 B4 A5) as (v2 & us2 & h2 & D1 & D2 & D3 & D4).
        destruct (op_tokens c) as (os & O1 & O2). destruct (O2 v2 us2 D2) as [O3 O4].
        exists (TCalc (addAll a' ad2) c (addAll b' ad1)), (v1 ++ opString c ++ v2), (us1 ++ os ++ us2)%list, (SCalc h1 c h2). cbn [treeReplace]. rewrite A1. cbn [pybind]. rewrite B1. cbn [pybind]. split; [reflexivity|].
        cbn [toLine]. rewrite C1. cbn [pybind]. rewrite D1. split; [reflexivity|]. split; [apply lexK_app; [exact C2|exact O3|now right]|]. split; [apply f_up; [lia|]; now apply f_compare|].
        intros D D' bv nv nv' Ag. cbn [truth treeTruth]. rewrite C4, D4, (A6 D D' nv nv'), (B6 D D' nv nv'); [symmetry; apply compare_shift|..]; intros x Hx; apply Ag; cbn [treeWords]; apply in_or_app; auto.
    Qed.
  End VAL.
End LEX.

(** ** Lines *)

Definition chars (s : string) : list ascii := list_ascii_of_string s.
Lemma chars_app s t : chars (s ++ t) = (chars s ++ chars t)%list.
Proof. unfold chars. induction s as [|a s IH]; cbn; [reflexivity|]. now rewrite IH. Qed.
Lemma skipWs_chars c s : (In c (chars (skipWs s)) -> In c (chars s)) /\ (isspace c = false -> In c (chars s) -> In c (chars (skipWs s))).
Proof.
  induction s as [|a s [I1 I2]]; [auto|]. cbn [skipWs]. destruct (isspace a) eqn:E; [|auto]. split.
  - intros H. right. auto.
  - intros W [->|H]; [congruence|auto].
Qed.
Lemma trimRight_chars c s : (In c (chars (trimRight s)) -> In c (chars s)) /\ (isspace c = false -> In c (chars s) -> In c (chars (trimRight s))).
Proof.
  induction s as [|a s [I1 I2]]; [auto|]. cbn [trimRight]. destruct (isspace a && (trimRight s =? ""))%bool eqn:E.
  - apply andb_prop in E. destruct E as [E1 E2]. apply String.eqb_eq in E2. rewrite E2 in *. split; [intros []|]. intros W [->|H]; [congruence|auto].
  - split; (intros [->|H] || intros W [->|H]); (now left) || (right; auto).
Qed.
Lemma trim_chars c s : (In c (chars (trim s)) -> In c (chars s)) /\ (isspace c = false -> In c (chars s) -> In c (chars (trim s))).
Proof.
  unfold trim. destruct (skipWs_chars c s) as [A1 A2], (trimRight_chars c (skipWs s)) as [B1 B2]. auto.
Qed.
Lemma split_chars c d s : (forall w, In w (splitChar d s) -> In c (chars w) -> In c (chars s)) /\ (c <> d -> In c (chars s) -> exists w, In w (splitChar d s) /\ In c (chars w)).
Proof.
  induction s as [|a s [I1 I2]]; cbn [splitChar].
  - split; [intros w [<-|[]]; auto|intros _ []].
  - destruct (Ascii.eqb a d) eqn:E.
    + apply Ascii.eqb_eq in E. subst a. split.
      * intros w [<-|H] Hc; [destruct Hc|right; eauto].
      * intros N [->|H]; [congruence|]. destruct (I2 N H) as (w & W1 & W2). exists w. split; [now right|exact W2].
    + destruct (splitChar d s) as [|p ps] eqn:Es; [exfalso; revert Es; clear; destruct s as [|a s]; cbn; [discriminate|]; destruct (Ascii.eqb a d); [discriminate|]; destruct (splitChar d s) eqn:X; [|discriminate]|].
      { intros _. revert X. clear. induction s as [|a s IH]; cbn; [discriminate|]. destruct (Ascii.eqb a d); [discriminate|]. destruct (splitChar d s); [auto|discriminate]. }
      split.
      * intros w [<-|H] Hc; [destruct Hc as [->|Hc]; [now left|right; apply (I1 p); [now left|exact Hc]]|right; apply (I1 w); [now right|exact Hc]].
      * intros N [->|H]; [exists (String c p); split; [now left|now left]|]. destruct (I2 N H) as (w & [<-|W1] & W2); [exists (String a p); split; [now left|now right]|exists w; split; [now right|exact W2]].
Qed.

Lemma word_chars w c : isWordToken w = true -> In c (chars w) -> isWordChar c = true.
Proof.
  destruct w as [|a w]; [discriminate|]. cbn [isWordToken]. intros H. apply andb_prop in H. destruct H as [H1 H2]. intros [<-|H]; [unfold isWordChar; now rewrite H1|].
  revert H2 H. clear. induction w as [|a w IH]; [intros _ []|]. cbn [allChars]. intros H [<-|Hc]; apply andb_prop in H; [apply H|apply IH; [apply H|exact Hc]].
Qed.
Lemma digit_chars w c : allDigits w = true -> In c (chars w) -> isDigit c = true.
Proof. induction w as [|a w IH]; [intros _ []|]. cbn [allDigits]. intros H [<-|Hc]; apply andb_prop in H; [apply H|apply IH; [apply H|exact Hc]]. Qed.
Lemma lexes_char bools line ts c : lexes bools line ts -> isSpace c = false -> isWordChar c = false -> (In c (chars line) <-> In (sym (String c "")) ts).
Proof.
  intros H S W. assert (ND : isDigit c = false) by (unfold isWordChar in W; apply orb_false_iff in W; apply W).
  induction H as [|a s ts Ha H IH|w s t ts Hw He Ht H IH|w s ts Hw Hd He H IH|a s ts H1 H2 H3 H IH].
  - now split.
  - rewrite <- IH. split; [intros [->|X]; [congruence|exact X]|now right].
  - rewrite chars_app, in_app_iff. cbn [In]. rewrite <- IH. split.
    + intros [X|X]; [apply (word_chars _ _ Hw) in X; congruence|auto].
    + intros [X|X]; [|auto]. left. destruct Ht as [K|K B|K B]; [|discriminate X|discriminate X]. injection X as ->. now left.
  - rewrite chars_app, in_app_iff. cbn [In]. rewrite <- IH. split; [intros [X|X]; [apply (digit_chars _ _ Hd) in X; congruence|auto]|intros [X|X]; [discriminate X|auto]].
  - cbn [In chars list_ascii_of_string]. rewrite <- IH. split; (intros [X|X]; [left|auto]); [now rewrite X|injection X as X; exact X].
Qed.

(** Tokens of formulas that have been read. *)
Definition symIn (l : list string) (t : token) : Prop := snd t = "" -> ~ In (fst t) l.
Lemma number_syms l ts a : number l ts a -> Forall (symIn ["#"; "$"]) ts.
Proof.
  assert (H : forall t, existsb (String.eqb (fst t)) ["#"; "$"] = false -> symIn ["#"; "$"] t).
  { intros t E _ I. apply not_true_iff_false in E. apply E. apply existsb_exists. exists (fst t). split; [exact I|apply String.eqb_refl]. }
  induction 1; repeat (apply Forall_app; split); repeat constructor; auto; try (apply H; reflexivity); try (apply Forall_app; split; [assumption|]; constructor; [apply H; reflexivity|constructor]).
Qed.
Lemma syms_ok ks : Forall (fun k => ~ In k ["#"; "$"]) ks -> Forall (symIn ["#"; "$"]) (syms ks).
Proof. induction 1; constructor; auto. intros _. exact H. Qed.
Ltac listOK := repeat match goal with
  | H : In _ (_ :: _) |- _ => destruct H as [<-|H] | H : In _ [] |- _ => destruct H
  end; apply syms_ok; repeat constructor; cbn; intuition discriminate.
Lemma formula_syms l ts f : formula l ts f -> Forall (symIn ["#"; "$"]) ts.
Proof.
  assert (H : forall t, existsb (String.eqb (fst t)) ["#"; "$"] = false -> symIn ["#"; "$"] t).
  { intros t E _ I. apply not_true_iff_false in E. apply E. apply existsb_exists. exists (fst t). split; [exact I|apply String.eqb_refl]. }
  induction 1 as [| |x|ts f G IH|ts f G IH|ts os us a c b H1 H2 H3|os ts o f H1 H2 IH|l ts f Hl G IH|l os c ts us f g H1 H2 IH2 H3 IH3]; auto.
  all : try (constructor; [apply H; reflexivity|]; solve [constructor | apply Forall_app; split; [exact IH|]; constructor; [apply H; reflexivity|constructor]]).
  - repeat (apply Forall_app; split); [eapply number_syms; eauto| |eapply number_syms; eauto]. destruct H2; listOK.
  - apply Forall_app. split; [|exact IH]. destruct H1; listOK.
  - repeat (apply Forall_app; split); auto. destruct H1; listOK.
Qed.

(** Words. *)
Definition kindP (k : string) (P : string -> Prop) (t : token) : Prop := fst t = k -> P (snd t).
Lemma number_words P l ts a : number l ts a -> Forall (kindP "numID" P) ts -> forall x, In x (numWords a) -> P x.
Proof.
  induction 1; intros F; cbn [numWords]; rewrite ?Forall_app in F; try (inversion F; subst); auto; intros y Hy.
  - destruct Hy as [<-|[]]. match goal with X : kindP _ _ _ |- _ => now apply X end.
  - destruct Hy.
  - match goal with X : Forall _ (_ ++ _) |- _ => apply Forall_app in X; destruct X as [X _]; auto end.
  - destruct F as [F1 F2]. inversion F2; subst. apply in_app_or in Hy. destruct Hy; auto.
  - destruct F as [F1 F2]. inversion F2; subst. apply in_app_or in Hy. destruct Hy; auto.
  - destruct F as [F1 F2]. inversion F2; subst. apply in_app_or in Hy. destruct Hy; auto.
Qed.
Lemma formula_words P Q l ts f : formula l ts f -> Forall (kindP "numID" P) ts -> Forall (kindP "boolID" Q) ts ->
  (forall x, In x (integerWords f) -> P x) /\ forall x, In x (assigned f) -> Q x.
Proof.
  induction 1 as [| |x|ts f H IH|ts f H IH|ts os us a c b H1 H2 H3|os ts o f H1 H2 IH|l ts f Hl H IH|l os c ts us f g H1 H2 IH2 H3 IH3]; intros F F'; cbn [integerWords assigned]; auto;
    try (split; intros x []; fail).
  - split; [intros y []|]. intros y [<-|[]]. inversion F' as [|? ? F1 _]; subst. now apply F1.
  - inversion F as [|? ? _ F1]; subst. apply Forall_app in F1. inversion F' as [|? ? _ F2]; subst. apply Forall_app in F2. apply IH; [apply F1|apply F2].
  - inversion F as [|? ? _ F1]; subst. apply Forall_app in F1. inversion F' as [|? ? _ F2]; subst. apply Forall_app in F2. apply IH; [apply F1|apply F2].
  - apply Forall_app in F. destruct F as [F1 F2]. apply Forall_app in F2. destruct F2 as [_ F2]. split; [|intros x []]. intros x Hx. apply in_app_or in Hx. destruct Hx; [eapply (number_words P _ ts)|eapply (number_words P _ us)]; eauto.
  - apply Forall_app in F, F'. apply IH; [apply F|apply F'].
  - apply Forall_app in F, F'. destruct F as [F1 F2], F' as [F1' F2']. apply Forall_app in F2, F2'. destruct F2 as [_ F2], F2' as [_ F2']. destruct (IH2 F1 F1') as [A1 A2]. destruct (IH3 F2 F2') as [B1 B2].
    assert (G : (forall x, In x (integerWords f ++ integerWords g)%list -> P x) /\ forall x, In x (assigned f ++ assigned g)%list -> Q x) by (split; intros x Hx; apply in_app_or in Hx; destruct Hx; auto).
    inversion H1; subst; exact G.
Qed.
Lemma lexes_words bools line ts : lexes bools line ts ->
  Forall (kindP "numID" (fun x => isWordToken x = true /\ ~ In x keyWords)) ts /\ Forall (kindP "boolID" (fun x => isWordToken x = true /\ ~ In x keyWords)) ts.
Proof.
  induction 1 as [|a s ts Ha H IH|w s t ts Hw He Ht H IH|w s ts Hw Hd He H IH|a s ts H1 H2 H3 H IH]; auto; destruct IH as [I1 I2]; split; constructor; auto; unfold kindP; cbn [fst snd sym].
  - destruct Ht as [K|K B|K B]; cbn [fst snd sym]; auto; try discriminate. intros ->. exfalso. revert K. cbn. intuition discriminate.
  - destruct Ht as [K|K B|K B]; cbn [fst snd sym]; auto; try discriminate. intros ->. exfalso. revert K. cbn. intuition discriminate.
  - discriminate.
  - discriminate.
  - intros X. injection X as _ X. discriminate X.
  - intros X. injection X as _ X. discriminate X.
Qed.

Fixpoint compares (f : sfml) : bool :=
  match f with
  | SBiimp f g | SImp f g | SXor f g | SOr f g | SAnd f g | STemporal _ f g => compares f || compares g
  | SUnary _ f | SBrackets f => compares f
  | SFalse | STrue | SAssign _ => false
  | SCalc _ _ _ => true
  end.
Lemma formula_calc l ts f : formula l ts f -> compares f = true -> exists c, In c ["<"; ">"; "="]%char /\ In (sym (String c "")) ts.
Proof.
  induction 1 as [| |x|ts f G IH|ts f G IH|ts os us a c b H1 H2 H3|os ts o f H1 H2 IH|l ts f Hl G IH|l os c ts us f g H1 H2 IH2 H3 IH3]; cbn [compares]; intros C; try discriminate C; auto.
  - destruct (IH C) as (c & C1 & C2). exists c. split; [exact C1|]. right. apply in_or_app. now left.
  - destruct (IH C) as (c & C1 & C2). exists c. split; [exact C1|]. right. apply in_or_app. now left.
  - destruct H2; [exists ">"%char|exists ">"%char|exists "<"%char|exists "<"%char|exists "="%char|exists "="%char]; (split; [cbn; auto|]); apply in_or_app; right; cbn; auto.
  - destruct (IH C) as (c & C1 & C2). exists c. split; [exact C1|]. apply in_or_app. now right.
  - assert (CC : compares f = true \/ compares g = true) by (inversion H1; subst; cbn [compares] in C; now apply orb_prop in C).
    destruct CC as [CC|CC]; [destruct (IH2 CC) as (x & C1 & C2)|destruct (IH3 CC) as (x & C1 & C2)]; exists x; (split; [exact C1|]); apply in_or_app; [now left|right; apply in_or_app; now right].
Qed.
Definition boolOnly (l : list string) (t : token) : Prop := fst t <> "numID" /\ (fst t = "boolID" -> In (snd t) l).
Lemma boolOnly_mono l l' t : incl l l' -> boolOnly l t -> boolOnly l' t.
Proof. intros I [A B]. split; auto. Qed.
Lemma syms_bool l ks : Forall (fun k => ~ In k ["numID"; "boolID"]) ks -> Forall (boolOnly l) (syms ks).
Proof.
  induction 1 as [|k ks H F IH]; constructor; auto. split; cbn [fst snd sym].
  - intros ->. apply H. now left.
  - intros ->. exfalso. apply H. right. now left.
Qed.
Ltac listOK2 := repeat match goal with
  | H : In _ (_ :: _) |- _ => destruct H as [<-|H] | H : In _ [] |- _ => destruct H
  end; apply syms_bool; repeat constructor; cbn; intuition discriminate.
Lemma formula_nocalc l ts f : formula l ts f -> compares f = false -> Forall (boolOnly (assigned f)) ts.
Proof.
  assert (B : forall l k, negb (existsb (String.eqb k) ["numID"; "boolID"]) = true -> boolOnly l (sym k)).
  { intros l0 k E. apply negb_true_iff in E. split; cbn [fst snd sym]; intros ->; discriminate E. }
  induction 1 as [| |x|ts f G IH|ts f G IH|ts os us a c b H1 H2 H3|os ts o f H1 H2 IH|l ts f Hl G IH|l os c ts us f g H1 H2 IH2 H3 IH3]; cbn [compares assigned]; intros C; try discriminate C.
  - constructor; [|constructor]. now apply B.
  - constructor; [|constructor]. now apply B.
  - constructor; [|constructor]. split; [discriminate|]. cbn. auto.
  - constructor; [now apply B|]. apply Forall_app. split; [auto|]. constructor; [now apply B|constructor].
  - constructor; [now apply B|]. apply Forall_app. split; [auto|]. constructor; [now apply B|constructor].
  - apply Forall_app. split; [|auto]. destruct H1; listOK2.
  - auto.
  - assert (CC : compares f = false /\ compares g = false) by (inversion H1; subst; cbn [compares] in C; now apply orb_false_iff in C). destruct CC as [C1 C2].
    assert (A : assigned (c f g) = (assigned f ++ assigned g)%list) by (inversion H1; reflexivity). rewrite A.
    repeat (apply Forall_app; split).
    + eapply Forall_impl; [|apply IH2; exact C1]. intros t. apply boolOnly_mono. apply incl_appl, incl_refl.
    + destruct H1; listOK2.
    + eapply Forall_impl; [|apply IH3; exact C2]. intros t. apply boolOnly_mono. apply incl_appr, incl_refl.
Qed.
Lemma lexes_bools bools bools' line ts : lexes bools line ts -> Forall (boolOnly bools') ts -> lexes bools' line ts.
Proof.
  induction 1 as [|a s ts Ha H IH|w s t ts Hw He Ht H IH|w s ts Hw Hd He H IH|a s ts H1 H2 H3 H IH]; intros F.
  - constructor.
  - apply lex_space; auto.
  - inversion F as [|? ? [F1 F2] F']; subst. apply lex_word; auto. destruct Ht as [K|K B|K B]; [now apply wt_key|apply wt_bool; [exact K|now apply F2]|destruct F1; reflexivity].
  - inversion F; subst. apply lex_number; auto.
  - inversion F; subst. apply lex_symbol; auto.
Qed.
Lemma truth_nocalc D D' bv nv nv' f : compares f = false -> forall next, truth D bv nv next f = truth D' bv nv' next f.
Proof.
  induction f as [f IHf g IHg|f IHf g IHg|f IHf g IHg|f IHf g IHg|f IHf g IHg|wk f IHf g IHg|o f IHf| | |f IHf|x|a c b]; cbn [compares]; intros C next; cbn [truth]; try discriminate C; auto;
    try (apply orb_false_iff in C; destruct C as [C1 C2]; now rewrite (IHf C1), (IHg C2)).
  destruct o; auto. now rewrite (IHf C).
Qed.

(** ** The word that only compiler.py knows *)
(** There is no operator LEASTSIGNIFICANTBITOVERWRITES. *)
Fixpoint numNoOverwrite (a : num) : Prop :=
  match a with
  | NumID _ | Numeral _ => True
  | Add a b | Mul a b => numNoOverwrite a /\ numNoOverwrite b
  | NumBrackets a => numNoOverwrite a
  | Overwrite _ _ => False
  end.
Fixpoint noOverwrite (f : sfml) : Prop :=
  match f with
  | SBiimp f g | SImp f g | SXor f g | SOr f g | SAnd f g | STemporal _ f g => noOverwrite f /\ noOverwrite g
  | SUnary _ f | SBrackets f => noOverwrite f
  | SFalse | STrue | SAssign _ => True
  | SCalc a _ b => numNoOverwrite a /\ numNoOverwrite b
  end.
Definition long : string := "LEASTSIGNIFICANTBITOVERWRITES".
Definition notLong (t : token) : Prop := fst t <> long.
Lemma number_long l ts a : number l ts a -> numNoOverwrite a -> Forall notLong ts.
Proof.
  induction 1; cbn [numNoOverwrite]; intros N; repeat (apply Forall_app; split); repeat constructor; auto; try discriminate; try (now destruct N).
  - apply Forall_app. split; [auto|]. constructor; [discriminate|constructor].
  - apply IHnumber1, N.
  - apply IHnumber2, N.
  - apply IHnumber1, N.
  - apply IHnumber2, N.
Qed.
Lemma syms_long ks : Forall (fun k => k <> long) ks -> Forall notLong (syms ks).
Proof. induction 1; constructor; auto. Qed.
Ltac listOK3 := repeat match goal with
  | H : In _ (_ :: _) |- _ => destruct H as [<-|H] | H : In _ [] |- _ => destruct H
  end; apply syms_long; repeat constructor; discriminate.
Lemma formula_long l ts f : formula l ts f -> noOverwrite f -> Forall notLong ts.
Proof.
  induction 1 as [| |x|ts f G IH|ts f G IH|ts os us a c b H1 H2 H3|os ts o f H1 H2 IH|l ts f Hl G IH|l os c ts us f g H1 H2 IH2 H3 IH3]; cbn [noOverwrite]; intros C.
  1-3 : constructor; [discriminate|constructor].
  1-2 : constructor; [discriminate|]; apply Forall_app; split; [auto|]; constructor; [discriminate|constructor].
  - destruct C as [C1 C2]. repeat (apply Forall_app; split); [eapply number_long; eauto| |eapply number_long; eauto]. destruct H2; listOK3.
  - apply Forall_app. split; [|auto]. destruct H1; listOK3.
  - auto.
  - assert (CC : noOverwrite f /\ noOverwrite g) by (inversion H1; subst; exact C). destruct CC as [C1 C2]. repeat (apply Forall_app; split); auto. destruct H1; listOK3.
Qed.
Lemma parse_same bools line f : reads bools line f -> noOverwrite f -> parseLine bools line = Some f.
Proof.
  intros R N. pose proof (proj2 (parseLTL_spec bools line f) R) as P. destruct R as (ts & L & F). pose proof (lexes_tokenize _ _ _ L) as E. pose proof (formula_long _ _ _ F N) as NL.
  unfold parseLine, parseLTL in *. rewrite <- E in *. replace (map (plainToken bools) ts) with ts; [exact P|]. clear - NL. induction NL as [|t ts H NL IH]; [reflexivity|]. cbn [map]. rewrite <- IH. f_equal.
  unfold plainToken. apply String.eqb_neq in H. unfold long in H. now rewrite H.
Qed.
Lemma sum_long next a : sumOnly next a -> numNoOverwrite a.
Proof. induction a; cbn; intros H; auto; try (destruct H; split; auto); try destruct H. Qed.
Lemma substitutable_long f : forall next, substitutable next f -> noOverwrite f.
Proof.
  induction f as [f IHf g IHg|f IHf g IHg|f IHf g IHg|f IHf g IHg|f IHf g IHg|wk f IHf g IHg|o f IHf| | |f IHf|x|a c b]; intros next; cbn [substitutable noOverwrite]; try tauto; try (intros [H1 H2]; split; eauto; fail); eauto.
  - destruct o; try tauto; eauto. intros [_ H]. eauto.
  - intros [H1 H2]. split; eapply sum_long; eauto.
Qed.

(** ** The copied lines *)
Lemma step_none bools w : (exists c, In c ["<"; ">"; "="]%char /\ In c (chars w)) -> (forall b, In b bools -> isWordToken b = true \/ exists r, b = String "#" r) -> ~ In "#"%char (chars w) ->
  forall n, slugsStep bools w n = None.
Proof.
  intros (c & Cc & Cw) HB NH n. destruct n as [n|]; [|reflexivity]. cbn [slugsStep].
  assert (NC : forall l, Forall (fun x => ~ In c (chars x)) l -> forall v, In c (chars v) -> existsb (String.eqb v) l = false).
  { intros l F v Hv. apply not_true_iff_false. intros X. apply existsb_exists in X. destruct X as (y & Y1 & Y2). apply String.eqb_eq in Y2. subst y. rewrite Forall_forall in F. now apply (F v). }
  assert (K : forall l, forallb (fun x => forallb (fun c => negb (existsb (Ascii.eqb c) (chars x))) ["<"; ">"; "="]%char) l = true -> Forall (fun x => ~ In c (chars x)) l).
  { intros l H. apply Forall_forall. intros x Hx Hc. rewrite forallb_forall in H. specialize (H x Hx). rewrite forallb_forall in H. specialize (H c Cc). apply negb_true_iff in H. apply not_true_iff_false in H. apply H.
    apply existsb_exists. exists c. split; [exact Hc|apply Ascii.eqb_refl]. }
  rewrite (NC ["|"; "&"; "^"]) by (try (apply K; reflexivity); exact Cw).
  replace (w =? "!") with false by (symmetry; apply String.eqb_neq; intros ->; destruct Cw as [<-|[]]; cbn in Cc; intuition discriminate).
  rewrite (NC ["1"; "0"]) by (try (apply K; reflexivity); exact Cw). cbn zeta.
  set (v := if lastIsPrime w then withoutLast w else w). assert (Cv : In c (chars v) /\ ~ In "#"%char (chars v)).
  { unfold v. destruct (lastIsPrime w) eqn:LP; [|auto]. pose proof (unprime_last w LP) as E. split.
    - rewrite E, chars_app in Cw. apply in_app_or in Cw. destruct Cw as [X|[<-|[]]]; [exact X|]. cbn in Cc. intuition discriminate.
    - intros X. apply NH. rewrite E, chars_app. apply in_or_app. now left. }
  replace (existsb (String.eqb v) bools) with false.
  - rewrite (NC ["0"; "1"]) by (try (apply K; reflexivity); apply Cv). reflexivity.
  - symmetry. apply not_true_iff_false. intros X. apply existsb_exists in X. destruct X as (b & Hb & Y). apply String.eqb_eq in Y. subst b. destruct Cv as [Cv1 Cv2].
    destruct (HB v Hb) as [T|(r & E)]; [|apply Cv2; rewrite E; now left]. apply (word_chars _ _ T) in Cv1. cbn in Cc. repeat (destruct Cc as [<-|Cc]; [discriminate Cv1|]). destruct Cc.
Qed.
Lemma fold_none bools l w : In w l -> (forall n, slugsStep bools w n = None) -> fold_right (slugsStep bools) (Some 0%nat) l = None.
Proof. induction l as [|v l IH]; [intros []|]. cbn [fold_right]. intros [<-|H] E; [apply E|rewrite IH by assumption; reflexivity]. Qed.
Lemma firstIs_in c s : firstIs c s = true -> In c (chars s).
Proof. destruct s as [|a s]; [discriminate|]. cbn. intros H. apply Ascii.eqb_eq in H. now left. Qed.
Lemma comparison_kept bools line c : (forall b, In b bools -> isWordToken b = true \/ exists r, b = String "#" r) -> In c ["<"; ">"; "="]%char -> In c (chars line) ->
  ~ In "#"%char (chars line) -> ~ In "$"%char (chars line) -> isValidRecursiveSlugsProperty bools (splitChar " " (trim line)) = false.
Proof.
  intros HB C1 C2 N1 N2. assert (PC : isspace c = false /\ c <> " "%char).
  { cbn in C1. repeat (destruct C1 as [<-|C1]; [repeat split; discriminate|]). destruct C1. }
  destruct PC as (P3 & P4). apply (trim_chars c line) in C2; [|exact P3].
  destruct (proj2 (split_chars c " " (trim line)) P4 C2) as (w & W1 & W2). unfold isValidRecursiveSlugsProperty.
  assert (WN : forall d v, In v (splitChar " " (trim line)) -> In d (chars v) -> In d (chars line)) by (intros d v V1 V2; apply (trim_chars d line); eapply (proj1 (split_chars d " " (trim line))); eassumption).
  destruct (existsb (String.eqb "$") _) eqn:ED.
  - exfalso. apply existsb_exists in ED. destruct ED as (y & Y1 & Y2). apply String.eqb_eq in Y2. subst y. apply filter_In in Y1. apply N2. apply (WN _ "$"); [apply Y1|now left].
  - rewrite (fold_none bools _ w); [reflexivity| |].
    + apply filter_In. split; [exact W1|]. destruct w; [destruct W2|reflexivity].
    + apply step_none; [exists c; auto|exact HB|]. intros X. apply N1. eapply WN; eassumption.
Qed.
Lemma not_copied bools line f : reads bools line f -> (forall b, In b bools -> isWordToken b = true \/ exists r, b = String "#" r) -> 
  firstIs "#" (trim line) = false /\ (compares f = true -> isValidRecursiveSlugsProperty bools (splitChar " " (trim line)) = false).
Proof.
  intros (ts & L & F) HB. pose proof (formula_syms _ _ _ F) as FS. rewrite Forall_forall in FS.
  assert (N1 : ~ In "#"%char (chars line)) by (intros X; apply (lexes_char _ _ _ _ L) in X; [|reflexivity..]; apply (FS _ X); [reflexivity|now left]).
  assert (N2 : ~ In "$"%char (chars line)) by (intros X; apply (lexes_char _ _ _ _ L) in X; [|reflexivity..]; apply (FS _ X); [reflexivity|right; now left]).
  split.
  - apply not_true_iff_false. intros X. apply N1. apply (trim_chars _ line). now apply firstIs_in.
  - intros C. destruct (formula_calc _ _ _ F C) as (c & C1 & C2). assert (PC : isSpace c = false /\ isWordChar c = false).
    { cbn in C1. repeat (destruct C1 as [<-|C1]; [split; reflexivity|]). destruct C1. }
    destruct PC as (P1 & P2). apply (lexes_char _ _ _ _ L P1 P2) in C2. eapply comparison_kept; eassumption.
Qed.

(** ** Flattened formulas *)
Section FLAT.
  Variables (bs : list string) (repl : string -> option (string * string)) (expr : string -> num * option num).
  Local Notation treeOK := (treeOK bs repl expr).
  Definition allOK next (fs : list tree) : Prop := fold_right (fun f P => treeOK next f /\ P) True fs.
  Lemma allOK_app next l l' : allOK next l -> allOK next l' -> allOK next (l ++ l').
  Proof. intros H H'. induction l as [|t l IH]; [exact H'|]. cbn in *. split; [apply H|apply IH, H]. Qed.
  Lemma ands_ok next t : treeOK next (flatten t) -> match flatten t with TAnd gs => gs | g => [g] end <> [] /\ allOK next match flatten t with TAnd gs => gs | g => [g] end.
  Proof. intros H. destruct (flatten t); try (split; [discriminate|split; [exact H|exact I]]). exact H. Qed.
  Lemma ors_ok next t : treeOK next (flatten t) -> match flatten t with TOr gs => gs | g => [g] end <> [] /\ allOK next match flatten t with TOr gs => gs | g => [g] end.
  Proof. intros H. destruct (flatten t); try (split; [discriminate|split; [exact H|exact I]]). exact H. Qed.
  Lemma app_ne {A} (l l' : list A) : l <> [] -> (l ++ l')%list <> [].
  Proof. destruct l; [congruence|discriminate]. Qed.
  Lemma noQuote_in x : ~ In quoteChar (list_ascii_of_string x) -> noQuote x = true.
  Proof.
    unfold noQuote. induction x as [|a x IH]; [reflexivity|]. cbn [allChars list_ascii_of_string]. intros H. rewrite IH by (intros X; apply H; now right). rewrite andb_true_r. apply negb_true_iff. apply Ascii.eqb_neq. intros ->. apply H. now left.
  Qed.
  Lemma token_quote x : isWordToken x = true -> isWordToken (x ++ "'") = true.
  Proof.
    destruct x as [|a x]; [discriminate|]. cbn [isWordToken append]. intros H. apply andb_prop in H. destruct H as [H1 H2]. rewrite H1. cbn [andb]. clear H1. induction x as [|b x IH]; [reflexivity|]. cbn [allChars append] in *. apply andb_prop in H2. destruct H2 as [A B]. now rewrite A, IH.
  Qed.
  Lemma quote_key x : ~ In (x ++ "'") keyWords.
  Proof.
    intros H. assert (Q : In "'"%char (chars (x ++ "'"))) by (rewrite chars_app; apply in_or_app; right; now left).
    cbn in H. repeat (destruct H as [H|H]; [rewrite <- H in Q; revert Q; cbn; intuition discriminate|]). exact H.
  Qed.
  Lemma flat_ok f : forall next, substitutable next f -> tokens f = true -> (forall x, In x (assigned f) -> ~ In x keyWords) -> (forall w, In w (boolWords next f) -> In w bs) -> wordsOK bs repl expr (integerWords f) ->
    treeOK next (flatten (clean f)).
  Proof.
    induction f as [f IHf g IHg|f IHf g IHg|f IHf g IHg|f IHf g IHg|f IHf g IHg|wk f IHf g IHg|o f IHf| | |f IHf|x|a c b]; intros next; cbn [substitutable tokens assigned boolWords integerWords clean flatten]; intros S T K B W; try (exfalso; exact S); auto;
      try (apply andb_prop in T; destruct T as [T1 T2]; destruct S as [S1 S2];
        assert (X : treeOK next (flatten (clean f))) by (apply IHf; auto; [intros x Hx; apply K|intros x Hx; apply B|intros x Hx; apply W]; apply in_or_app; auto);
        assert (Y : treeOK next (flatten (clean g))) by (apply IHg; auto; [intros x Hx; apply K|intros x Hx; apply B|intros x Hx; apply W]; apply in_or_app; auto)).
    - split; assumption.
    - split; assumption.
    - cbn [flat_map]. rewrite app_nil_r. destruct (ors_ok _ _ X) as [X1 X2], (ors_ok _ _ Y) as [Y1 Y2]. split; [apply app_ne; exact X1|apply allOK_app; [exact X2|exact Y2]].
    - cbn [flat_map]. rewrite app_nil_r. destruct (ands_ok _ _ X) as [X1 X2], (ands_ok _ _ Y) as [Y1 Y2]. split; [apply app_ne; exact X1|apply allOK_app; [exact X2|exact Y2]].
    - destruct o; try (exfalso; exact S); cbn [SubstProofs.treeOK]; [now apply IHf|]. destruct S as [-> S]. split; [reflexivity|]. now apply IHf.
    - cbn [SubstProofs.treeOK]. split; [intros N; apply noQuote_in, S, N|]. pose proof (B (prime next x) ltac:(right; now left)) as B1. pose proof (K x ltac:(now left)) as K1.
      destruct next; cbn [prime] in *; repeat split; auto using token_quote, quote_key.
    - apply andb_prop in T. split; [exact T|]. split; [exact S|exact W].
  Qed.
  Lemma flat_words f : incl (treeWords (flatten (clean f))) (integerWords f).
  Proof.
    assert (P1 : forall t, flat_map treeWords (match flatten t with TAnd gs => gs | g => [g] end) = treeWords (flatten t)) by (intros t; destruct (flatten t); cbn [flat_map treeWords]; rewrite ?app_nil_r; reflexivity).
    assert (P2 : forall t, flat_map treeWords (match flatten t with TOr gs => gs | g => [g] end) = treeWords (flatten t)) by (intros t; destruct (flatten t); cbn [flat_map treeWords]; rewrite ?app_nil_r; reflexivity).
    assert (P3 : forall t, flat_map treeWords (match flatten t with TXor gs => gs | g => [g] end) = treeWords (flatten t)) by (intros t; destruct (flatten t); cbn [flat_map treeWords]; rewrite ?app_nil_r; reflexivity).
    induction f as [f IHf g IHg|f IHf g IHg|f IHf g IHg|f IHf g IHg|f IHf g IHg|wk f IHf g IHg|o f IHf| | |f IHf|x|a c b]; cbn [clean flatten treeWords integerWords flat_map]; rewrite ?app_nil_r, ?flat_map_app, ?P1, ?P2, ?P3;
      try (apply incl_app; [now apply incl_appl|now apply incl_appr]); auto using incl_refl; try (intros x []).
  Qed.
End FLAT.

Lemma assigned_words f : forall next x, In x (assigned f) -> In x (boolWords next f).
Proof.
  induction f as [f IHf g IHg|f IHf g IHg|f IHf g IHg|f IHf g IHg|f IHf g IHg|wk f IHf g IHg|o f IHf| | |f IHf|x|a c b]; intros next y; cbn [assigned boolWords]; auto;
    try (intros H; apply in_app_or in H; apply in_or_app; destruct H; auto; fail).
  - destruct o; auto.
  - intros [<-|[]]. now left.
Qed.

(** ** The whole line *)
Theorem substitute_line bools bools' repl (plus minus : string -> num) line f :
  reads bools line f -> substitutable false f ->
  (forall b, In b bools -> isWordToken b = true \/ exists r, b = String "#" r) ->
  (forall w, In w (boolWords false f) -> In w bools') ->
  (forall x, In x (integerWords f) -> match repl x with
     | Some (p, m) => readsNumber bools' p (plus x) /\ readsNumber bools' m (minus x)
     | None => ~ In x bools'
     end) ->
  exists out f', substituteLine bools repl line = Ret out /\ reads bools' out f' /\
    forall D D' bv nv nv',
      (forall x, In x (integerWords f) -> wordValue nv x = match repl x with
         | Some _ => numValue D' nv' false (plus x) - numValue D' nv' false (minus x)
         | None => wordValue nv' x
         end)%Z ->
      truth D' bv nv' false f' = truth D bv nv false f.
Proof.
  intros R S HB HW HI. destruct (not_copied bools line f R HB) as [C1 C2]. pose proof (reads_tokens _ _ _ R) as [T _]. pose proof (parse_same bools line f R (substitutable_long f false S)) as P.
  assert (R0 := R). destruct R0 as (ts & L & F). destruct (lexes_words _ _ _ L) as [W1 W2]. destruct (formula_words _ _ _ _ _ F W1 W2) as [V1 V2].
  unfold substituteLine. rewrite C1. destruct (isValidRecursiveSlugsProperty _ _) eqn:E.
  - exists line, f. destruct (compares f) eqn:CF; [discriminate (C2 eq_refl)|]. split; [reflexivity|]. split; [|intros; symmetry; now apply truth_nocalc].
    exists ts. split; [|exact F]. apply (lexes_bools bools); [exact L|]. eapply Forall_impl; [|apply (formula_nocalc _ _ _ F CF)]. intros t. apply boolOnly_mono. intros x Hx. apply HW. now apply assigned_words.
  - rewrite P. set (expr := fun x => match repl x with Some _ => (plus x, Some (minus x)) | None => (NumID x, None) end).
    assert (WO : wordsOK bools' repl expr (integerWords f)).
    { intros x Hx. specialize (HI x Hx). destruct (V1 x Hx) as [X1 X2]. unfold expr. destruct (repl x) as [[p m]|] eqn:Er; cbn [fst snd]; [destruct HI; eapply cr_yes; eauto|now apply cr_no]. }
    destruct (tree_ok bools' repl expr (flatten (clean f)) false) as (t' & out & us & g & A1 & A2 & A3 & A4 & A5).
    { apply flat_ok; auto. intros x Hx. now apply V2. }
    exists out, g. rewrite A1. cbn [pybind]. split; [exact A2|]. split.
    + exists us. split; [now apply lexK_end|]. eapply formula_up; [exact A4|lia|lia].
    + intros D D' bv nv nv' Ag. rewrite (A5 D D' bv nv nv'), flatten_truth, clean_truth; [reflexivity|]. intros x Hx. apply (flat_words f) in Hx. rewrite (Ag x Hx). unfold expr. destruct (repl x) as [[p m]|]; cbn [fst snd]; [reflexivity|].
      cbn [numValue]. unfold wordValue. destruct (unprime x). rewrite orb_false_r. lia.
Qed.

(** ** Stopping *)
Section STOP.
  Variable repl : string -> option (string * string).
  Definition done next t : Prop := exists t' out, treeReplace repl t = Ret t' /\ toLine next t' = Ret out.
  Lemma done_list next fs fs' outs : pyMap (treeReplace repl) fs = Ret fs' -> pyMap (toLine next) fs' = Ret outs -> Forall (done next) fs.
  Proof.
    revert fs' outs. induction fs as [|f fs IH]; intros fs' outs E1 E2; constructor; cbn in E1; fold (pyMap (treeReplace repl)) in E1; destruct (treeReplace repl f) as [t'| |] eqn:Ef; try discriminate E1; cbn [pybind] in E1;
      destruct (pyMap (treeReplace repl) fs) as [gs| |] eqn:Eg; try discriminate E1; injection E1 as <-; cbn in E2; fold (pyMap (toLine next)) in E2; destruct (toLine next t') as [o| |] eqn:Eo; try discriminate E2; cbn [pybind] in E2;
      destruct (pyMap (toLine next) gs) as [os| |] eqn:Es; try discriminate E2.
    - exists t', o. auto.
    - eapply IH; eauto.
  Qed.
  Lemma list_done next fs : Forall (done next) fs -> exists fs' outs, pyMap (treeReplace repl) fs = Ret fs' /\ pyMap (toLine next) fs' = Ret outs.
  Proof.
    induction 1 as [|f fs (t' & o & A1 & A2) H (fs' & outs & B1 & B2)]; [exists [], []; auto|]. exists (t' :: fs'), (o :: outs). cbn. fold (pyMap (treeReplace repl)). fold (pyMap (toLine next)). rewrite A1. cbn [pybind]. rewrite B1. cbn [pybind]. split; [reflexivity|].
    rewrite A2. cbn [pybind]. now rewrite B2.
  Qed.
  Lemma expr_sum next a : forall a' adds l w, treeReplaceExpression repl a = Ret (a', adds) -> numLine next (addAll a' l) = Ret w -> sumOnly next a.
  Proof.
    assert (ST : forall a' l w, numLine next (addAll a' l) = Ret w -> exists w', numLine next a' = Ret w').
    { intros a' l w E. destruct l as [|y l]; [eauto|]. unfold addAll in E. cbn [numLine] in E. destruct (numLine next a'); [eauto|discriminate E|discriminate E]. }
    assert (G : forall a' adds w, treeReplaceExpression repl a = Ret (a', adds) -> numLine next a' = Ret w -> sumOnly next a).
    { induction a as [x|n|a IHa b IHb|a IHa b IHb|a IHa|a IHa b IHb]; cbn [treeReplaceExpression sumOnly]; intros a' adds w E E'; try discriminate E; auto.
      - destruct next; [|reflexivity]. destruct (repl x) as [[p m]|]; injection E as <- _; discriminate E'.
      - destruct (treeReplaceExpression repl a) as [[a1 r1]| |]; try discriminate E. cbn [pybind] in E.
        destruct (treeReplaceExpression repl b) as [[b1 r2]| |]; try discriminate E. cbn [pybind] in E. injection E as <- _. cbn [numLine] in E'.
        destruct (numLine next a1) as [v1| |] eqn:E1; try discriminate E'. cbn [pybind] in E'. destruct (numLine next b1) as [v2| |] eqn:E2; try discriminate E'. split; eauto. }
    intros a' adds l w E E'. destruct (ST _ _ _ E') as (w' & E2). eauto.
  Qed.
  Lemma done_sub f : forall next, done next (flatten (clean f)) -> substitutable next f.
  Proof.
    assert (PA : forall next t, Forall (done next) (match flatten t with TAnd gs => gs | g => [g] end) -> done next (flatten t)).
    { intros next t H. destruct (flatten t); try (inversion H; subst; assumption). destruct (list_done next _ H) as (fs' & outs & B1 & B2). exists (TAnd fs'). eexists. cbn [treeReplace]. rewrite B1. cbn [pybind]. split; [reflexivity|]. cbn [toLine]. rewrite B2. reflexivity. }
    assert (PO : forall next t, Forall (done next) (match flatten t with TOr gs => gs | g => [g] end) -> done next (flatten t)).
    { intros next t H. destruct (flatten t); try (inversion H; subst; assumption). destruct (list_done next _ H) as (fs' & outs & B1 & B2). exists (TOr fs'). eexists. cbn [treeReplace]. rewrite B1. cbn [pybind]. split; [reflexivity|]. cbn [toLine]. rewrite B2. reflexivity. }
    induction f as [f IHf g IHg|f IHf g IHg|f IHf g IHg|f IHf g IHg|f IHf g IHg|wk f IHf g IHg|o f IHf| | |f IHf|x|a c b]; intros next (t' & out & E1 & E2); cbn [clean flatten treeReplace] in E1; cbn [substitutable]; auto.
    1-2 : destruct (treeReplace repl (flatten (clean f))) as [f'| |] eqn:Ef; try discriminate E1; cbn [pybind] in E1; destruct (treeReplace repl (flatten (clean g))) as [g'| |] eqn:Eg; try discriminate E1; cbn [pybind] in E1; injection E1 as <-; cbn [toLine] in E2;
      destruct (toLine next f') as [o1| |] eqn:O1; try discriminate E2; cbn [pybind] in E2; destruct (toLine next g') as [o2| |] eqn:O2; try discriminate E2; split; [apply IHf; exists f', o1; auto|apply IHg; exists g', o2; auto].
    - destruct (pyMap (treeReplace repl) _) as [fs'| |]; try discriminate E1. injection E1 as <-. discriminate E2.
    - destruct (pyMap (treeReplace repl) _) as [fs'| |] eqn:Em; try discriminate E1. cbn [pybind] in E1. injection E1 as <-. cbn [toLine] in E2. destruct (pyMap (toLine next) fs') as [outs| |] eqn:Eo; try discriminate E2.
      pose proof (done_list next _ _ _ Em Eo) as FD. cbn [flat_map] in FD. rewrite app_nil_r in FD. apply Forall_app in FD. destruct FD as [D1 D2]. split; [apply IHf, PO, D1|apply IHg, PO, D2].
    - destruct (pyMap (treeReplace repl) _) as [fs'| |] eqn:Em; try discriminate E1. cbn [pybind] in E1. injection E1 as <-. cbn [toLine] in E2. destruct (pyMap (toLine next) fs') as [outs| |] eqn:Eo; try discriminate E2.
      pose proof (done_list next _ _ _ Em Eo) as FD. cbn [flat_map] in FD. rewrite app_nil_r in FD. apply Forall_app in FD. destruct FD as [D1 D2]. split; [apply IHf, PA, D1|apply IHg, PA, D2].
    - injection E1 as <-. discriminate E2.
    - destruct (treeReplace repl (flatten (clean f))) as [f'| |] eqn:Ef; try discriminate E1. cbn [pybind] in E1. injection E1 as <-. destruct o; cbn [toLine] in E2; try discriminate E2.
      + destruct (toLine next f') as [o1| |] eqn:O1; try discriminate E2. apply IHf. exists f', o1. auto.
      + destruct next; [discriminate E2|]. split; [reflexivity|]. apply IHf. exists f', out. auto.
    - apply IHf. exists t', out. auto.
    - injection E1 as <-. intros ->. cbn [toLine] in E2. destruct (existsb _ _) eqn:X; [discriminate E2|]. intros Hq. apply not_true_iff_false in X. apply X. apply existsb_exists. exists quoteChar. split; [exact Hq|reflexivity].
    - destruct (treeReplaceExpression repl a) as [[a' ad1]| |] eqn:Ea; try discriminate E1. cbn [pybind] in E1. destruct (treeReplaceExpression repl b) as [[b' ad2]| |] eqn:Eb; try discriminate E1. cbn [pybind] in E1. injection E1 as <-. cbn [toLine] in E2.
      destruct (numLine next (addAll a' ad2)) as [w1| |] eqn:N1; try discriminate E2. cbn [pybind] in E2. destruct (numLine next (addAll b' ad1)) as [w2| |] eqn:N2; try discriminate E2. split; eapply expr_sum; eauto.
  Qed.
End STOP.
Lemma lexes_long bools line ts : lexes bools line ts -> (forall pre post, line <> pre ++ long ++ post) -> Forall notLong ts.
Proof.
  induction 1 as [|a s ts Ha H IH|w s t ts Hw He Ht H IH|w s ts Hw Hd He H IH|a s ts H1 H2 H3 H IH]; intros N.
  - constructor.
  - apply IH. intros pre post ->. now apply (N (String a pre) post).
  - constructor; [|apply IH; intros pre post ->; apply (N (w ++ pre) post); now rewrite sapp_assoc]. destruct Ht as [K|K B|K B]; unfold notLong; cbn [fst sym]; try discriminate. intros ->. now apply (N "" s).
  - constructor; [discriminate|]. apply IH. intros pre post ->. apply (N (w ++ pre) post). now rewrite sapp_assoc.
  - constructor; [unfold notLong, long; cbn [fst sym]; intros X; injection X as _ X; discriminate X|]. apply IH. intros pre post ->. now apply (N (String a pre) post).
Qed.
Lemma parse_long bools line : (forall pre post, line <> pre ++ long ++ post) -> parseLine bools line = parseLTL bools line.
Proof.
  intros N. pose proof (lexes_long _ _ _ (tokenize_lexes bools line) N) as NL. unfold parseLine, parseLTL. replace (map _ _) with (tokenize bools line); [reflexivity|].
  clear - NL. induction NL as [|t ts H NL IH]; [reflexivity|]. cbn [map]. rewrite <- IH. f_equal. unfold plainToken. apply String.eqb_neq in H. unfold long in H. now rewrite H.
Qed.
Lemma substitute_parsed bools repl line out : (forall pre post, line <> pre ++ long ++ post) ->
  match parseLine bools line with Some f => pybind (treeReplace repl (flatten (clean f))) (toLine false) | None => Raise end = Ret out -> exists f, reads bools line f /\ substitutable false f.
Proof.
  intros N E. rewrite parse_long in E by exact N. destruct (parseLTL bools line) as [f|] eqn:P; [|discriminate E]. exists f. split; [now apply parseLTL_spec|]. apply (done_sub repl).
  destruct (treeReplace repl _) as [t| |] eqn:Et; try discriminate E. exists t, out. split; [exact Et|exact E].
Qed.
Theorem substitute_changed bools repl line out : (forall pre post, line <> pre ++ long ++ post) -> substituteLine bools repl line = Ret out -> out = line \/ exists f, reads bools line f /\ substitutable false f.
Proof.
  intros N E. unfold substituteLine in E. destruct (firstIs _ _); [injection E as <-; now left|]. destruct (isValidRecursiveSlugsProperty _ _); [injection E as <-; now left|]. right. eapply substitute_parsed; eassumption.
Qed.
Theorem substitute_only bools repl line out c : (forall pre post, line <> pre ++ long ++ post) -> (forall b, In b bools -> isWordToken b = true \/ exists r, b = String "#" r) ->
  In c ["<"; ">"; "="]%char -> In c (chars line) -> ~ In "#"%char (chars line) -> ~ In "$"%char (chars line) ->
  substituteLine bools repl line = Ret out -> exists f, reads bools line f /\ substitutable false f.
Proof.
  intros N HB C1 C2 N1 N2 E. unfold substituteLine in E. rewrite (comparison_kept bools line c HB C1 C2 N1 N2) in E. destruct (firstIs _ _) eqn:FI; [exfalso; apply N1; apply (trim_chars _ line); now apply firstIs_in|]. eapply substitute_parsed; eassumption.
Qed.
Theorem substitute_copied bools repl line : (exists r, strip line = String "#" r) \/
  (exists var bound loose f, gram var bound loose 0 f (words line) /\ blanksOnly (strip line) /\ forall w i, In w (words line) -> var w i -> In (fst (unprime w)) bools) -> substituteLine bools repl line = Ret line.
Proof.
  intros H. unfold substituteLine. rewrite FileProofs.trim_spec. destruct H as [(r & ->)|(var & bound & loose & f & G & B & V)]; [reflexivity|]. destruct (firstIs "#" (strip line)); [reflexivity|].
  rewrite <- isValid_filter, words_split by exact B. rewrite EstimatorText.words_strip. rewrite (C52_copied var bound loose f (words line) bools G); [reflexivity|exact V|apply StructConvProofs.words_nonempty].
Qed.
