(** * Proofs: the files that the translators for RATSY and LTLMop print *)

From Coq Require Import String Ascii List Bool Arith NArith ZArith Lia.
From Verif Require Import Synth FormulaSpec Parser Spec FileSpec Execute ParserProofs FileProofs OutputProofs Explicit SymbolicProofs EstimatorText StructuredProofs FastSlowFile MonoProofs
  AigMain StructLineProofs Structured StructFile StructFileProofs StructDeclProofs StructMain StuckProofs ResilientProofs MixedText MixedProofs PropsParser
  LtlSpec Ltl LtlTreeProofs LtlProofs.
Import ListNotations.
Local Open Scope string_scope.

(** ** Variables *)
Lemma position_in y names : In y names -> position y names < length names /\ nth_error names (position y names) = Some y.
Proof.
  induction names as [|z names IH]; [intros []|]. intros H. cbn [position]. destruct (String.eqb z y) eqn:E.
  - apply String.eqb_eq in E. subst. cbn. split; [lia|reflexivity].
  - destruct H as [->|H]; [rewrite String.eqb_refl in E; discriminate|]. destruct (IH H). cbn. split; [lia|assumption].
Qed.
Lemma position_app y a b : In y a -> position y (a ++ b) = position y a.
Proof.
  induction a as [|z a IH]; [intros []|]. intros H. cbn [position app]. destruct (String.eqb z y) eqn:E; [reflexivity|].
  f_equal. apply IH. destruct H as [->|H]; [rewrite String.eqb_refl in E; discriminate|exact H].
Qed.
Lemma position_skip y a b : ~ In y a -> position y (a ++ b) = length a + position y b.
Proof.
  induction a as [|z a IH]; [reflexivity|]. intros H. cbn [position app length]. destruct (String.eqb z y) eqn:E.
  - apply String.eqb_eq in E. subst. elim H. now left.
  - cbn. f_equal. apply IH. intros K. apply H. now right.
Qed.
Lemma nth_dl names : forall k y, nth_error names k = Some y ->
  nth_error (flat_map (fun x => [x; x ++ "'"]) names) (2 * k) = Some y /\ nth_error (flat_map (fun x => [x; x ++ "'"]) names) (2 * k + 1) = Some (y ++ "'").
Proof.
  induction names as [|z names IH]; intros [|k] y H; try discriminate.
  - injection H as ->. split; reflexivity.
  - replace (2 * S k) with (S (S (2 * k))) by lia. exact (IH k y H).
Qed.
Lemma div2_even k : Nat.div2 (2 * k) = k /\ Nat.odd (2 * k) = false /\ Nat.even (2 * k) = true.
Proof. split; [apply Nat.div2_double|]. rewrite Nat.odd_mul, Nat.even_mul. auto. Qed.
Lemma div2_odd k : Nat.div2 (2 * k + 1) = k /\ Nat.odd (2 * k + 1) = true /\ Nat.even (2 * k + 1) = false.
Proof. split; [rewrite Nat.add_1_r; apply Nat.div2_succ_double|]. rewrite Nat.odd_add, Nat.even_add, Nat.odd_mul, Nat.even_mul. auto. Qed.
Lemma in_exists y l : existsb (String.eqb y) l = true <-> In y l.
Proof. rewrite existsb_exists. split; [intros (x & Hx & E); apply String.eqb_eq in E; now subst|intros H; exists y; split; auto; apply String.eqb_refl]. Qed.

Lemma okChars_app a b : okChars (a ++ b) = okChars a && okChars b.
Proof. induction a as [|c a IH]; cbn; [reflexivity|]. now rewrite IH, andb_assoc. Qed.
Lemma id_ok s : allIdChars s = true -> okChars s = true.
Proof. induction s as [|a s IH]; cbn; [auto|]. rewrite !andb_true_iff. intros [H H']. split; auto. unfold okChar. now rewrite H. Qed.
Lemma okChar_ws a : okChar a = true -> isWs a = false /\ Ascii.eqb a "[" = false /\ Ascii.eqb a "#" = false /\ a <> "010"%char.
Proof. destruct a as [[] [] [] [] [] [] [] []]; vm_compute; intros H; try discriminate; repeat split; discriminate. Qed.
Lemma good_noWs w : okChars w = true -> noWs w = true.
Proof. unfold noWs. induction w as [|a w IH]; cbn; [auto|]. rewrite !andb_true_iff. intros [H H']. split; auto. destruct (okChar_ws a H) as [-> _]. reflexivity. Qed.
Lemma good_words w : goodWord w -> words w = [w].
Proof. intros [N H]. destruct w as [|a w]; [now elim N|]. apply words_noWs. now apply good_noWs. Qed.
Lemma good_noNl w : okChars w = true -> noNl w.
Proof. intros H a. induction w as [|b w IH]; cbn; [intros []|]. cbn in H. apply andb_true_iff in H. destruct H as [H H']. intros [<-|I]; [apply (okChar_ws b H)|auto]. Qed.
Lemma good_line ws : Forall goodWord ws -> ws <> [] ->
  lineOK (String.concat " " ws) /\ contentS (String.concat " " ws) = true /\ words (strip (String.concat " " ws)) = ws.
Proof.
  intros G N. assert (F : flat_map words ws = ws).
  { clear N. induction G as [|w ws Gw G IH]; [reflexivity|]. cbn [flat_map]. rewrite IH, good_words by auto. reflexivity. }
  assert (W : words (String.concat " " ws) = ws) by (rewrite words_concat; exact F).
  destruct ws as [|w ws]; [now elim N|]. destruct (first_word _ _ _ W) as (a & r & r' & Ew & Es & Ea).
  assert (Ga : okChar a = true) by (inversion G as [|? ? [_ Gw] _]; subst; cbn in Gw; now apply andb_true_iff in Gw).
  destruct (okChar_ws a Ga) as (_ & C1 & C2 & _). split; [split|split].
  - apply noNl_join. eapply Forall_impl; [|exact G]. intros x [_ Gx]. now apply good_noNl.
  - rewrite Es. exact C1.
  - unfold contentS, content. rewrite Es. cbn [String.eqb firstIs orb]. now rewrite C2.
  - now rewrite words_strip.
Qed.

Lemma reserved_primed y : y <> "" -> reserved (y ++ "'") = false.
Proof.
  intros N. destruct y as [|a y]; [now elim N|]. change (String a y ++ "'") with (String a (y ++ "'")). unfold reserved.
  destruct y as [|b y]; cbn; repeat match goal with |- context [if ?c then false else false] => destruct c end; reflexivity.
Qed.

Section Vars.
  Variable varOf : string -> string.
  Variables ins outs : list string.
  Hypothesis names : forallb name (ins ++ outs) = true.
  Hypothesis nodup : NoDup (ins ++ outs).

  Lemma name_in y : In y (ins ++ outs) -> y <> "" /\ allIdChars y = true /\ reserved y = false.
  Proof.
    intros H. rewrite forallb_forall in names. specialize (names y H). unfold name in names. apply andb_true_iff in names. destruct names as [N R].
    apply andb_true_iff in N. destruct N as [N C]. split; [intros ->; discriminate|]. split; auto. now apply negb_true_iff in R.
  Qed.

  Lemma denotes_var s p x v : usable varOf ins outs s p (LAtom x v) = true ->
    denotes ins outs s [if p then varOf x ++ "'" else varOf x] (fun st st' => at_ varOf ins outs (if p then st' else st) x).
  Proof.
    cbn [usable]. intros U. set (y := varOf x) in *.
    assert (X : In y (ins ++ outs) /\ may_use s (nth (position y (ins ++ outs)) (ol ins outs) false) p = true).
    { unfold ol. apply orb_true_iff in U. destruct U as [U|U]; apply andb_true_iff in U; destruct U as [I M]; apply in_exists in I.
      - split; [apply in_or_app; now left|]. destruct (position_in y ins I) as [P _]. rewrite position_app by auto.
        rewrite app_nth1 by (rewrite map_length; exact P). replace (nth _ _ false) with false; [exact M|].
        clear. symmetry. generalize (position y ins). induction ins as [|a l IH]; intros [|n]; cbn; auto.
      - split; [apply in_or_app; now right|]. assert (NI : ~ In y ins).
        { intros K. apply in_split in K. destruct K as (l1 & l2 & E). rewrite E, <- app_assoc in nodup. apply NoDup_remove_2 in nodup. apply nodup.
          apply in_or_app. right. apply in_or_app. now right. }
        destruct (position_in y outs I) as [P _]. rewrite position_skip by auto.
        rewrite app_nth2 by (rewrite map_length; lia). rewrite map_length. replace (length ins + position y outs - length ins) with (position y outs) by lia.
        replace (nth _ _ false) with true; [exact M|]. clear - P. symmetry. revert P. generalize (position y outs). induction outs as [|a l IH]; intros [|n] P; cbn in *; auto; try lia. apply IH. lia. }
    destruct X as [I M]. destruct (name_in y I) as (N & C & R). destruct (position_in y _ I) as [P E]. destruct (nth_dl _ _ _ E) as [D1 D2].
    assert (V : forall st, at_ varOf ins outs st x = st (position y (ins ++ outs))) by reflexivity. set (k := position y (ins ++ outs)) in *.
    destruct (div2_even k) as (A1 & A2 & A3), (div2_odd k) as (B1 & B2 & B3). destruct p.
    - split. { constructor; [|constructor]. split; [destruct y; discriminate|]. rewrite okChars_app. cbn. rewrite id_ok by auto. reflexivity. }
      exists (FVar (2 * k + 1)). split; [|split; [apply valued_var|]].
      + apply g_var; [now apply reserved_primed|]. split; [exact D2|]. now rewrite B1, B2.
      + intros st st'. unfold holds. cbn [den]. unfold valuation. rewrite B3, B1. reflexivity.
    - split. { constructor; [|constructor]. split; [exact N|now apply id_ok]. }
      exists (FVar (2 * k)). split; [|split; [apply valued_var|]].
      + apply g_var; [exact R|]. split; [exact D1|]. now rewrite A1, A2.
      + intros st st'. unfold holds. cbn [den]. unfold valuation. rewrite A3, A1. reflexivity.
  Qed.
End Vars.

(** ** Conjuncts *)
Section Props.
  Variable assignment : list ltree -> bool -> pyres (list string).
  Variables atomA atomS : string -> option bool -> bool.
  Variable varOf : string -> string.
  Variables ins outs : list string.
  Hypothesis atom_ok : forall t x v p, repr t (LAtom x v) -> res assignment atomA atomS varOf ins outs p (flatten t) (LAtom x v).
  Notation one := (oneProperty assignment).

  Definition says (p : bool) (ws : list string) (f : ltl) : Prop :=
    forall s, stepFormula atomS (negb p) f = true -> usable varOf ins outs s p f = true -> denotes ins outs s ws (fun st st' => value varOf ins outs p st st' f).
  Definition okOne (sw : bool) (g : ltl) : bool :=
    forallb (stepFormula atomA true) (initialOf g) && forallb (stepFormula atomA true) (alwaysOf g) && forallb (stepFormula atomA (negb sw)) (recurringOf g).
  Definition wsOf (n : nat) (ps : list (nat * list string)) : list (list string) := map snd (filter (fun p => Nat.eqb (fst p) n) ps).
  Definition said (sw : bool) (ps : list (nat * list string)) (gs : list ltl) : Prop :=
    Forall2 (says false) (wsOf 0 ps) (flat_map initialOf gs) /\ Forall2 (says false) (wsOf 1 ps) (flat_map alwaysOf gs) /\
    Forall2 (says sw) (wsOf 2 ps) (flat_map recurringOf gs).

  Lemma one_spec sw d g : flatOf d g ->
    if okOne sw g then exists p, one sw d = Ret p /\ said sw [p] [g] else one sw d = Raise.
  Proof.
    intros (t & R & ->).
    assert (PLAIN : initialOf g = [g] -> alwaysOf g = [] -> recurringOf g = [] -> one sw (flatten t) = pybind (parseSimpleFormula assignment (flatten t) false) (fun b => Ret (0, b)) ->
      if okOne sw g then exists p, one sw (flatten t) = Ret p /\ said sw [p] [g] else one sw (flatten t) = Raise).
    { intros E1 E2 E3 E. unfold okOne. rewrite E, E1, E2, E3. cbn [forallb andb]. rewrite !andb_true_r.
      pose proof (simple assignment atomA atomS varOf ins outs atom_ok t g false R) as H. unfold res in H. cbn [negb] in H. destruct (stepFormula atomA true g); [|now rewrite H].
      destruct H as (ws & -> & H). cbn [pybind]. eexists. split; [reflexivity|]. unfold said, wsOf. cbn [flat_map filter fst Nat.eqb map snd app]. rewrite E1, E2, E3. cbn [app].
      split; [|split]; constructor; [|constructor]. intros s. exact (H s). }
    inversion R as [x Et Ef|x Et Ef|x Et Ef|x e v Et Ef|x e v Et Ef|X o cs u g' U R' Et Ef|X c u w g' h B R' R'' Et Ef|w o u u' g' h R' R'' Et Ef]; subst t g; try (apply PLAIN; reflexivity).
    - change (flatten (TNode "UnaryFormula" [TNode X cs; u])) with (TNode "UnaryFormula" [flatten (TNode X cs); flatten u]) in *.
      destruct (flatten_head X cs) as (ds & EX). rewrite EX in *. clear EX. destruct U; try (apply PLAIN; reflexivity). clear PLAIN.
      assert (ALW : (forall k, g' <> LFinally k) -> one sw (TNode "UnaryFormula" [TNode "GloballyOperator" ds; flatten u]) = pybind (parseSimpleFormula assignment (flatten u) false) (fun b => Ret (1, b)) ->
        if okOne sw (LGlobally g') then exists p, one sw (TNode "UnaryFormula" [TNode "GloballyOperator" ds; flatten u]) = Ret p /\ said sw [p] [LGlobally g'] else one sw (TNode "UnaryFormula" [TNode "GloballyOperator" ds; flatten u]) = Raise).
      { intros NF E. rewrite E. assert (E1 : alwaysOf (LGlobally g') = [g']) by (destruct g'; try reflexivity; now elim (NF g')).
        assert (E2 : recurringOf (LGlobally g') = []) by (destruct g'; try reflexivity; now elim (NF g')). unfold okOne. rewrite E1, E2. cbn [initialOf forallb andb]. rewrite !andb_true_r.
        pose proof (simple assignment atomA atomS varOf ins outs atom_ok u g' false R') as H. unfold res in H. cbn [negb] in H. destruct (stepFormula atomA true g'); [|now rewrite H].
        destruct H as (ws & -> & H). cbn [pybind]. eexists. split; [reflexivity|]. unfold said, wsOf. cbn [flat_map filter fst Nat.eqb map snd app]. rewrite E1, E2. cbn [app].
        split; [|split]; constructor; [|constructor]. intros s. exact (H s). }
      inversion R' as [x Et Ef|x Et Ef|x Et Ef|x e v Et Ef|x e v Et Ef|X' o' cs' u' g'' U' R'' Et Ef|X' c u' w g'' h B R'' R''' Et Ef|w o' u' u'' g'' h R'' R''' Et Ef]; subst u g'; try (apply ALW; [discriminate|reflexivity]).
      + change (flatten (TNode "UnaryFormula" [TNode X' cs'; u'])) with (TNode "UnaryFormula" [flatten (TNode X' cs'); flatten u']) in *.
        destruct (flatten_head X' cs') as (ds' & EX). rewrite EX in *. clear EX. destruct U'; try (apply ALW; [discriminate|reflexivity]).
        unfold okOne. cbn [initialOf alwaysOf recurringOf forallb andb]. rewrite andb_true_r.
        change (one sw (TNode "UnaryFormula" [TNode "GloballyOperator" ds; TNode "UnaryFormula" [TNode "FinallyOperator" ds'; flatten u']])) with (pybind (parseSimpleFormula assignment (flatten u') sw) (fun b => Ret (2, b))).
        pose proof (simple assignment atomA atomS varOf ins outs atom_ok u' g'' sw R'') as H. unfold res in H. destruct (stepFormula atomA (negb sw) g''); [|now rewrite H].
        destruct H as (ws & -> & H). cbn [pybind]. eexists. split; [reflexivity|]. unfold said, wsOf. cbn [flat_map filter fst Nat.eqb map snd app initialOf alwaysOf recurringOf].
        split; [|split]; constructor; [|constructor]. intros s. exact (H s).
      + destruct B; rewrite flatten_two in *; (apply ALW; [discriminate|reflexivity]).
    - destruct B; rewrite flatten_two in *; try (apply PLAIN; reflexivity).
  Qed.

  Lemma wsOf_app n a b : wsOf n (a ++ b) = (wsOf n a ++ wsOf n b)%list.
  Proof. unfold wsOf. now rewrite filter_app, map_app. Qed.
  Lemma said_app sw a b gs hs : said sw a gs -> said sw b hs -> said sw (a ++ b) (gs ++ hs).
  Proof. intros (A & B & C) (A' & B' & C'). unfold said. rewrite !wsOf_app, !flat_map_app. split; [|split]; now apply Forall2_app. Qed.
  Lemma many_spec sw ds gs : Forall2 flatOf ds gs ->
    if forallb (okOne sw) gs then exists ps, pyMap (one sw) ds = Ret ps /\ said sw ps gs else pyMap (one sw) ds = Raise.
  Proof.
    induction 1 as [|d g ds gs H F IH]; cbn [pyMap forallb].
    - exists []. split; [reflexivity|]. repeat split; constructor.
    - pose proof (one_spec sw d g H) as O. destruct (okOne sw g); cbn [andb]; [|now rewrite O].
      destruct O as (p & -> & O). cbn [pybind]. destruct (forallb (okOne sw) gs); [|now rewrite IH].
      destruct IH as (ps & -> & IH). cbn [pybind]. eexists. split; [reflexivity|]. now apply (said_app sw [p] ps [g] gs).
  Qed.

  Definition entry (T : ltree) (f : ltl) : Prop := exists t e, repr t f /\ T = flatten (TNode "Formula" [t; TLeaf e]).
  Definition body (sw : bool) (tree : ltree) : pyres (list (nat * list string)) :=
    match tree with
    | TNode "Formula" (t :: _) => pyMap (oneProperty assignment sw) (match t with TNode "Conjunction" cs => cs | _ => [t] end)
    | _ => Raise
    end.
  Lemma body_spec sw t e : body sw (TNode "Formula" [t; e]) = pyMap (one sw) (parted "Conjunction" t).
  Proof.
    change (body sw (TNode "Formula" [t; e])) with (pyMap (one sw) match t with TNode "Conjunction" cs => cs | _ => [t] end). f_equal.
    destruct t as [l|X cs]; [reflexivity|]. unfold parted. destruct (String.eqb X "Conjunction") eqn:E; [apply String.eqb_eq in E; now subst|].
    repeat (match goal with |- match ?X with _ => _ end = _ => destruct X; try reflexivity end). all: try (cbn in E; discriminate).
  Qed.
  Lemma all_spec sw Ts fs : Forall2 entry Ts fs ->
    if forallb (okOne sw) (flat_map conjuncts fs) then exists ps, allProperties assignment sw Ts = Ret ps /\ said sw ps (flat_map conjuncts fs)
    else allProperties assignment sw Ts = Raise.
  Proof.
    change (allProperties assignment sw Ts) with (pybind (pyMap (body sw) Ts) (fun ps => Ret (concat ps))).
    induction 1 as [|T f Ts fs (t & e & R & ->) F IH]; cbn [flat_map].
    - exists []. split; [reflexivity|]. repeat split; constructor.
    - change (flatten (TNode "Formula" [t; TLeaf e])) with (TNode "Formula" [flatten t; TLeaf e]).
      change (pyMap (body sw) (TNode "Formula" [flatten t; TLeaf e] :: Ts)) with
        (pybind (body sw (TNode "Formula" [flatten t; TLeaf e])) (fun b => pybind (pyMap (body sw) Ts) (fun bs => Ret (b :: bs)))). rewrite body_spec.
      rewrite forallb_app. pose proof (many_spec sw _ _ (conj_parts t f R)) as M.
      destruct (forallb (okOne sw) (conjuncts f)); cbn [andb]; [|now rewrite M]. destruct M as (ps & -> & M). cbn [pybind].
      destruct (forallb (okOne sw) (flat_map conjuncts fs)).
      + destruct IH as (qs & E & IH). destruct (pyMap (body sw) Ts) as [pss| |]; cbn [pybind] in *; try discriminate. injection E as <-.
        eexists. split; [reflexivity|]. cbn [concat]. now apply said_app.
      + destruct (pyMap (body sw) Ts); cbn [pybind] in *; congruence.
  Qed.
  Lemma okOne_split sw gs : forallb (okOne sw) gs =
    forallb (stepFormula atomA true) (flat_map initialOf gs) && forallb (stepFormula atomA true) (flat_map alwaysOf gs) && forallb (stepFormula atomA (negb sw)) (flat_map recurringOf gs).
  Proof.
    induction gs as [|g gs IH]; [reflexivity|]. cbn [forallb flat_map]. rewrite IH. unfold okOne. rewrite !forallb_app.
    destruct (forallb (stepFormula atomA true) (initialOf g)), (forallb (stepFormula atomA true) (alwaysOf g)), (forallb (stepFormula atomA (negb sw)) (recurringOf g)),
      (forallb (stepFormula atomA true) (flat_map initialOf gs)), (forallb (stepFormula atomA true) (flat_map alwaysOf gs)); reflexivity.
  Qed.
End Props.

(** ** Printed files *)
Lemma step_mono (a b : string -> option bool -> bool) : (forall x v, a x v = true -> b x v = true) ->
  forall f n, stepFormula a n f = true -> stepFormula b n f = true.
Proof. intros H. induction f; intros m; cbn [stepFormula]; auto; rewrite ?andb_true_iff; try (intros []); auto. Qed.
Lemma steps_mono (a b : string -> option bool -> bool) : (forall x v, a x v = true -> b x v = true) ->
  forall n fs, forallb (stepFormula a n) fs = true -> forallb (stepFormula b n) fs = true.
Proof. intros H n fs. rewrite !forallb_forall. intros K f Hf. apply (step_mono a b H). auto. Qed.
Lemma gram_ne var b m f ws : gram var b false m f ws -> ws <> [].
Proof. destruct 1; discriminate. Qed.
Lemma layout_blocks secs : forall cur, Forall (fun p => Forall lineOK (snd p)) secs ->
  layout cur (flat_map (fun p => header (fst p) :: snd p ++ [""]) secs)%list = Some (flat_map (fun p => itemsOf (fst p) (snd p)) secs).
Proof.
  induction secs as [|[s ls] secs IH]; intros cur F; [reflexivity|]. inversion F as [|? ? F1 F2]; subst. cbn [flat_map fst snd] in *.
  change ((header s :: ls ++ [""]) ++ ?r)%list with (header s :: (ls ++ [""]) ++ r)%list.
  rewrite layout_header, <- app_assoc, layout_ok by auto. cbn [app]. rewrite layout_blank, IH by auto. reflexivity.
Qed.
Lemma objective_ext2 g g' pi : (forall s, g_initE g s = g_initE g' s) -> (forall s, g_initS g s = g_initS g' s) ->
  (forall s t, g_safeE g s t = g_safeE g' s t) -> (forall s t, g_safeS g s t = g_safeS g' s t) ->
  Forall2 (fun p q => forall s t : state, p s t = q s t :> bool) (g_liveA g) (g_liveA g') -> Forall2 (fun p q => forall s t : state, p s t = q s t :> bool) (g_liveG g) (g_liveG g') ->
  objective g pi -> objective g' pi.
Proof.
  intros E1 E2 E3 E4 FA FG O I. rewrite <- E1 in I. destruct (O I) as (I' & S & L). split; [now rewrite <- E2|]. split.
  - intros n H. rewrite <- E4. apply S. intros m Hm. rewrite E3. auto.
  - intros H A q Hq n. destruct (Forall2_in_r _ _ _ _ FG Hq) as (p & Hp & E). destruct (L (fun n => eq_trans (E3 _ _) (H n))) with (p := p) (n := n) as (m & Hm & T); auto.
    + intros p' Hp' k. destruct (Forall2_in_l _ _ _ _ FA Hp') as (q' & Hq' & E'). destruct (A q' Hq' k) as (m & Hm & T). exists m. now rewrite E'.
    + exists m. now rewrite <- E.
Qed.
Lemma F2_sym {A B} (R : A -> B -> Prop) l l' : Forall2 R l l' -> Forall2 (fun b a => R a b) l' l.
Proof. induction 1; constructor; auto. Qed.

Section Printed.
  Variable assignment : list ltree -> bool -> pyres (list string).
  Variables atomA atomS : string -> option bool -> bool.
  Variable varOf : string -> string.
  Variables ins outs : list string.
  Hypothesis atom_ok : forall t x v p, repr t (LAtom x v) -> res assignment atomA atomS varOf ins outs p (flatten t) (LAtom x v).
  Hypothesis atom_mono : forall x v, atomS x v = true -> atomA x v = true.
  Variables fa fg : list ltl.
  Variables Ta Tg : list ltree.
  Hypothesis Ea : Forall2 entry Ta fa.
  Hypothesis Eg : Forall2 entry Tg fg.
  Variables inBits outBits : list string.

  Lemma printed_if : if translatable atomA fa fg then
      exists psA psG, said atomS varOf ins outs false psA (flat_map conjuncts fa) /\ said atomS varOf ins outs true psG (flat_map conjuncts fg) /\
        printed assignment inBits outBits Ta Tg = Ret (unlines (flat_map (fun p => header (fst p) :: snd p ++ [""])%list
          [(SInput, inBits); (SOutput, outBits); (SEnvTrans, linesOfKind 1 psA); (SEnvLive, linesOfKind 2 psA); (SEnvInit, linesOfKind 0 psA);
           (SSysTrans, linesOfKind 1 psG); (SSysLive, linesOfKind 2 psG); (SSysInit, linesOfKind 0 psG)]))
    else printed assignment inBits outBits Ta Tg = Raise.
  Proof.
    pose proof (all_spec assignment atomA atomS varOf ins outs atom_ok false Ta fa Ea) as HA.
    pose proof (all_spec assignment atomA atomS varOf ins outs atom_ok true Tg fg Eg) as HG.
    rewrite okOne_split in HA, HG. unfold translatable, parts. cbn [negb] in *.
    set (TA := forallb _ (flat_map initialOf (flat_map conjuncts fa)) && forallb _ (flat_map alwaysOf (flat_map conjuncts fa)) && forallb _ (flat_map recurringOf (flat_map conjuncts fa))) in *.
    set (i := forallb _ (flat_map initialOf (flat_map conjuncts fg))) in *. set (a := forallb _ (flat_map alwaysOf (flat_map conjuncts fg))) in *. set (r := forallb _ (flat_map recurringOf (flat_map conjuncts fg))) in *.
    rewrite <- !andb_assoc. rewrite <- andb_assoc in HG. unfold printed, buildPropertySet. destruct TA; cbn [andb].
    - destruct HA as (psA & -> & HA). cbn [pybind]. destruct (i && (a && r)).
      + destruct HG as (psG & -> & HG). cbn [pybind]. exists psA, psG. split; [exact HA|]. split; [exact HG|]. rewrite unlines_concat. f_equal. f_equal. cbn [flat_map fst snd]. rewrite app_nil_r.
        repeat rewrite <- app_assoc. cbn [app]. repeat rewrite <- app_assoc. reflexivity.
      + rewrite HG. reflexivity.
    - rewrite HA. reflexivity.
  Qed.

  Hypothesis names : forallb name (ins ++ outs) = true.
  Hypothesis nodup : NoDup (ins ++ outs).
  Hypothesis inB : filter (fun e => negb (String.eqb e "")) inBits = ins.
  Hypothesis outB : filter (fun e => negb (String.eqb e "")) outBits = outs.

  Lemma collect s p wss gs : Forall2 (says atomS varOf ins outs p) wss gs ->
    forallb (stepFormula atomS (negb p)) gs = true -> forallb (usable varOf ins outs s p) gs = true ->
    exists fms, Forall2 (fun ws fm => gram (fvar ins outs s) maxNumber false 0 fm ws) wss fms /\
      Forall2 (fun fm g => forall st st', holds fm (valuation st st') = value varOf ins outs p st st' g) fms gs /\
      Forall (fun ws => Forall goodWord ws /\ ws <> []) wss.
  Proof.
    induction 1 as [|ws g wss gs H F IH]; cbn [forallb]; intros S U; [exists []; repeat constructor|].
    apply andb_true_iff in S, U. destruct S as [S S'], U as [U U']. destruct (IH S' U') as (fms & A & B & C).
    destruct (H s S U) as (G & fm & E1 & _ & E2). exists (fm :: fms). split; [now constructor|]. split; [now constructor|]. constructor; auto. split; auto. now apply gram_ne in E1.
  Qed.
  Lemma bits bs xs : filter (fun e => negb (String.eqb e "")) bs = xs -> forallb name xs = true ->
    Forall lineOK bs /\ map strip (filter contentS bs) = xs.
  Proof.
    intros <-. induction bs as [|b bs IH]; [repeat constructor|]. cbn [filter]. destruct (String.eqb b "") eqn:E; cbn [negb].
    - apply String.eqb_eq in E. subst b. intros H. destruct (IH H) as [A B]. split; [constructor; auto; split; [now apply noNl_lit|reflexivity]|exact B].
    - cbn [forallb]. intros H. apply andb_true_iff in H. destruct H as [N H]. destruct (IH H) as [A B].
      assert (G : goodWord b). { unfold name in N. apply andb_true_iff in N. destruct N as [N _]. apply andb_true_iff in N. destruct N as [_ N]. split; [intros ->; discriminate|now apply id_ok]. }
      destruct (good_line [b] (Forall_cons _ G (Forall_nil _)) ltac:(discriminate)) as (L1 & L2 & _). cbn [String.concat] in L1, L2.
      split; [constructor; auto|]. rewrite L2. cbn [map]. rewrite B. f_equal. apply strip_noWs. apply good_noWs. apply G.
  Qed.
  Lemma lines_good wss : Forall (fun ws => Forall goodWord ws /\ ws <> []) wss ->
    Forall lineOK (map (String.concat " ") wss) /\ filter contentS (map (String.concat " ") wss) = map (String.concat " ") wss /\
    map words (map strip (map (String.concat " ") wss)) = wss.
  Proof.
    induction 1 as [|ws wss [G N] F (A & B & C)]; [repeat constructor|]. destruct (good_line ws G N) as (L1 & L2 & L3). cbn [map filter]. rewrite L2, L3, B, C. auto.
  Qed.
  Lemma lines_ws n ps : linesOfKind n ps = map (String.concat " ") (wsOf n ps).
  Proof. unfold linesOfKind, wsOf. now rewrite map_map. Qed.

  Theorem printed_answer : translatable atomS fa fg = true -> wellScoped varOf ins outs fa fg = true ->
    exists out, printed assignment inBits outBits Ta Tg = Ret out /\
    forall ord, match executeFile ord out with
      | POk Realizable => realizable (ltlGame varOf ins outs fa fg)
      | POk Unrealizable => ~ realizable (ltlGame varOf ins outs fa fg)
      | _ => False
      end.
  Proof.
    intros HT HW. pose proof printed_if as P.
    assert (TA : translatable atomA fa fg = true).
    { unfold translatable in *. rewrite !andb_true_iff in *. destruct HT as [[[[[A B] C] D] E] F]. repeat split; now apply (steps_mono atomS atomA atom_mono). }
    rewrite TA in P. destruct P as (psA & psG & (SA0 & SA1 & SA2) & (SG0 & SG1 & SG2) & EP). eexists. split; [exact EP|]. clear EP TA.
    unfold translatable, wellScoped in HT, HW. rewrite !andb_true_iff in HT, HW. destruct HT as [[[[[T1 T2] T3] T4] T5] T6]. destruct HW as [[[[[W1 W2] W3] W4] W5] W6].
    destruct (collect SEnvInit false _ _ SA0 T1 W1) as (fEI & gEI & vEI & lEI). destruct (collect SEnvTrans false _ _ SA1 T2 W3) as (fET & gET & vET & lET).
    destruct (collect SEnvLive false _ _ SA2 T3 W5) as (fEL & gEL & vEL & lEL). destruct (collect SSysInit false _ _ SG0 T4 W2) as (fSI & gSI & vSI & lSI).
    destruct (collect SSysTrans false _ _ SG1 T5 W4) as (fST & gST & vST & lST). destruct (collect SSysLive true _ _ SG2 T6 W6) as (fSL & gSL & vSL & lSL).
    apply lines_good in lEI, lET, lEL, lSI, lST, lSL. rewrite <- !lines_ws in *.
    rewrite forallb_app in names. apply andb_true_iff in names. destruct names as [N1 N2]. destruct (bits inBits ins inB N1) as [B1 B1']. destruct (bits outBits outs outB N2) as [B2 B2'].
    set (secs := [(SInput, inBits); (SOutput, outBits); (SEnvTrans, linesOfKind 1 psA); (SEnvLive, linesOfKind 2 psA); (SEnvInit, linesOfKind 0 psA);
           (SSysTrans, linesOfKind 1 psG); (SSysLive, linesOfKind 2 psG); (SSysInit, linesOfKind 0 psG)]).
    assert (SOK : Forall (fun p => Forall lineOK (snd p)) secs) by (unfold secs; repeat constructor; cbn [snd]; first [exact B1|exact B2|apply lEI|apply lET|apply lEL|apply lSI|apply lST|apply lSL]).
    set (D := (itemsOf SInput inBits ++ itemsOf SOutput outBits)%list).
    set (Fm := (itemsOf SEnvTrans (linesOfKind 1 psA) ++ itemsOf SEnvLive (linesOfKind 2 psA) ++ itemsOf SEnvInit (linesOfKind 0 psA) ++
      itemsOf SSysTrans (linesOfKind 1 psG) ++ itemsOf SSysLive (linesOfKind 2 psG) ++ itemsOf SSysInit (linesOfKind 0 psG))%list).
    assert (LAY : layout None (file_lines (unlines (flat_map (fun p => header (fst p) :: snd p ++ [""]) secs)%list)) = Some (D ++ Fm)%list).
    { rewrite file_lines_unlines.
      - rewrite layout_blocks by exact SOK. unfold secs, D, Fm. cbn [flat_map fst snd]. rewrite app_nil_r, <- app_assoc. reflexivity.
      - apply Forall_forall. intros l Hl. apply in_flat_map in Hl. destruct Hl as (p & Hp & [<-|Hl]); [destruct (fst p); now apply noNl_lit|].
        apply in_app_or in Hl. destruct Hl as [Hl|[<-|[]]]; [|now apply noNl_lit]. rewrite Forall_forall in SOK. specialize (SOK p Hp). rewrite Forall_forall in SOK. now apply SOK. }
    assert (DECL : declared (D ++ Fm)%list = dl ins outs).
    { unfold D, Fm. rewrite !declared_app, !declared_items. cbn [formulaSection app]. rewrite app_nil_r, B1', B2'. unfold dl. now rewrite flat_map_app. }
    assert (rep : forall (A : Type) (b : bool) (l : list A), repeat b (length l) = map (fun _ => b) l) by (intros A b l; induction l; cbn; congruence).
    assert (OUTS : outputs (D ++ Fm)%list = ol ins outs).
    { unfold D, Fm. rewrite !outputs_app, !outputs_items. cbn [formulaSection app]. rewrite app_nil_r. unfold ol.
      rewrite <- (map_length strip (filter contentS inBits)), <- (map_length strip (filter contentS outBits)), B1', B2'. now rewrite !rep. }
    assert (ND : NoDup (declared (D ++ Fm)%list)).
    { rewrite DECL. unfold dl. clear - nodup names N1 N2. assert (NM : forallb name (ins ++ outs) = true) by (rewrite forallb_app, N1, N2; reflexivity). revert nodup NM. generalize (ins ++ outs)%list.
      assert (NP : forall x y : string, allIdChars y = true -> y <> x ++ "'").
      { intros x y H ->. clear - H. induction x as [|a x IH]; cbn in H; [discriminate|]. apply andb_true_iff in H. now apply IH. }
      assert (IN : forall z l, In z (flat_map (fun x => [x; x ++ "'"]) l) -> exists x, In x l /\ (z = x \/ z = x ++ "'")).
      { intros z l H. apply in_flat_map in H. destruct H as (x & Hx & [<-|[<-|[]]]); eauto. }
      assert (IDC : forall l y, forallb name l = true -> In y l -> allIdChars y = true).
      { intros l y H Hy. rewrite forallb_forall in H. specialize (H y Hy). unfold name in H. apply andb_true_iff in H. destruct H as [H _]. now apply andb_true_iff in H. }
      induction l as [|x l IH]; intros N M; cbn [flat_map app]; [constructor|]. inversion N as [|? ? Nx Nl]; subst. pose proof (IDC _ x M (or_introl eq_refl)) as Cx.
      cbn [forallb] in M. apply andb_true_iff in M. destruct M as [Mx M]. constructor; [|constructor; [|auto]].
      - intros [E|H]; [now apply (NP x x)|]. apply IN in H. destruct H as (y & Hy & [->| ->]); [auto|]. now apply (NP y _ Cx).
      - intros H. apply IN in H. destruct H as (y & Hy & [E|E]); [apply (NP x y); auto; now apply (IDC l)|]. apply Nx. clear - E Hy.
        assert (X : x = y); [|now subst]. clear Hy. revert y E. induction x as [|a x IH]; intros [|b y] E; cbn in E; auto.
        + injection E as -> E. destruct y; discriminate.
        + injection E as -> E. destruct x; discriminate.
        + injection E as -> E. f_equal. auto. }
    set (fw := fun s => match s with SEnvInit => fEI | SEnvTrans => fET | SEnvLive => fEL | SSysInit => fSI | SSysTrans => fST | SSysLive => fSL | _ => [] end).
    assert (FORM : formulas_of false (D ++ Fm)%list fw).
    { intros s Hs. assert (X : forall w i, fvar ins outs s w i -> file_var (D ++ Fm)%list s w i) by (intros w i; unfold file_var; rewrite DECL, OUTS; auto).
      assert (Y : forall lines wss fms, Forall lineOK lines /\ filter contentS lines = lines /\ map words (map strip lines) = wss ->
        Forall2 (fun ws fm => gram (fvar ins outs s) maxNumber false 0 fm ws) wss fms ->
        Forall2 (fun line f => gram (file_var (D ++ Fm)%list s) maxNumber false 0 f (words line)) (map strip (filter contentS lines)) fms).
      { intros lines wss fms (_ & F1 & F2) G. rewrite F1. subst wss. revert fms G. generalize (map strip lines). induction l as [|l ls IH]; intros fms G; inversion G; subst; constructor; auto.
        match goal with H : gram _ _ _ _ _ _ |- _ => revert H end. apply gram_var_ext. exact X. }
      unfold D, Fm. rewrite !linesOf_app, !linesOf_items. destruct s; try discriminate Hs; cbn [sec_eqb app]; rewrite ?app_nil_r; eapply Y; eauto. }
    assert (FD : Forall (fun p : section * string => formulaSection (fst p) = false) D).
    { unfold D. apply Forall_app. split; apply Forall_forall; intros p Hp; apply in_map_iff in Hp; destruct Hp as (l & <- & _); reflexivity. }
    assert (FF : Forall (fun p : section * string => formulaSection (fst p) = true) Fm).
    { unfold Fm. repeat (apply Forall_app; split); apply Forall_forall; intros p Hp; apply in_map_iff in Hp; destruct Hp as (l & <- & _); reflexivity. }
    pose proof (first_grammatical D Fm fw FD FF FORM) as GRAM.
    assert (PLAIN : plain_file (D ++ Fm)%list).
    { intros s line Hs Hl. apply in_linesOf in Hl. destruct (Forall2_in_l _ _ _ line (FORM s Hs) Hl) as (f & _ & G). apply plainB_spec. apply (proj1 (gram_plainB _ _ _) _ _ _ G). }
    assert (ALL : forall p fms gs, Forall2 (fun fm g => forall st st', holds fm (valuation st st') = value varOf ins outs p st st' g) fms gs ->
      forall st st', forallb (fun f => holds f (valuation st st')) fms = forallb (stepValue (at_ varOf ins outs (if p then st' else st)) (at_ varOf ins outs st')) gs).
    { intros p fms gs F st st'. induction F as [|fm g fms gs H F IH]; [reflexivity|]. cbn [forallb]. now rewrite IH, H. }
    assert (LIVE : forall p fms gs, Forall2 (fun fm g => forall st st', holds fm (valuation st st') = value varOf ins outs p st st' g) fms gs ->
      Forall2 (fun p q => forall s t : state, p s t = q s t :> bool) (map (fun f st st' => holds f (valuation st st')) fms)
        (map (fun g st st' => stepValue (at_ varOf ins outs (if p then st' else st)) (at_ varOf ins outs st') g) gs)).
    { intros p fms gs F. induction F as [|fm g fms gs H F IH]; cbn [map]; constructor; auto. }
    assert (G1 : g_out (file_game (D ++ Fm)%list fw) = g_out (ltlGame varOf ins outs fa fg)) by (unfold file_game, ltlGame; cbn [g_out]; now rewrite OUTS).
    assert (E1 : forall st, g_initE (file_game (D ++ Fm)%list fw) st = g_initE (ltlGame varOf ins outs fa fg) st) by (intros st; exact (ALL false _ _ vEI st st)).
    assert (E2 : forall st, g_initS (file_game (D ++ Fm)%list fw) st = g_initS (ltlGame varOf ins outs fa fg) st) by (intros st; exact (ALL false _ _ vSI st st)).
    assert (E3 : forall st st', g_safeE (file_game (D ++ Fm)%list fw) st st' = g_safeE (ltlGame varOf ins outs fa fg) st st') by (intros st st'; exact (ALL false _ _ vET st st')).
    assert (E4 : forall st st', g_safeS (file_game (D ++ Fm)%list fw) st st' = g_safeS (ltlGame varOf ins outs fa fg) st st') by (intros st st'; exact (ALL false _ _ vST st st')).
    pose proof (LIVE false _ _ vEL) as E5. pose proof (LIVE true _ _ vSL) as E6.
    assert (EQV : realizable (file_game (D ++ Fm)%list fw) <-> realizable (ltlGame varOf ins outs fa fg)).
    { split; apply realizable_impl; auto; intros pi; apply objective_ext2; auto.
      - apply F2_sym in E5. eapply F2_impl; [|exact E5]. cbn. auto.
      - apply F2_sym in E6. eapply F2_impl; [|exact E6]. cbn. auto. }
    intros ord. destruct (C41_documented_file ord _ _ LAY ND GRAM PLAIN) as (fw' & F' & H).
    pose proof (formulas_unique _ fw' fw ND F' (formulas_loosen _ _ FORM)) as U.
    assert (EQ : realizable (file_game (D ++ Fm)%list fw') <-> realizable (ltlGame varOf ins outs fa fg)) by (rewrite <- EQV; unfold file_game; now rewrite !U by reflexivity).
    destruct H as [[E R]|[E R]]; rewrite E; [now apply EQ|]. intros K. apply EQ in K. destruct K as (f & K). destruct (R f) as (x & N). elim N. apply K.
  Qed.
End Printed.
