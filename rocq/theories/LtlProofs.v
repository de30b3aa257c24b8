(** * Proofs: what the translators for RATSY and LTLMop make of formulas *)

From Coq Require Import String Ascii List Bool Arith NArith ZArith Lia.
From Verif Require Import FormulaSpec Spec FileSpec ResilientProofs MixedText Structured Parser StructFile LtlSpec Ltl LtlTreeProofs.
Import ListNotations.
Local Open Scope string_scope.

(** ** Sizes, conjuncts and disjuncts *)
Fixpoint lsize (f : ltl) : nat :=
  match f with
  | LTrue | LFalse | LAtom _ _ => 1
  | LNot f | LNext f | LFinally f | LGlobally f => S (lsize f)
  | LUntil _ f g | LAnd f g | LOr f g | LXor f g | LImp f g | LBiimp f g => S (lsize f + lsize g)
  end.
Fixpoint disjuncts (f : ltl) : list ltl :=
  match f with LOr f g => (disjuncts f ++ disjuncts g)%list | _ => [f] end.
Lemma conjuncts_size f g : In g (conjuncts f) -> lsize g <= lsize f.
Proof. induction f; cbn [conjuncts lsize]; try (intros [<-|[]]; cbn; lia). intros H. apply in_app_or in H. destruct H as [H|H]; [apply IHf1 in H|apply IHf2 in H]; lia. Qed.
Lemma disjuncts_size f g : In g (disjuncts f) -> lsize g <= lsize f.
Proof. induction f; cbn [disjuncts lsize]; try (intros [<-|[]]; cbn; lia). intros H. apply in_app_or in H. destruct H as [H|H]; [apply IHf1 in H|apply IHf2 in H]; lia. Qed.
Lemma conjuncts_ne f : exists g fs, conjuncts f = g :: fs.
Proof. induction f; cbn [conjuncts]; try (eexists; eexists; reflexivity). destruct IHf1 as (g & fs & ->). eexists; eexists; reflexivity. Qed.
Lemma disjuncts_ne f : exists g fs, disjuncts f = g :: fs.
Proof. induction f; cbn [disjuncts]; try (eexists; eexists; reflexivity). destruct IHf1 as (g & fs & ->). eexists; eexists; reflexivity. Qed.
Lemma conj_step atom n f : forallb (stepFormula atom n) (conjuncts f) = stepFormula atom n f.
Proof. induction f; cbn [conjuncts forallb]; rewrite ?andb_true_r; auto. rewrite forallb_app, IHf1, IHf2. reflexivity. Qed.
Lemma disj_step atom n f : forallb (stepFormula atom n) (disjuncts f) = stepFormula atom n f.
Proof. induction f; cbn [disjuncts forallb]; rewrite ?andb_true_r; auto. rewrite forallb_app, IHf1, IHf2. reflexivity. Qed.
Lemma conj_usable varOf ins outs s p f : forallb (usable varOf ins outs s p) (conjuncts f) = usable varOf ins outs s p f.
Proof. induction f; cbn [conjuncts forallb]; rewrite ?andb_true_r; auto. rewrite forallb_app, IHf1, IHf2. reflexivity. Qed.
Lemma disj_usable varOf ins outs s p f : forallb (usable varOf ins outs s p) (disjuncts f) = usable varOf ins outs s p f.
Proof. induction f; cbn [disjuncts forallb]; rewrite ?andb_true_r; auto. rewrite forallb_app, IHf1, IHf2. reflexivity. Qed.
Lemma conj_value a b f : forallb (stepValue a b) (conjuncts f) = stepValue a b f.
Proof. induction f; cbn [conjuncts forallb]; rewrite ?andb_true_r; auto. rewrite forallb_app, IHf1, IHf2. reflexivity. Qed.
Lemma disj_value a b f : existsb (stepValue a b) (disjuncts f) = stepValue a b f.
Proof. induction f; cbn [disjuncts existsb]; rewrite ?orb_false_r; auto. rewrite existsb_app, IHf1, IHf2. reflexivity. Qed.
Lemma fold_and {A} (v : A -> bool) l : forall b, fold_left (fun b g => b && v g) l b = b && forallb v l.
Proof. induction l as [|a l IH]; intros b; cbn [fold_left forallb]; [now rewrite andb_true_r|]. now rewrite IH, andb_assoc. Qed.
Lemma fold_or {A} (v : A -> bool) l : forall b, fold_left (fun b g => b || v g) l b = b || existsb v l.
Proof. induction l as [|a l IH]; intros b; cbn [fold_left existsb]; [now rewrite orb_false_r|]. now rewrite IH, orb_assoc. Qed.

(** ** Flattened trees *)
Definition parted (X : string) (t : ltree) : list ltree :=
  match t with TNode Y ds => if String.eqb Y X then ds else [t] | TLeaf _ => [t] end.
Definition flatOf (d : ltree) (g : ltl) : Prop := exists u, repr u g /\ d = flatten u.

Lemma flatten_two X t u : flatten (TNode X [t; u]) =
  if isIn X ["Conjunction"; "Disjunction"; "Xor"] then TNode X (parted X (flatten t) ++ parted X (flatten u)) else TNode X [flatten t; flatten u].
Proof. cbn [flatten map flat_map]. unfold parted. rewrite app_nil_r. reflexivity. Qed.
Lemma flatten_head X cs : exists ds, flatten (TNode X cs) = TNode X ds.
Proof. cbn [flatten]. destruct (isIn X _); eexists; reflexivity. Qed.

Lemma conj_parts t f : repr t f -> Forall2 flatOf (parted "Conjunction" (flatten t)) (conjuncts f).
Proof.
  induction 1 as [x|x|x|x e v|x e v|X o cs t f U R IH|X c t u f g B R IH R' IH'|w o t u f g R IH R' IH'].
  1-5: cbn; constructor; [|constructor]; eexists; split; [constructor|reflexivity].
  - replace (conjuncts (o f)) with [o f] by (destruct U; reflexivity). replace (parted _ _) with [flatten (TNode "UnaryFormula" [TNode X cs; t])] by reflexivity.
    constructor; [|constructor]. exists (TNode "UnaryFormula" [TNode X cs; t]). split; [now constructor|reflexivity].
  - rewrite flatten_two. destruct B.
    + cbn [isIn existsb String.eqb parted conjuncts]. apply Forall2_app; auto.
    + replace (conjuncts (LOr f g)) with [LOr f g] by reflexivity. constructor; [|constructor]. exists (TNode "Disjunction" [t; u]). split; [now constructor; [constructor|..]|now rewrite flatten_two].
    + replace (conjuncts (LXor f g)) with [LXor f g] by reflexivity. constructor; [|constructor]. exists (TNode "Xor" [t; u]). split; [now constructor; [constructor|..]|now rewrite flatten_two].
    + replace (conjuncts (LImp f g)) with [LImp f g] by reflexivity. constructor; [|constructor]. exists (TNode "Implication" [t; u]). split; [now constructor; [constructor|..]|now rewrite flatten_two].
    + replace (conjuncts (LBiimp f g)) with [LBiimp f g] by reflexivity. constructor; [|constructor]. exists (TNode "Biimplication" [t; u]). split; [now constructor; [constructor|..]|now rewrite flatten_two].
  - replace (conjuncts (LUntil w f g)) with [LUntil w f g] by reflexivity. constructor; [|constructor]. exists (TNode "BinaryTemporalFormula" [t; o; u]). split; [now constructor|reflexivity].
Qed.
Lemma disj_parts t f : repr t f -> Forall2 flatOf (parted "Disjunction" (flatten t)) (disjuncts f).
Proof.
  induction 1 as [x|x|x|x e v|x e v|X o cs t f U R IH|X c t u f g B R IH R' IH'|w o t u f g R IH R' IH'].
  1-5: cbn; constructor; [|constructor]; eexists; split; [constructor|reflexivity].
  - replace (disjuncts (o f)) with [o f] by (destruct U; reflexivity). replace (parted _ _) with [flatten (TNode "UnaryFormula" [TNode X cs; t])] by reflexivity.
    constructor; [|constructor]. exists (TNode "UnaryFormula" [TNode X cs; t]). split; [now constructor|reflexivity].
  - rewrite flatten_two. destruct B.
    + replace (disjuncts (LAnd f g)) with [LAnd f g] by reflexivity. constructor; [|constructor]. exists (TNode "Conjunction" [t; u]). split; [now constructor; [constructor|..]|now rewrite flatten_two].
    + cbn [isIn existsb String.eqb parted disjuncts]. apply Forall2_app; auto.
    + replace (disjuncts (LXor f g)) with [LXor f g] by reflexivity. constructor; [|constructor]. exists (TNode "Xor" [t; u]). split; [now constructor; [constructor|..]|now rewrite flatten_two].
    + replace (disjuncts (LImp f g)) with [LImp f g] by reflexivity. constructor; [|constructor]. exists (TNode "Implication" [t; u]). split; [now constructor; [constructor|..]|now rewrite flatten_two].
    + replace (disjuncts (LBiimp f g)) with [LBiimp f g] by reflexivity. constructor; [|constructor]. exists (TNode "Biimplication" [t; u]). split; [now constructor; [constructor|..]|now rewrite flatten_two].
  - replace (disjuncts (LUntil w f g)) with [LUntil w f g] by reflexivity. constructor; [|constructor]. exists (TNode "BinaryTemporalFormula" [t; o; u]). split; [now constructor|reflexivity].
Qed.

(** ** Words that are written *)
Definition okChar (a : ascii) : bool := isIdChar a || existsb (Ascii.eqb a) ["'"; "|"; "&"; "!"]%char.
Fixpoint okChars (s : string) : bool := match s with EmptyString => true | String a s => okChar a && okChars s end.
Definition goodWord (w : string) : Prop := w <> "" /\ okChars w = true.

Section Formulas.
  Variable assignment : list ltree -> bool -> pyres (list string).
  Variables atomA atomS : string -> option bool -> bool.
  Variable varOf : string -> string.
  Variables ins outs : list string.
  Notation parse := (parseSimpleFormula assignment).
  Notation usable := (usable varOf ins outs).
  Notation atv := (at_ varOf ins outs).

  Definition dl : list string := flat_map (fun x => [x; x ++ "'"]) (ins ++ outs).
  Definition ol : list bool := map (fun _ => false) ins ++ map (fun _ => true) outs.
  Definition fvar (s : section) (w : string) (i : nat) : Prop :=
    nth_error dl i = Some w /\ may_use s (nth (Nat.div2 i) ol false) (Nat.odd i) = true.
  Definition value (p : bool) (st st' : state) (f : ltl) : bool := stepValue (atv (if p then st' else st)) (atv st') f.
  Definition denotes (s : section) (ws : list string) (v : state -> state -> bool) : Prop :=
    Forall goodWord ws /\ exists fm, gram (fvar s) maxNumber false 0 fm ws /\ valued fm /\ forall st st', holds fm (valuation st st') = v st st'.

  Definition res (p : bool) (t : ltree) (f : ltl) : Prop :=
    if stepFormula atomA (negb p) f then
      exists ws, parse t p = Ret ws /\
        forall s, stepFormula atomS (negb p) f = true -> usable s p f = true -> denotes s ws (fun st st' => value p st st' f)
    else parse t p = Raise.

  Lemma denotes_ext s ws v v' : denotes s ws v -> (forall st st', v st st' = v' st st') -> denotes s ws v'.
  Proof. intros (G & fm & A & B & C) E. split; auto. exists fm. split; auto. split; auto. intros. now rewrite C. Qed.
  Lemma denotes_op s (op : string) C (bop : bool -> bool -> bool) ws vs v v' :
    goodWord op -> (forall f g ws vs, gram (fvar s) maxNumber false 0 f ws -> gram (fvar s) maxNumber false 0 g vs -> gram (fvar s) maxNumber false 0 (C f g) (op :: ws ++ vs)%list) ->
    (forall f g, valued f -> valued g -> valued (C f g) /\ forall e, holds (C f g) e = bop (holds f e) (holds g e)) ->
    denotes s ws v -> denotes s vs v' -> denotes s (op :: ws ++ vs)%list (fun st st' => bop (v st st') (v' st st')).
  Proof.
    intros GW HG HV (G & fm & A & B & E) (G' & fm' & A' & B' & E'). split; [constructor; auto; now apply Forall_app|].
    destruct (HV fm fm' B B') as [V1 V2]. exists (C fm fm'). split; [now apply HG|]. split; [exact V1|]. intros. now rewrite V2, E, E'.
  Qed.
  Lemma gw_op c : okChar c = true -> goodWord (String c "").
  Proof. intros H. split; [discriminate|]. cbn. now rewrite H. Qed.
  Lemma denotes_and s ws vs v v' : denotes s ws v -> denotes s vs v' -> denotes s ("&" :: ws ++ vs)%list (fun st st' => v st st' && v' st st').
  Proof. intros. apply (denotes_op s "&" FAnd andb); auto using valued_and. - now apply gw_op. - intros. now apply g_and. Qed.
  Lemma denotes_or s ws vs v v' : denotes s ws v -> denotes s vs v' -> denotes s ("|" :: ws ++ vs)%list (fun st st' => v st st' || v' st st').
  Proof. intros. apply (denotes_op s "|" FOr orb); auto using valued_or. - now apply gw_op. - intros. now apply g_or. Qed.
  Lemma denotes_not s ws v : denotes s ws v -> denotes s ("!" :: ws) (fun st st' => negb (v st st')).
  Proof.
    intros (G & fm & A & B & E). split; [constructor; auto; now apply gw_op|]. destruct (valued_not fm B) as [V1 V2].
    exists (FNot fm). split; [now apply g_not|]. split; auto. intros. now rewrite V2, E.
  Qed.

  Definition others (X : string) (isPrimed : bool) : list ltree -> list string -> pyres (list string) :=
    fix others (cs : list ltree) (ret : list string) : pyres (list string) :=
      match cs with
      | [] => Ret ret
      | a :: cs => pybind (parse a isPrimed) (fun b =>
          others cs ((if String.eqb X "Conjunction" then "&" else "|") :: ret ++ b)%list)
      end.
  Lemma others_spec X (bop : bool -> bool -> bool) p ds fs :
    (forall s ws vs v v', denotes s ws v -> denotes s vs v' ->
       denotes s ((if String.eqb X "Conjunction" then "&" else "|") :: ws ++ vs)%list (fun st st' => bop (v st st') (v' st st'))) ->
    Forall2 (res p) ds fs -> forall ret,
    if forallb (stepFormula atomA (negb p)) fs then
      exists ws, others X p ds ret = Ret ws /\
        forall s v, forallb (stepFormula atomS (negb p)) fs = true -> forallb (usable s p) fs = true -> denotes s ret v ->
          denotes s ws (fun st st' => fold_left (fun b g => bop b (value p st st' g)) fs (v st st'))
    else others X p ds ret = Raise.
  Proof.
    intros HB. induction 1 as [|d f ds fs H F IH]; intros ret; cbn [others forallb fold_left].
    - exists ret. auto.
    - unfold res in H. destruct (stepFormula atomA (negb p) f); cbn [andb].
      + destruct H as (b & -> & H). cbn [pybind]. specialize (IH ((if String.eqb X "Conjunction" then "&" else "|") :: ret ++ b)%list).
        destruct (forallb (stepFormula atomA (negb p)) fs); [|exact IH]. destruct IH as (ws & E & IH). exists ws. split; [exact E|].
        intros s v S1 S2 D. apply andb_true_iff in S1, S2. destruct S1, S2. apply (IH s (fun st st' => bop (v st st') (value p st st' f))); auto.
      + rewrite H. reflexivity.
  Qed.

  Hypothesis atom_ok : forall t x v p, repr t (LAtom x v) -> res p (flatten t) (LAtom x v).

  Lemma simple_spec n : forall f, lsize f < n -> forall t p, repr t f -> res p (flatten t) f.
  Proof.
    induction n as [|n IHn]; intros f Hn t p R; [lia|].
    inversion R as [x Et Ef|x Et Ef|x Et Ef|x e v Et Ef|x e v Et Ef|X o cs u g U R' Et Ef|X c u w g h B R' R'' Et Ef|w o u u' g h R' R'' Et Ef]; subst t f.
    - exists ["1"]. split; [reflexivity|]. intros s _ _. split; [repeat constructor; discriminate|]. exists FTrue. split; [constructor|]. split; [apply valued_const|reflexivity].
    - exists ["0"]. split; [reflexivity|]. intros s _ _. split; [repeat constructor; discriminate|]. exists FFalse. split; [constructor|]. split; [apply valued_const|reflexivity].
    - now apply atom_ok.
    - now apply atom_ok.
    - now apply atom_ok.
    - change (flatten (TNode "UnaryFormula" [TNode X cs; u])) with (TNode "UnaryFormula" [flatten (TNode X cs); flatten u]).
      destruct (flatten_head X cs) as (ds & ->). destruct U; unfold res; cbn [stepFormula].
      + cbn in Hn. assert (H := IHn g ltac:(lia) u p R'). unfold res in H. destruct (stepFormula atomA (negb p) g).
        * destruct H as (ws & E & H). exists ("!" :: ws). split; [cbn; rewrite E; reflexivity|]. intros s S1 S2. apply denotes_not. auto.
        * cbn. now rewrite H.
      + destruct p; cbn [negb andb]; [reflexivity|]. cbn in Hn. assert (H := IHn g ltac:(lia) u true R'). unfold res in H. cbn [negb] in H.
        destruct (stepFormula atomA false g).
        * destruct H as (ws & E & H). exists ws. split; [exact E|]. intros s S1 S2. exact (H s S1 S2).
        * exact H.
      + reflexivity.
      + reflexivity.
    - rewrite flatten_two. destruct B; cbn [isIn existsb String.eqb Ascii.eqb Bool.eqb orb].
      + assert (F : Forall2 (res p) (parted "Conjunction" (flatten u) ++ parted "Conjunction" (flatten w)) (conjuncts (LAnd g h))).
        { assert (S : forall k, In k (conjuncts (LAnd g h)) -> lsize k < n).
          { intros k K. cbn [conjuncts] in K. cbn [lsize] in Hn. apply in_app_or in K. destruct K as [K|K]; apply conjuncts_size in K; lia. }
          assert (F : Forall2 flatOf (parted "Conjunction" (flatten u) ++ parted "Conjunction" (flatten w)) (conjuncts (LAnd g h))) by (cbn [conjuncts]; apply Forall2_app; now apply conj_parts).
          clear - F IHn S. induction F as [|d k ds ks (t & Rt & ->) F IH]; constructor; [apply IHn; auto; apply S; now left|apply IH; intros; apply S; now right]. }
        unfold res. rewrite <- (conj_step atomA), <- (conj_step atomS). destruct (conjuncts_ne (LAnd g h)) as (k & ks & EC).
        rewrite EC in F |- *. remember (parted "Conjunction" (flatten u) ++ parted "Conjunction" (flatten w))%list as ds0. inversion F as [|d k' ds ks' H F' E1 E2]. subst k' ks'. clear F. rename F' into F.
        change (parse (TNode "Conjunction" (d :: ds)) p) with (pybind (parse d p) (others "Conjunction" p ds)).
        cbn [forallb]. unfold res in H. destruct (stepFormula atomA (negb p) k); cbn [andb]; [|now rewrite H].
        destruct H as (b & -> & H). cbn [pybind].
        pose proof (others_spec "Conjunction" andb p ds ks (fun s ws vs v v' => denotes_and s ws vs v v') F b) as O.
        destruct (forallb (stepFormula atomA (negb p)) ks); [|exact O]. destruct O as (ws & E & O). exists ws. split; [exact E|].
        intros s S1 S2. rewrite <- (conj_usable varOf ins outs), EC in S2. cbn [forallb] in S1, S2. apply andb_true_iff in S1, S2. destruct S1 as [S1 S1'], S2 as [S2 S2'].
        refine (denotes_ext _ _ _ _ (O s _ S1' S2' (H s S1 S2)) _). intros st st'. rewrite fold_and. unfold value. rewrite <- (conj_value _ _ (LAnd g h)), EC. reflexivity.
      + assert (F : Forall2 (res p) (parted "Disjunction" (flatten u) ++ parted "Disjunction" (flatten w)) (disjuncts (LOr g h))).
        { assert (S : forall k, In k (disjuncts (LOr g h)) -> lsize k < n).
          { intros k K. cbn [disjuncts] in K. cbn [lsize] in Hn. apply in_app_or in K. destruct K as [K|K]; apply disjuncts_size in K; lia. }
          assert (F : Forall2 flatOf (parted "Disjunction" (flatten u) ++ parted "Disjunction" (flatten w)) (disjuncts (LOr g h))) by (cbn [disjuncts]; apply Forall2_app; now apply disj_parts).
          clear - F IHn S. induction F as [|d k ds ks (t & Rt & ->) F IH]; constructor; [apply IHn; auto; apply S; now left|apply IH; intros; apply S; now right]. }
        unfold res. rewrite <- (disj_step atomA), <- (disj_step atomS). destruct (disjuncts_ne (LOr g h)) as (k & ks & EC).
        rewrite EC in F |- *. remember (parted "Disjunction" (flatten u) ++ parted "Disjunction" (flatten w))%list as ds0. inversion F as [|d k' ds ks' H F' E1 E2]. subst k' ks'. clear F. rename F' into F.
        change (parse (TNode "Disjunction" (d :: ds)) p) with (pybind (parse d p) (others "Disjunction" p ds)).
        cbn [forallb]. unfold res in H. destruct (stepFormula atomA (negb p) k); cbn [andb]; [|now rewrite H].
        destruct H as (b & -> & H). cbn [pybind].
        pose proof (others_spec "Disjunction" orb p ds ks (fun s ws vs v v' => denotes_or s ws vs v v') F b) as O.
        destruct (forallb (stepFormula atomA (negb p)) ks); [|exact O]. destruct O as (ws & E & O). exists ws. split; [exact E|].
        intros s S1 S2. rewrite <- (disj_usable varOf ins outs), EC in S2. cbn [forallb] in S1, S2. apply andb_true_iff in S1, S2. destruct S1 as [S1 S1'], S2 as [S2 S2'].
        refine (denotes_ext _ _ _ _ (O s _ S1' S2' (H s S1 S2)) _). intros st st'. rewrite fold_or. unfold value. rewrite <- (disj_value _ _ (LOr g h)), EC. reflexivity.
      + reflexivity.
      + cbn [lsize] in Hn. assert (H1 := IHn g ltac:(lia) u p R'). assert (H2 := IHn h ltac:(lia) w p R''). unfold res in *. cbn [stepFormula].
        change (parse (TNode "Implication" [flatten u; flatten w]) p) with (pybind (parse (flatten u) p) (fun b1 => pybind (parse (flatten w) p) (fun b2 => Ret (["|"; "!"] ++ b1 ++ b2)%list))).
        destruct (stepFormula atomA (negb p) g); cbn [andb]; [|now rewrite H1]. destruct H1 as (b1 & -> & H1). cbn [pybind].
        destruct (stepFormula atomA (negb p) h); [|now rewrite H2]. destruct H2 as (b2 & -> & H2). cbn [pybind]. eexists. split; [reflexivity|].
        intros s S1 S2. apply andb_true_iff in S1, S2. destruct S1, S2.
        refine (denotes_ext _ _ _ _ (denotes_or s ("!" :: b1) b2 _ _ (denotes_not _ _ _ (H1 s _ _)) (H2 s _ _)) _); auto.
        intros. cbn. unfold value. cbn. now destruct (stepValue _ _ g).
      + cbn [lsize] in Hn. assert (H1 := IHn g ltac:(lia) u p R'). assert (H2 := IHn h ltac:(lia) w p R''). unfold res in *. cbn [stepFormula].
        change (parse (TNode "Biimplication" [flatten u; flatten w]) p) with (pybind (parse (flatten u) p) (fun b1 => pybind (parse (flatten w) p) (fun b2 => Ret (["|"; "&"; "!"] ++ b1 ++ ["!"] ++ b2 ++ ["&"] ++ b1 ++ b2)%list))).
        destruct (stepFormula atomA (negb p) g); cbn [andb]; [|now rewrite H1]. destruct H1 as (b1 & -> & H1). cbn [pybind].
        destruct (stepFormula atomA (negb p) h); [|now rewrite H2]. destruct H2 as (b2 & -> & H2). cbn [pybind]. eexists. split; [reflexivity|].
        intros s S1 S2. apply andb_true_iff in S1, S2. destruct S1 as [S1 S1'], S2 as [S2 S2'].
        assert (D1 := H1 s S1 S2). assert (D2 := H2 s S1' S2').
        pose proof (denotes_or s _ _ _ _ (denotes_and s _ _ _ _ (denotes_not _ _ _ D1) (denotes_not _ _ _ D2)) (denotes_and s _ _ _ _ D1 D2)) as D.
        cbn [app] in D |- *. rewrite <- app_assoc in D. cbn [app] in D.
        refine (denotes_ext _ _ _ _ D _).
        intros. cbn. unfold value. cbn. now destruct (stepValue _ _ g), (stepValue _ _ h).
    - reflexivity.
  Qed.
  Lemma simple t f p : repr t f -> res p (flatten t) f.
  Proof. intros R. apply (simple_spec (S (lsize f))); auto. Qed.
End Formulas.
