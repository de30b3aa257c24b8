(** * Proofs about the translation to circuits: text, form and behaviour of the circuit *)

From Coq Require Import String Ascii List Bool Arith NArith ZArith Lia Permutation.
From Verif Require Import Spec FormulaSpec FileSpec GameExt Parser ParserProofs FileProofs Explicit OutputProofs EstimatorText
  MinCore MonoProofs MinCoreProofs Aig AigSpec AigProofs AigFile AigRun.
Import ListNotations.
Local Open Scope string_scope.
Local Open Scope list_scope.

(** ** Text *)

Lemma words_showLine l : words (String.concat " " (map showNat l)) = map showNat l.
Proof.
  induction l as [|a l IH]; [reflexivity|]. destruct l as [|b l].
  - apply word_show.
  - change (String.concat " " (map showNat (a :: b :: l))) with (showNat a ++ String " " (String.concat " " (map showNat (b :: l))))%string.
    now rewrite words_sep, IH, (word_show a).
Qed.
Lemma numbers_show l : numbers (String.concat " " (map showNat l)) l.
Proof. unfold numbers. rewrite words_showLine. induction l; constructor; auto. apply numeral_show. Qed.
Lemma show_lines {X : Type} (h : X -> list nat) l : Forall2 (fun line x => numbers line (h x)) (map showLine (map h l)) l.
Proof. induction l; cbn [map]; constructor; auto. apply numbers_show. Qed.
Lemma show_gates l : Forall2 (fun line (x : gate) => numbers line [fst (fst x); snd (fst x); snd x]) (map showLine (map gl l)) l.
Proof. induction l as [|[[a b] c] l IH]; cbn [map]; constructor; auto. apply (numbers_show [a; b; c]). Qed.

Lemma symbols_spec prefix names : forall k,
  Forall2 (fun line p => exists w, numeral w (N.of_nat (fst p)) /\ line = ("i" ++ w ++ " " ++ snd p)%string)
    (symbols "i" prefix k names) (combine (seq k (length names)) (map (append prefix) names)).
Proof.
  induction names as [|x names IH]; intros k; cbn [symbols length seq map combine]; constructor; auto.
  exists (showNat k). split; [apply numeral_show|reflexivity].
Qed.

Lemma NoDup_app_disj {X : Type} (l l' : list X) : NoDup l -> NoDup l' -> (forall x, In x l -> ~ In x l') -> NoDup (l ++ l').
Proof.
  induction l as [|a l IH]; cbn; auto. intros H H' D. inversion H; subst. constructor.
  - rewrite in_app_iff. intros [I|I]; auto. now apply (D a); [left|].
  - apply IH; auto.
Qed.

(** ** Every input sequence has a run *)

Fixpoint evalGates (gs : list gate) (e : nat -> bool) : nat -> bool :=
  match gs with
  | [] => e
  | (a, b, c) :: gs => let v := lit e b && lit e c in evalGates gs (fun x => if (x =? Nat.div2 a)%nat then v else e x)
  end.
Lemma lit_ext e e' l : e (Nat.div2 l) = e' (Nat.div2 l) -> lit e l = lit e' l.
Proof. unfold lit. destruct (Nat.div2 l); [reflexivity|now intros ->]. Qed.
Lemma lit_even e l : Nat.even l = true -> Nat.div2 l <> 0 -> lit e l = e (Nat.div2 l).
Proof. unfold lit, Nat.odd. intros ->. cbn [negb xorb]. destruct (Nat.div2 l); [now intros H; elim H|now destruct (e _)]. Qed.
Lemma evalGates_ok gs : forall (P : nat -> Prop) e, P 0 -> orderedP P gs ->
  gatesOk (evalGates gs e) gs /\ forall x, P x -> evalGates gs e x = e x.
Proof.
  induction gs as [|[[a b] c] gs IH]; intros P e H0 O; cbn [evalGates].
  - split; auto. intros a b c [].
  - cbn [orderedP] in O. destruct O as (O1 & O2 & O3 & O4 & O5).
    destruct (IH _ (fun x => if (x =? Nat.div2 a)%nat then lit e b && lit e c else e x) (or_introl H0) O5) as [I1 I2].
    assert (B : forall x, P x -> (x =? Nat.div2 a)%nat = false) by (intros x Hx; apply Nat.eqb_neq; intros ->; auto).
    split.
    + intros a' b' c' [E|H]; [injection E as <- <- <-|now apply I1].
      rewrite (lit_even _ a) by (auto; intros E0; apply O2; now rewrite E0). rewrite I2 by now right. rewrite Nat.eqb_refl.
      f_equal; apply lit_ext; rewrite I2 by (now left); cbn beta; now rewrite B.
    + intros x Hx. rewrite I2 by now left. now rewrite B.
Qed.

Section RUN.
  Variable A : aig.
  Variable gs : list gate.
  Hypothesis Ev : Forall (fun l => Nat.even l = true) (a_inputs A ++ map fst (a_latches A)).
  Hypothesis NDb : NoDup (base_vars A).
  Hypothesis Pm : Permutation gs (a_ands A).
  Hypothesis Od : ordered (base_vars A) gs.
  Variable X : nat -> nat -> bool.

  Fixpoint lookI (ls : list nat) (j : nat) (x : nat) : option nat :=
    match ls with [] => None | l :: ls => if (x =? Nat.div2 l)%nat then Some j else lookI ls (S j) x end.
  Fixpoint lookL (ls : list (nat * nat)) (x : nat) : option nat :=
    match ls with [] => None | (l, n) :: ls => if (x =? Nat.div2 l)%nat then Some n else lookL ls x end.
  Definition base (t : nat) (prev : option (nat -> bool)) (x : nat) : bool :=
    match lookI (a_inputs A) 0 x with
    | Some j => X t j
    | None => match lookL (a_latches A) x, prev with Some n, Some e => lit e n | _, _ => false end
    end.
  Fixpoint runOf (t : nat) : nat -> bool :=
    match t with
    | O => evalGates gs (base 0 None)
    | S t' => let e := runOf t' in evalGates gs (base t (Some e))
    end.

  Lemma lookI_nth ls : forall k j l, NoDup (map Nat.div2 ls) -> nth_error ls j = Some l -> lookI ls k (Nat.div2 l) = Some (k + j).
  Proof.
    induction ls as [|a ls IH]; intros k j l N H; [destruct j; discriminate|]. inversion N as [|y m N1 N2]; subst. destruct j as [|j]; cbn in *.
    - injection H as ->. rewrite Nat.eqb_refl. f_equal. lia.
    - destruct (Nat.eqb_spec (Nat.div2 l) (Nat.div2 a)) as [E|].
      + elim N1. rewrite <- E. apply in_map. eapply nth_error_In; eauto.
      + rewrite (IH (S k) j l) by auto. f_equal. lia.
  Qed.
  Lemma lookI_none ls k x : ~ In x (map Nat.div2 ls) -> lookI ls k x = None.
  Proof.
    revert k. induction ls as [|a ls IH]; intros k H; cbn; auto. destruct (Nat.eqb_spec x (Nat.div2 a)).
    - elim H. now left.
    - apply IH. intros I. apply H. now right.
  Qed.
  Lemma lookL_in ls l n : NoDup (map Nat.div2 (map fst ls)) -> In (l, n) ls -> lookL ls (Nat.div2 l) = Some n.
  Proof.
    induction ls as [|[a b] ls IH]; intros N H; [destruct H|]. inversion N as [|y m N1 N2]; subst. cbn. destruct H as [E|H].
    - injection E as -> ->. now rewrite Nat.eqb_refl.
    - destruct (Nat.eqb_spec (Nat.div2 l) (Nat.div2 a)) as [E|]; auto. elim N1. cbn. rewrite <- E. apply in_map. apply (in_map fst _ _ H).
  Qed.

  Lemma NDboth : ~ In 0 (map Nat.div2 (a_inputs A ++ map fst (a_latches A))) /\ NoDup (map Nat.div2 (a_inputs A)) /\
    NoDup (map Nat.div2 (map fst (a_latches A))) /\ forall x, In x (map Nat.div2 (a_inputs A)) -> ~ In x (map Nat.div2 (map fst (a_latches A))).
  Proof.
    unfold base_vars in NDb. inversion NDb as [|y m N1 N2]; subst. split; auto. rewrite map_app in N2. clear N1 NDb Od.
    induction (map Nat.div2 (a_inputs A)) as [|a l IH]; cbn in *.
    - split; [constructor|]. split; auto.
    - inversion N2 as [|y m N3 N4]; subst. destruct (IH N4) as (I1 & I2 & I3). rewrite in_app_iff in N3. split; [constructor; tauto|].
      split; auto. intros x [<-|H]; [tauto|auto].
  Qed.

  Lemma runOf_run : is_run A runOf /\ with_inputs A runOf X.
  Proof.
    destruct NDboth as (Z & NI & NL & Dj). rewrite Forall_forall in Ev.
    assert (O : orderedP (fun x => In x (base_vars A)) gs) by now apply orderedP_ordered.
    assert (V : forall t, exists prev, runOf t = evalGates gs (base t prev) /\ match t with O => prev = None | S t' => prev = Some (runOf t') end).
    { intros [|t]; [exists None|exists (Some (runOf t))]; auto. }
    assert (B : forall t prev x, In x (base_vars A) -> evalGates gs (base t prev) x = base t prev x).
    { intros t prev x Hx. apply (evalGates_ok gs _ _ (or_introl eq_refl) O). exact Hx. }
    assert (NZ : forall l, In l (a_inputs A ++ map fst (a_latches A)) -> Nat.div2 l <> 0).
    { intros l Hl E. apply Z. rewrite <- E. now apply in_map. }
    split; [split|].
    - intros l n H. assert (Hl : In l (map fst (a_latches A))) by apply (in_map fst _ _ H).
      assert (Hb : In l (a_inputs A ++ map fst (a_latches A))) by (apply in_app_iff; auto).
      assert (Hv : In (Nat.div2 l) (base_vars A)) by (right; now apply in_map).
      assert (Hn : lookI (a_inputs A) 0 (Nat.div2 l) = None).
      { apply lookI_none. intros I. apply (Dj _ I). now apply in_map. }
      split; [|intros t]; rewrite (lit_even _ l) by auto.
      + cbn [runOf]. rewrite B by auto. unfold base. rewrite Hn. now destruct (lookL _ _).
      + cbn [runOf]. rewrite B by auto. unfold base. rewrite Hn, (lookL_in _ l n); auto.
    - intros t a b c H. destruct (V t) as (prev & -> & _). apply (evalGates_ok gs _ (base t prev) (or_introl eq_refl) O).
      eapply Permutation_in; [apply Permutation_sym, Pm|exact H].
    - intros t j l H. assert (Hi : In l (a_inputs A)) by (eapply nth_error_In; eauto).
      assert (Hb : In l (a_inputs A ++ map fst (a_latches A))) by (apply in_app_iff; auto).
      rewrite (lit_even _ l) by auto. destruct (V t) as (prev & -> & _). rewrite B by (right; now apply in_map).
      unfold base. now rewrite (lookI_nth _ 0 j l).
  Qed.
End RUN.

Lemma run_exists M A X : well_formed M A -> exists r, is_run A r /\ with_inputs A r X.
Proof. intros (E & N & (gs & P & O) & _). exists (runOf A gs X). now apply runOf_run. Qed.

(** ** Strict and loose grammar *)

Lemma gram_loosen var bound :
  (forall m f ws, gram var bound false m f ws -> forall m', m <= m' -> gram var bound true m' f ws) /\
  (forall n i fs ws, gramL var bound false n i fs ws -> i + length fs = n -> gramL var bound true n i fs ws).
Proof.
  apply (gram_mutind var bound false (fun m f ws => forall m', m <= m' -> gram var bound true m' f ws)
    (fun n i fs ws => i + length fs = n -> gramL var bound true n i fs ws)); intros; try solve [constructor; auto].
  - eapply g_buf; eauto.
  - eapply g_recall; eauto. lia.
  - apply gl_cons.
    + match goal with H : forall m', _ -> gram _ _ _ _ _ _ |- _ => apply H end. cbn [length] in *. lia.
    + match goal with H : _ -> gramL _ _ _ _ _ _ _ |- _ => apply H end. cbn [length] in *. lia.
Qed.

Lemma formulas_loosen L fs : formulas_of false L fs -> formulas_of true L fs.
Proof.
  intros F s Hs. specialize (F s Hs). induction F as [|line f ls l G F IH]; constructor; auto. now apply (proj1 (gram_loosen _ _) _ _ _ G).
Qed.
Lemma formulas_unique L fs fs' : NoDup (declared L) -> formulas_of true L fs -> formulas_of true L fs' ->
  forall s, formulaSection s = true -> fs s = fs' s.
Proof.
  intros ND F F' s Hs. specialize (F s Hs). specialize (F' s Hs). revert F'. generalize (fs' s).
  induction F as [|line f ls l G F IH]; intros l' F'; inversion F' as [|a b c d G' F'' ]; subst; auto. f_equal; auto.
  eapply (gram_unique (file_var L s)); [|exact G|exact G'].
  intros w i j [H1 _] [H2 _]. pose proof ND as N. rewrite NoDup_nth_error in N. apply N; [|congruence]. apply nth_error_Some. congruence.
Qed.

(** ** The circuit *)

Section CIRCUIT.
  Variable content : string.
  Variable L : items.
  Variable fs : section -> list fml.
  Hypothesis El : layout None (file_lines content) = Some L.
  Hypothesis ND : NoDup (declared L).
  Hypothesis F : formulas_of false L fs.
  Hypothesis SB : single_blanks L.
  Hypothesis SO : safety_only L.

  Notation K := (K L).
  Notation inputNames := (inputNames L).
  Notation theAig := (theAig L).

  Lemma text_ok M A : length (a_inputs A) = K -> length (a_outputs A) = 1 -> aag_text M A (input_names L) (outText content L M A).
  Proof.
    intros HI HO. unfold aag_text, outText. rewrite !map_app.
    exists ("aag " ++ String.concat " " (map showNat [M; length (a_inputs A); length (a_latches A); 1; length (a_ands A)]))%string,
      (map showLine (map (fun l => [l]) (a_inputs A))), (map showLine (map (fun p => [fst p; snd p]) (a_latches A))),
      (map showLine (map (fun l => [l]) (a_outputs A))), (map showLine (map gl (a_ands A))),
      (symbols "i" "" 0 (linesOf SInput L) ++ symbols "i" "controllable_" (length (linesOf SInput L)) (linesOf SOutput L)).
    eexists. split; [rewrite <- !app_assoc; reflexivity|]. split; [|split; [|split; [|split; [|split; [|split]]]]].
    - eexists. split; [reflexivity|]. rewrite HO. apply numbers_show.
    - apply (show_lines (fun l => [l])).
    - apply (show_lines (fun p : nat * nat => [fst p; snd p])).
    - apply (show_lines (fun l => [l])).
    - apply show_gates.
    - rewrite HI. unfold input_names, K, AigRun.inputNames. now rewrite !app_length, map_length.
    - unfold input_names. rewrite app_length, seq_app, map_length.
      assert (C : forall (a : list nat) (b : list string) a' b', length a = length b -> combine (a ++ a') (b ++ b') = combine a b ++ combine a' b').
      { induction a as [|x a IH]; intros [|y b] a' b' H; try discriminate; auto. cbn. f_equal. apply IH. now injection H. }
      rewrite C by apply seq_length. apply Forall2_app.
      + pose proof (symbols_spec "" (linesOf SInput L) 0) as S1. change (append "") with (fun x : string => x) in S1.
        rewrite map_id in S1. exact S1.
      + apply symbols_spec.
  Qed.

  Section SHAPE.
    Variables gEI gET gSI gST v1 v2 v4 v5 n1 n2 n4 n5 : nat.
    Variables gs1 gs2 gs4 gs5 : list gate.
    Hypothesis Y1 : yields (P0 L) (2 * K + 5) 0 gEI v1 n1 gs1.
    Hypothesis Y2 : yields (P2 L v1) v1 n1 gET v2 n2 gs2.
    Hypothesis Y4 : yields (P4 L v2) (v2 + 3) (n2 + 4) gSI v4 n4 gs4.
    Hypothesis Y5 : yields (P5 L v2 v4) v4 n4 gST v5 n5 gs5.
    Notation A := (theAig gEI gET gSI gST v2 v5 gs1 gs2 gs4 gs5).

    Lemma base_eq : base_vars A = 0 :: seq 3 K ++ 2 :: seq (K + 6) K ++ [K + 3].
    Proof.
      unfold base_vars. f_equal. cbn [theAig a_inputs a_latches map fst]. rewrite !map_app. cbn [map]. rewrite !map_app. cbn [map].
      cbn [fst]. rewrite latchPairs_fst, !inputLits_vars, div2_2. replace (S (K + 5)) with (K + 6) by lia. reflexivity.
    Qed.
    Lemma base_P0 x : In x (base_vars A) <-> P0 L x.
    Proof.
      rewrite base_eq. unfold P0. cbn [In]. rewrite !in_app_iff. cbn [In]. rewrite in_app_iff, !in_seq. cbn [In]. lia.
    Qed.
    Definition evalOrder : list gate :=
      gs1 ++ gs2 ++ monO ((K + 4) * 2) (S ((K + 3) * 2)) ((v2 + 1) * 2) v2 gEI gET 4 ++
      gs4 ++ gs5 ++ monO ((K + 5) * 2) ((K + 4) * 2) (S ((v5 + 1) * 2)) v5 gSI gST 4.
    Lemma evalOrder_perm : Permutation evalOrder (a_ands A).
    Proof.
      unfold evalOrder. cbn [theAig a_ands]. repeat first [apply mon_perm|apply Permutation_app_head|apply Permutation_app]; reflexivity.
    Qed.

    Lemma mon_ordered (P : nat -> Prop) t o s v gI gT : Nat.even t = true -> ~ P (Nat.div2 t) ->
      (forall x, P x -> x <= v) -> Nat.div2 t <= v ->
      P (Nat.div2 gI) -> P (Nat.div2 gT) -> P 2 -> P (Nat.div2 o) -> Nat.div2 s = v + 1 ->
      orderedP P (monO t o s v gI gT 4).
    Proof.
      intros E N B T I1 I2 I3 I4 I5. unfold monO. cbn [orderedP]. rewrite !even_2, !div2_2, !div2_2', !flip_div2.
      assert (N1 : ~ P (v + 1)) by (intros H; apply B in H; lia). assert (N2 : ~ P (v + 2)) by (intros H; apply B in H; lia).
      assert (N3 : ~ P (v + 3)) by (intros H; apply B in H; lia).
      change (Nat.div2 4) with 2.
      repeat split; auto; try (intros X; repeat destruct X as [X|X]; subst; (now auto) || lia).
    Qed.

    Lemma V12 : 2 * K + 5 <= v1 <= v2.
    Proof. destruct Y1 as (-> & _), Y2 as (-> & _). lia. Qed.
    Lemma V45 : v2 + 3 <= v4 <= v5.
    Proof. destruct Y4 as (-> & _), Y5 as (-> & _). lia. Qed.
    Lemma gvars P v n g v' n' gs : yields P v n g v' n' gs -> forall x, In x (map gvar gs) <-> v < x <= v'.
    Proof. intros (-> & _ & -> & _) x. rewrite in_seq. lia. Qed.
    Lemma yordered P v n g v' n' gs (Q : nat -> Prop) : yields P v n g v' n' gs -> (forall x, P x <-> Q x) -> orderedP Q gs.
    Proof. intros (_ & _ & _ & H & _) E. eapply orderedP_ext; eauto. Qed.
    Lemma ygate P v n g v' n' gs : yields P v n g v' n' gs -> P (Nat.div2 g) \/ v < Nat.div2 g <= v'.
    Proof. intros (_ & _ & _ & _ & H). exact H. Qed.

    Lemma evalOrder_ordered : orderedP (P0 L) evalOrder.
    Proof.
      pose proof V12 as H12. pose proof V45 as H45. unfold evalOrder.
      pose proof (gvars _ _ _ _ _ _ _ Y1) as G1. pose proof (gvars _ _ _ _ _ _ _ Y2) as G2.
      pose proof (gvars _ _ _ _ _ _ _ Y4) as G4. pose proof (gvars _ _ _ _ _ _ _ Y5) as G5.
      pose proof (ygate _ _ _ _ _ _ _ Y1) as E1. pose proof (ygate _ _ _ _ _ _ _ Y2) as E2.
      pose proof (ygate _ _ _ _ _ _ _ Y4) as E4. pose proof (ygate _ _ _ _ _ _ _ Y5) as E5.
      apply orderedP_app. split; [eapply yordered; [exact Y1|tauto]|].
      apply orderedP_app. split; [eapply yordered; [exact Y2|]; intros x; rewrite G1; unfold P2; tauto|].
      apply orderedP_app. split.
      { apply (orderedP_ext _ (fun x => P0 L x \/ 2 * K + 5 < x <= v2)); [intros x; rewrite G1, G2; unfold P0; lia|].
        unfold P2, P0 in *. apply mon_ordered; rewrite ?even_2, ?div2_2, ?div2_2'; auto; lia. }
      assert (M1 : forall x, In x (map gvar (monO ((K + 4) * 2) (S ((K + 3) * 2)) ((v2 + 1) * 2) v2 gEI gET 4)) <-> x = K + 4 \/ v2 < x <= v2 + 3).
      { intros x. unfold monO; cbn [map]; unfold gvar; cbn [fst In]. rewrite !div2_2. lia. }
      apply orderedP_app. split.
      { eapply yordered; [exact Y4|]. intros x. rewrite M1, G1, G2. unfold P4, P0. lia. }
      apply orderedP_app. split.
      { eapply yordered; [exact Y5|]. intros x. rewrite M1, G1, G2, G4. unfold P5, P4, P0. lia. }
      apply (orderedP_ext _ (fun x => P0 L x \/ x = K + 4 \/ 2 * K + 5 < x <= v5)).
      { intros x. rewrite M1, G1, G2, G4, G5. unfold P0. lia. }
      unfold P5, P4, P0 in *. apply mon_ordered; rewrite ?even_2, ?div2_2, ?div2_2'; auto; lia.
    Qed.

    Lemma ands_vars x : In x (map (fun g : gate => Nat.div2 (fst (fst g))) (a_ands A)) <->
      2 * K + 5 < x <= v5 + 3 \/ x = K + 4 \/ x = K + 5.
    Proof.
      pose proof V12 as H12. pose proof V45 as H45.
      pose proof (gvars _ _ _ _ _ _ _ Y1 x) as G1. pose proof (gvars _ _ _ _ _ _ _ Y2 x) as G2.
      pose proof (gvars _ _ _ _ _ _ _ Y4 x) as G4. pose proof (gvars _ _ _ _ _ _ _ Y5 x) as G5.
      cbn [theAig a_ands]. rewrite !map_app, !in_app_iff. change (fun g : gate => Nat.div2 (fst (fst g))) with gvar.
      rewrite G1, G2, G4, G5. unfold monG; cbn [map]; unfold gvar; cbn [fst In]. rewrite !div2_2. lia.
    Qed.

    Lemma shape_wf : well_formed ((v5 + 3) * 2) A.
    Proof.
      assert (AV : forall x, In x (all_vars A) <-> P0 L x \/ 2 * K + 5 < x <= v5 + 3 \/ x = K + 4 \/ x = K + 5).
      { intros x. unfold all_vars. rewrite in_app_iff, base_P0, ands_vars. tauto. }
      pose proof V12. pose proof V45. split; [|split; [|split; [|split]]].
      - cbn [theAig a_inputs a_latches map fst]. rewrite map_app, latchPairs_fst. cbn [map fst].
        apply Forall_app. split; [apply inputLits_even|]. constructor; [reflexivity|]. apply Forall_app. split; [apply inputLits_even|].
        constructor; [apply even_2|constructor].
      - rewrite base_eq. constructor.
        + rewrite in_app_iff. cbn [In]. rewrite in_app_iff, !in_seq. cbn [In]. lia.
        + apply NoDup_app_disj; [apply seq_NoDup| |].
          * constructor; [rewrite in_app_iff, in_seq; cbn [In]; lia|]. apply NoDup_app_disj; [apply seq_NoDup|repeat constructor; auto|].
            intros x. rewrite in_seq. cbn [In]. lia.
          * intros x. rewrite in_seq. cbn [In]. rewrite in_app_iff, in_seq. cbn [In]. lia.
      - exists evalOrder. split; [apply evalOrder_perm|]. apply orderedP_ordered. eapply orderedP_ext; [|exact evalOrder_ordered].
        intros x. symmetry. apply base_P0.
      - cbn [theAig a_latches a_outputs map snd]. rewrite map_app, latchPairs_snd. cbn [map snd].
        apply Forall_forall. intros l Hl. apply AV. unfold P0. cbn [app In] in Hl. destruct Hl as [<-|Hl]; [cbn; lia|].
        rewrite !in_app_iff in Hl. cbn [In] in Hl. destruct Hl as [[Hl|[<-|[]]]|[<-|[]]]; rewrite ?div2_2, ?div2_2'; try lia.
        apply (in_map Nat.div2) in Hl. rewrite inputLits_vars, in_seq in Hl. lia.
      - apply Forall_forall. intros x Hx. apply AV in Hx. unfold P0 in Hx. lia.
    Qed.

    Variables dv dt : dict.
    Hypothesis HV : forall j w, nth_error inputNames j = Some w -> dget dv w = Some ((3 + j) * 2).
    Hypothesis HT : forall j w, nth_error inputNames j = Some w -> dget dt w = Some ((K + 6 + j) * 2) /\ dget dt (primed w) = Some ((3 + j) * 2).
    Hypothesis D1 : forall e val, valued dv (file_var L SEnvInit) e val -> gatesOk e gs1 -> lit e gEI = forallb (fun f => holds f val) (fs SEnvInit).
    Hypothesis D2 : forall e val, valued dt (file_var L SEnvTrans) e val -> gatesOk e gs2 -> lit e gET = forallb (fun f => holds f val) (fs SEnvTrans).
    Hypothesis D4 : forall e val, valued dv (file_var L SSysInit) e val -> gatesOk e gs4 -> lit e gSI = forallb (fun f => holds f val) (fs SSysInit).
    Hypothesis D5 : forall e val, valued dt (file_var L SSysTrans) e val -> gatesOk e gs5 -> lit e gST = forallb (fun f => holds f val) (fs SSysTrans).

    Variable r : nat -> nat -> bool.
    Variable pi : nat -> state.
    Hypothesis R : is_run A r.
    Hypothesis Sh : shows L A r pi.
    Notation g := (file_game L fs).

    Lemma notFirst t : lit (r t) 4 = match t with O => false | S _ => true end.
    Proof.
      destruct R as [RL _]. destruct (RL 4 1 (or_introl eq_refl)) as [H1 H2]. destruct t; [exact H1|]. rewrite H2. apply lit_1.
    Qed.
    Lemma cur t j k w : nth_error inputNames j = Some w -> nth_error (declared L) (2 * k) = Some w -> lit (r t) ((3 + j) * 2) = pi t k.
    Proof.
      intros H1 H2. apply (Sh t j k w); auto. cbn [theAig a_inputs]. rewrite inputLits_nth by (eapply names_lt; eauto). reflexivity.
    Qed.
    Lemma prev t j k w : nth_error inputNames j = Some w -> nth_error (declared L) (2 * k) = Some w -> lit (r (S t)) ((K + 6 + j) * 2) = pi t k.
    Proof.
      intros H1 H2. rewrite <- (cur t j k w H1 H2). destruct R as [RL _].
      apply (RL ((K + 6 + j) * 2) ((3 + j) * 2)). cbn [theAig a_latches]. right. apply in_app_iff. left.
      pose proof (latchPairs_in K (K + 5) 2 j (names_lt L j w H1)) as I. replace (K + 5 + 1 + j) with (K + 6 + j) in I by lia. exact I.
    Qed.

    Lemma valued_now s t : may_use s true true = false -> may_use s false true = false -> valued dv (file_var L s) (r t) (valuation (pi t) (pi t)).
    Proof.
      intros M1 M2 w i l Hv Hd. assert (E : Nat.even i = true).
      { destruct Hv as [_ Hv]. unfold Nat.odd in Hv. destruct (Nat.even i); auto. cbn [negb] in Hv. destruct (nth _ _ _); congruence. }
      destruct (var_even L s w i Hv E) as (j & Hj & Ei). rewrite (HV _ _ Hj) in Hd. assert (l = (3 + j) * 2) as -> by congruence.
      rewrite (cur t j (Nat.div2 i) w Hj). 2: { rewrite <- Ei. apply Hv. }
      unfold valuation. now rewrite E.
    Qed.
    Lemma valued_step s t : valued dt (file_var L s) (r (S t)) (valuation (pi t) (pi (S t))).
    Proof.
      intros w i l Hv Hd. unfold valuation. destruct (Nat.even i) eqn:E.
      - destruct (var_even L s w i Hv E) as (j & Hj & Ei). rewrite (proj1 (HT _ _ Hj)) in Hd. assert (l = (K + 6 + j) * 2) as -> by congruence.
        apply (prev t j (Nat.div2 i) w Hj). rewrite <- Ei. apply Hv.
      - destruct (var_odd L ND s w i Hv E) as (j & x & Hj & -> & Hx). rewrite (proj2 (HT _ _ Hj)) in Hd. assert (l = (3 + j) * 2) as -> by congruence.
        now apply (cur (S t) j (Nat.div2 i) x Hj).
    Qed.

    Lemma gatesAt t gs : (forall x, In x gs -> In x (a_ands A)) -> gatesOk (r t) gs.
    Proof. intros H a b c I. destruct R as [_ RG]. apply RG. now apply H. Qed.

    Lemma assume t : lit (r t) ((K + 4) * 2) =
      lit (r t) (S ((K + 3) * 2)) && match t with O => g_initE g (pi 0) | S t' => g_safeE g (pi t') (pi t) end.
    Proof.
      destruct (lit_mon (r t) ((K + 4) * 2) (S ((K + 3) * 2)) ((v2 + 1) * 2) v2 gEI gET 4) as [-> ->].
      { apply gatesAt. intros x Hx. cbn [theAig a_ands]. rewrite !in_app_iff. tauto. }
      f_equal. rewrite notFirst. destruct t as [|t].
      - apply D1; [now apply valued_now|]. apply gatesAt. intros x Hx. cbn [theAig a_ands]. rewrite !in_app_iff. tauto.
      - apply D2; [apply valued_step|]. apply gatesAt. intros x Hx. cbn [theAig a_ands]. rewrite !in_app_iff. tauto.
    Qed.
    Lemma fails t : lit (r t) ((K + 5) * 2) =
      lit (r t) ((K + 4) * 2) && negb match t with O => g_initS g (pi 0) | S t' => g_safeS g (pi t') (pi t) end.
    Proof.
      destruct (lit_mon (r t) ((K + 5) * 2) ((K + 4) * 2) (S ((v5 + 1) * 2)) v5 gSI gST 4) as [H1 H2].
      { apply gatesAt. intros x Hx. cbn [theAig a_ands]. rewrite !in_app_iff. tauto. }
      rewrite H1, lit_odd, H2. f_equal. f_equal. rewrite notFirst. destruct t as [|t].
      - apply D4; [now apply valued_now|]. apply gatesAt. intros x Hx. cbn [theAig a_ands]. rewrite !in_app_iff. tauto.
      - apply D5; [apply valued_step|]. apply gatesAt. intros x Hx. cbn [theAig a_ands]. rewrite !in_app_iff. tauto.
    Qed.
    Lemma ok_so_far t : lit (r t) ((K + 4) * 2) = true <->
      g_initE g (pi 0) = true /\ forall m, m < t -> g_safeE g (pi m) (pi (S m)) = true.
    Proof.
      destruct R as [RL _]. destruct (RL ((K + 3) * 2) (S ((K + 4) * 2))) as [L0 LS].
      { cbn [theAig a_latches]. right. apply in_app_iff. right. now left. }
      induction t as [|t IH]; rewrite assume, lit_odd.
      - rewrite L0. cbn [negb andb]. split; [intros H; split; auto; lia|tauto].
      - rewrite LS, lit_odd, negb_involutive, andb_true_iff, IH. split.
        + intros [[H1 H2] H3]. split; auto. intros m Hm. destruct (Nat.eq_dec m t) as [->|]; auto. apply H2. lia.
        + intros [H1 H2]. repeat split; auto.
    Qed.

    Lemma raised t : lit (r t) ((K + 5) * 2) = true <-> violated_at g pi t.
    Proof.
      rewrite fails, andb_true_iff, negb_true_iff, ok_so_far. unfold violated_at. destruct t as [|t].
      - split; [tauto|]. intros [H1 H2]. repeat split; auto. lia.
      - split.
        + intros [[H1 H2] H3]. repeat split; auto. intros m Hm. apply H2. lia.
        + intros [H1 [H2 H3]]. repeat split; auto. intros m Hm. apply H2. lia.
    Qed.
  End SHAPE.

  Lemma circuit : exists lines M A err,
    aigMain content = TOk lines /\ aag_text M A (input_names L) lines /\ well_formed M A /\
    a_inputs A = inputLits 2 K /\ a_outputs A = [err] /\
    forall r pi, is_run A r -> shows L A r pi -> forall t, lit (r t) err = true <-> violated_at (file_game L fs) pi t.
  Proof.
    destruct SO as [NE NS].
    destruct (aigMain_spec content L fs El ND F SB NE NS) as
      (gEI & gET & gSI & gST & v1 & v2 & v4 & v5 & n1 & n2 & n4 & n5 & gs1 & gs2 & gs4 & gs5 & dv & dt & E & Y1 & Y2 & Y4 & Y5 & HV & HT & D1 & D2 & D4 & D5).
    exists (outText content L ((v5 + 3) * 2) (theAig gEI gET gSI gST v2 v5 gs1 gs2 gs4 gs5)), ((v5 + 3) * 2), (theAig gEI gET gSI gST v2 v5 gs1 gs2 gs4 gs5), ((K + 5) * 2). split; [exact E|]. split; [|split; [|split; [reflexivity|split; [reflexivity|]]]].
    - apply text_ok; [|reflexivity]. cbn [theAig a_inputs]. apply inputLits_length.
    - eapply shape_wf; eauto.
    - intros r pi HR HS t. eapply raised; eauto.
  Qed.
End CIRCUIT.
