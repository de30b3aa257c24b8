(** * Estimators: the printed formulas can be read again *)

From Coq Require Import String Ascii Arith NArith List Bool Lia.
From Verif Require Import BDD FormulaSpec FileSpec VarTypes Parser ParserProofs Explicit OutputSpec OutputProofs SymbolicProofs EstimatorSpec Estimator.
Import ListNotations.
Open Scope string_scope.

(** ** Words *)
Lemma words_nonempty a s : isWs a = false -> words (String a s) <> [].
Proof.
  intros H. cbn [words]. rewrite H. destruct s as [|b s]; [discriminate|]. destruct (isWs b); [discriminate|].
  destruct (words (String b s)); discriminate.
Qed.
Lemma words_sep a b : words (a ++ String " " b) = (words a ++ words b)%list.
Proof.
  induction a as [|x a IH]; [reflexivity|]. change (String x a ++ String " " b) with (String x (a ++ String " " b)).
  destruct (isWs x) eqn:Ex.
  - cbn [words]. rewrite Ex. exact IH.
  - destruct a as [|y a].
    + cbn [append words]. rewrite Ex. reflexivity.
    + change (String y a ++ String " " b) with (String y (a ++ String " " b)) in *.
      cbn [words] in *. rewrite Ex. destruct (isWs y) eqn:Ey; [cbn [app]; now rewrite IH|].
      rewrite IH. pose proof (words_nonempty y a Ey) as W. cbn [words] in W. rewrite Ey in W.
      match goal with |- context[(?l ++ words b)%list] => destruct l; [now elim W|reflexivity] end.
Qed.
Definition word (w : string) : Prop := words w = [w].
Lemma word_digits w : w <> "" -> allDigits w = true -> word w.
Proof.
  unfold word. induction w as [|a w IH]; [now intros H|]. intros _. cbn [allDigits]. rewrite andb_true_iff. intros [Ha Hw].
  assert (W : forall x, isDigit x = true -> isWs x = false).
  { intros x Hx. unfold isDigit, isWs in *. destruct (nat_of_ascii x =? 32)%nat eqn:E1; [apply Nat.eqb_eq in E1; rewrite E1 in Hx; discriminate|].
    apply andb_true_iff in Hx. destruct Hx as [Hx _]. apply Nat.leb_le in Hx. cbn [orb]. apply andb_false_iff. right. apply Nat.leb_gt. lia. }
  cbn [words]. rewrite (W a Ha). destruct w as [|b w]; [reflexivity|]. pose proof Hw as Hw'. cbn [allDigits] in Hw'.
  apply andb_true_iff in Hw'. rewrite (W b (proj1 Hw')). rewrite (IH ltac:(discriminate) Hw). reflexivity.
Qed.
Lemma word_show n : word (showNat n).
Proof. destruct (showNat_number n) as [(H1 & H2 & _) _]. now apply word_digits. Qed.
Lemma numeral_show n : numeral (showNat n) (N.of_nat n).
Proof. destruct (showNat_number n) as [H _]. exact H. Qed.

(** ** Variables that matter *)
Definition mentions (f : BF) (v : nat) : Prop := exists e, eval f (upd e v true) <> eval f (upd e v false).

Lemma mentions_dep P f v : dep P f -> mentions f v -> ~ ~ P v.
Proof.
  intros D (e & E) H. apply E. apply D. intros w Pw. destruct (Nat.eq_dec w v) as [->|Nw]; [contradiction|]. now rewrite !upd_other.
Qed.
Lemma upd_comm e v w a b : v <> w -> forall x, upd (upd e v a) w b x = upd (upd e w b) v a x.
Proof.
  intros N x. destruct (Nat.eq_dec x v) as [->|Nv]; [rewrite upd_other, !upd_same by auto; reflexivity|].
  destruct (Nat.eq_dec x w) as [->|Nw]; [rewrite upd_same, upd_other, upd_same by auto; reflexivity|]. now rewrite !upd_other.
Qed.

(** Cofactors. *)
Lemma cofactor v b f e : eval (bexists [v] (band f (if b : bool then bvar v else bnot (bvar v)))) e = eval f (upd e v b).
Proof.
  apply eq_true_iff_eq. rewrite eval_exists. split.
  - intros (e' & A & E). rewrite eval_and, andb_true_iff in E. destruct E as [E1 E2]. rewrite <- E1. apply eval_ext. intros w.
    destruct (Nat.eq_dec w v) as [->|Nw].
    + rewrite upd_same. destruct b; rewrite ?eval_not, eval_var in E2; destruct (e' v); auto; discriminate.
    + rewrite upd_other by auto. apply A. intros [->|[]]. now elim Nw.
  - intros E. exists (upd e v b). split.
    + intros w Hw. rewrite upd_other; auto. intros ->. apply Hw. now left.
    + rewrite eval_and, E. destruct b; rewrite ?eval_not, eval_var, upd_same; reflexivity.
Qed.
Lemma mentions_cofactor v b f w g : (forall e, eval g e = eval f (upd e v b)) -> mentions g w -> mentions f w /\ w <> v.
Proof.
  intros G (e & E). rewrite !G in E.
  assert (N : w <> v). { intros ->. apply E. apply eval_ext. intros x. unfold upd. now destruct (Nat.eqb x v). }
  split; [|exact N]. exists (upd e v b). intros X. apply E.
  rewrite (eval_ext f _ _ (upd_comm e w v true b N)), (eval_ext f _ _ (upd_comm e w v false b N)). exact X.
Qed.

Lemma root_mentioned f v : rootOf f = Some v -> mentions f v.
Proof.
  unfold rootOf. destruct f as [t ok]. cbn [bft]. destruct t as [b|v' l h]; [discriminate|]. intros E. injection E as ->.
  pose proof ok as R. cbn [robdd] in R. rewrite !andb_true_iff, negb_true_iff in R. destruct R as [[[_ Rl] Rh] N].
  pose proof (robdd_weaken l (S v) 0 ltac:(lia) Rl) as Rl0. pose proof (robdd_weaken h (S v) 0 ltac:(lia) Rh) as Rh0.
  assert (X : isFalse (bxor (mkBF l Rl0) (mkBF h Rh0)) = false).
  { destruct (isFalse _) eqn:E; auto. rewrite isFalse_spec in E. exfalso.
    assert (F : mkBF l Rl0 = mkBF h Rh0) by (apply bf_ext; intros e; specialize (E e); rewrite eval_xor in E; now apply xorb_eq).
    injection F as F. apply tree_eqb_neq in N. contradiction. }
  apply isFalse_false in X. destruct X as (e & X). exists e. unfold eval. cbn [bft teval]. rewrite !upd_same.
  rewrite (teval_upd_lt h (S v) v true e Rh ltac:(lia)), (teval_upd_lt l (S v) v false e Rl ltac:(lia)).
  rewrite eval_xor in X. unfold eval in X. cbn [bft] in X. destruct (teval l e), (teval h e); try discriminate; cbn in X; congruence.
Qed.
Lemma root_least f v w : rootOf f = Some v -> mentions f w -> v <= w.
Proof.
  unfold rootOf. destruct f as [t ok]. cbn [bft]. destruct t as [b|v' l h]; [discriminate|]. intros E. injection E as ->.
  intros (e & X). destruct (Nat.le_gt_cases v w) as [L|L]; auto. exfalso. apply X. unfold eval. cbn [bft].
  assert (R : robdd v (Node v l h) = true).
  { pose proof ok as O. cbn [robdd] in O |- *. rewrite !andb_true_iff in O |- *. rewrite Nat.leb_refl. tauto. }
  rewrite !(teval_upd_lt _ v w) by assumption. reflexivity.
Qed.
Lemma root_none f : rootOf f = None -> f = btrue \/ f = bfalse.
Proof.
  unfold rootOf. intros E. apply isConstant_spec. unfold isConstant. destruct (bft f); auto. discriminate.
Qed.

(** ** The printed parts *)
Section PRINT.
  Variable names : list string.

  Lemma lookup_in nodes f k : lookupNode nodes f = Some k -> In (f, k) nodes.
  Proof.
    induction nodes as [|[g j] nodes IH]; [discriminate|]. cbn [lookupNode]. destruct (bf_eqb_spec g f) as [->|].
    - intros E. injection E as ->. now left.
    - intros E. right. auto.
  Qed.

  (** Printing ends: the variables at the roots increase. *)
  Definition rank (f : BF) : nat := match rootOf f with None => 0 | Some v => S (length names) - v end.
  Lemma rank_cofactor f v b g : rootOf f = Some v -> (forall w, mentions f w -> w < length names) ->
    (forall e, eval g e = eval f (upd e v b)) -> rank g < rank f.
  Proof.
    intros R H G. pose proof (H v (root_mentioned f v R)) as Lv. unfold rank at 2. rewrite R. unfold rank.
    destruct (rootOf g) as [w|] eqn:Rg; [|lia]. destruct (mentions_cofactor v b f w g G (root_mentioned g w Rg)) as [M N].
    pose proof (root_least f v w R M). pose proof (H w M). lia.
  Qed.
  Lemma print_total fuel : forall f st, rank f < fuel -> (forall w, mentions f w -> w < length names) ->
    exists r, printRec fuel names f st = Some r.
  Proof.
    induction fuel as [|fuel IH]; intros f st L H; [lia|]. cbn [printRec].
    destruct (lookupNode (fst st) f); [eauto|]. destruct (isFalse f) eqn:EF; [eauto|]. destruct (isTrue f) eqn:ET; [eauto|].
    destruct (rootOf f) as [v|] eqn:R.
    2: { destruct (root_none f R) as [->| ->]; discriminate. }
    pose proof (cofactor v true f) as CT. pose proof (cofactor v false f) as CF. cbv beta iota in CT, CF.
    destruct (IH (bexists [v] (band f (bvar v))) st) as ([qT stT] & ->).
    { pose proof (rank_cofactor f v true _ R H CT). lia. }
    { intros w M. apply H. now apply (mentions_cofactor v true f w _ CT). }
    destruct (IH (bexists [v] (band f (bnot (bvar v)))) stT) as ([qF stF] & ->).
    { pose proof (rank_cofactor f v false _ R H CF). lia. }
    { intros w M. apply H. now apply (mentions_cofactor v false f w _ CF). }
    eauto.
  Qed.
  Lemma rank_le f : rank f <= S (length names).
  Proof. unfold rank. destruct (rootOf f); lia. Qed.

  Lemma print_mono fuel : forall f st k st', printRec fuel names f st = Some (k, st') ->
    (exists l, snd st' = snd st ++ l)%list /\ (lookupNode (fst st) f = None -> length (snd st') = S k).
  Proof.
    induction fuel as [|fuel IH]; intros f st k st'; [discriminate|]. cbn [printRec].
    destruct (lookupNode (fst st) f) eqn:EL.
    { intros E. injection E as <- <-. split; [exists []; now rewrite app_nil_r|discriminate]. }
    assert (A : forall text, Some (length (snd st), ((f, length (snd st)) :: fst st, (snd st ++ [text])%list)) = Some (k, st') ->
      (exists l, snd st' = snd st ++ l)%list /\ (@None nat = None -> length (snd st') = S k)).
    { intros text E. injection E as <- <-. cbn [snd]. split; [eauto|]. intros _. rewrite app_length. cbn. lia. }
    destruct (isFalse f); [apply A|]. destruct (isTrue f); [apply A|]. destruct (rootOf f) as [v|]; [|discriminate].
    destruct (printRec fuel names (bexists [v] (band f (bvar v))) st) as [[qT stT]|] eqn:PT; [|discriminate].
    destruct (printRec fuel names (bexists [v] (band f (bnot (bvar v)))) stT) as [[qF stF]|] eqn:PF; [|discriminate].
    destruct (IH _ _ _ _ PT) as [[l1 E1] _]. destruct (IH _ _ _ _ PF) as [[l2 E2] _].
    intros E. injection E as <- <-. cbn [snd]. split.
    - exists (l1 ++ l2 ++ [partText (nth v names "") qT qF])%list. rewrite E2, E1. now rewrite <- !app_assoc.
    - intros _. rewrite app_length. cbn. lia.
  Qed.

  Section READ.
    Variable var : string -> nat -> Prop.
    Variable ren : nat -> nat.
    Local Notation G := (gram var uintBound false).
    Local Notation val := (fun e g => Some (eval g (fun v => e (ren v)))).

    (** [parts] can be read as the formulas [fs], which describe the functions [gs]. *)
    Inductive listing : list string -> list BF -> list fml -> Prop :=
    | listing_nil : listing [] [] []
    | listing_snoc parts gs fs p g f : listing parts gs fs -> G (length gs) f (words p) ->
        (forall e, den e (map (val e) gs) f = val e g) ->
        listing (parts ++ [p])%list (gs ++ [g])%list (fs ++ [f])%list.

    Lemma listing_length parts gs fs : listing parts gs fs -> length parts = length gs /\ length fs = length gs.
    Proof. induction 1 as [|parts gs fs p g f H IH]; auto. rewrite !app_length. cbn. lia. Qed.
    Lemma gramL_snoc n i fs ws f vs : gramL var uintBound false n i fs ws -> G (i + length fs) f vs ->
      gramL var uintBound false n i (fs ++ [f]) (ws ++ vs).
    Proof.
      induction 1 as [n i|n i g fs ws us H1 H2 IH]; intros H.
      - cbn in *. rewrite Nat.add_0_r in H. rewrite <- (app_nil_r vs). constructor; [exact H|constructor].
      - cbn [app length] in *. rewrite <- app_assoc. constructor; [exact H1|]. apply IH. now replace (S i + length fs) with (i + S (length fs)) by lia.
    Qed.
    Lemma listing_gram n parts gs fs : listing parts gs fs -> gramL var uintBound false n 0 fs (concat (map words parts)).
    Proof.
      induction 1 as [|parts gs fs p g f H IH X Y]; [constructor|]. rewrite map_app, concat_app. cbn [map concat]. rewrite app_nil_r.
      apply gramL_snoc; auto. destruct (listing_length _ _ _ H) as [_ L]. now rewrite L.
    Qed.
    Lemma denL_app e fs : forall f m last, denL e (fs ++ [f]) m last =
      den e ((fix go fs m := match fs with [] => m | f :: fs => go fs (m ++ [den e m f])%list end) fs m) f.
    Proof. induction fs as [|g fs IH]; intros f m last; cbn; auto. Qed.
    Lemma listing_mem e parts gs fs : listing parts gs fs -> 
      (fix go fs m := match fs with [] => m | f :: fs => go fs (m ++ [den e m f])%list end) fs [] = map (val e) gs.
    Proof.
      assert (S : forall fs f m, (fix go fs m := match fs with [] => m | f :: fs => go fs (m ++ [den e m f])%list end) (fs ++ [f])%list m =
        let m' := (fix go fs m := match fs with [] => m | f :: fs => go fs (m ++ [den e m f])%list end) fs m in (m' ++ [den e m' f])%list).
      { clear. induction fs as [|g fs IH]; intros f m; [reflexivity|]. cbn [app]. apply IH. }
      induction 1 as [|parts gs fs p g f H IH X Y]; [reflexivity|]. rewrite S. cbv zeta. rewrite IH, map_app, Y. reflexivity.
    Qed.
    Lemma listing_value e parts gs fs g : listing parts (gs ++ [g]) fs -> den e [] (FBuf fs) = val e g.
    Proof.
      intros H. rewrite den_buf. inversion H as [E|parts0 gs0 fs0 p g' f H0 X Y E1 E2 E3].
      - destruct gs; discriminate.
      - apply app_inj_tail in E2. destruct E2 as [-> ->]. rewrite denL_app, (listing_mem e _ _ _ H0). apply Y.
    Qed.

    (** The names of the variables that matter are words that stand for the renamed variables. *)
    Definition readable (f : BF) : Prop := forall v, mentions f v ->
      word (nth v names "") /\ reserved (nth v names "") = false /\ var (nth v names "") (ren v).

    Lemma words_part name a b : word name -> words (partText name a b) =
      ["|"; "&"; name; "?"; showNat a; "&"; "!"; name; "?"; showNat b].
    Proof.
      intros W. unfold partText. rewrite !sconcat_cons, sconcat_nil, sapp_nil.
      change ("| & " ++ name ++ " ? " ++ showNat a ++ " & ! " ++ name ++ " ? " ++ showNat b)
        with ("|" ++ String " " ("&" ++ String " " (name ++ String " " ("?" ++ String " " (showNat a ++ String " " ("&" ++ String " " ("!" ++ String " " (name ++ String " " ("?" ++ String " " (showNat b)))))))))).
      rewrite !words_sep, W, !(word_show a), !(word_show b). reflexivity.
    Qed.

    Lemma print_listing fuel : forall f st k st', printRec fuel names f st = Some (k, st') -> readable f ->
      (N.of_nat (length (snd st')) < uintBound)%N ->
      forall gs fs, listing (snd st) gs fs -> (forall g j, In (g, j) (fst st) -> nth_error gs j = Some g) ->
      exists gs' fs', listing (snd st') gs' fs' /\ (forall g j, In (g, j) (fst st') -> nth_error gs' j = Some g) /\ nth_error gs' k = Some f /\
        exists l, gs' = (gs ++ l)%list.
    Proof.
      induction fuel as [|fuel IH]; intros f st k st'; [discriminate|]. cbn [printRec].
      destruct (lookupNode (fst st) f) as [j|] eqn:EL.
      { intros E _ _ gs fs HL HN. injection E as <- <-. exists gs, fs. split; [exact HL|split; [exact HN|split]].
        - now apply HN, lookup_in.
        - exists []. now rewrite app_nil_r. }
      assert (A : forall text (st0 : list (BF * nat) * list string) F gs fs, 
        Some (length (snd st0), ((f, length (snd st0)) :: fst st0, (snd st0 ++ [text])%list)) = Some (k, st') ->
        listing (snd st0) gs fs -> (forall g j, In (g, j) (fst st0) -> nth_error gs j = Some g) ->
        G (length gs) F (words text) -> (forall e, den e (map (val e) gs) F = val e f) ->
        exists gs' fs', listing (snd st') gs' fs' /\ (forall g j, In (g, j) (fst st') -> nth_error gs' j = Some g) /\ nth_error gs' k = Some f /\
          exists l, gs' = (gs ++ l)%list).
      { intros text st0 F gs fs E HL HN HG HD. injection E as <- <-. cbn [fst snd].
        destruct (listing_length _ _ _ HL) as [Lp _].
        assert (X : nth_error (gs ++ [f])%list (length (snd st0)) = Some f).
        { rewrite Lp, nth_error_app2, Nat.sub_diag by lia. reflexivity. }
        exists (gs ++ [f])%list, (fs ++ [F])%list. split; [now constructor|]. split; [|split; [exact X|eauto]].
        intros g j [E|Hj]; [injection E as <- <-; exact X|]. apply HN in Hj. rewrite nth_error_app1; auto.
        apply nth_error_Some. congruence. }
      destruct (isFalse f) eqn:EF.
      { intros E HR HB gs fs HL HN. apply (A "0" st FFalse gs fs E HL HN); [constructor|]. intros e. apply isFalse_iff in EF. now rewrite EF. }
      destruct (isTrue f) eqn:ET.
      { intros E HR HB gs fs HL HN. apply (A "1" st FTrue gs fs E HL HN); [constructor|]. intros e. apply isTrue_iff in ET. now rewrite ET. }
      destruct (rootOf f) as [v|] eqn:R; [|discriminate].
      pose proof (cofactor v true f) as CT. pose proof (cofactor v false f) as CF. cbv beta iota in CT, CF.
      set (fT := bexists [v] (band f (bvar v))) in *. set (fF := bexists [v] (band f (bnot (bvar v)))) in *.
      destruct (printRec fuel names fT st) as [[qT stT]|] eqn:PT; [|discriminate].
      destruct (printRec fuel names fF stT) as [[qF stF]|] eqn:PF; [|discriminate].
      intros E HR HB gs fs HL HN.
      assert (LF : length (snd st') = S (length (snd stF))) by (injection E as _ <-; cbn [snd]; rewrite app_length; cbn; lia).
      destruct (print_mono _ _ _ _ _ PF) as [[l2 E2] _]. assert (LT : length (snd stT) <= length (snd stF)) by (rewrite E2, app_length; lia).
      destruct (IH fT st qT stT PT) with (gs := gs) (fs := fs) as (gs1 & fs1 & L1 & N1 & K1 & (a1 & A1)); auto.
      { intros w M. apply HR. now apply (mentions_cofactor v true f w _ CT). }
      { lia. }
      destruct (IH fF stT qF stF PF) with (gs := gs1) (fs := fs1) as (gs2 & fs2 & L2 & N2 & K2 & (a2 & A2)); auto.
      { intros w M. apply HR. now apply (mentions_cofactor v false f w _ CF). }
      { lia. }
      destruct (listing_length _ _ _ L2) as [Lp _].
      assert (K1' : nth_error gs2 qT = Some fT).
      { rewrite A2, nth_error_app1; auto. apply nth_error_Some. congruence. }
      assert (Q1 : qT < length gs2) by (apply nth_error_Some; congruence).
      assert (Q2 : qF < length gs2) by (apply nth_error_Some; congruence).
      destruct (HR v (root_mentioned f v R)) as (W & RS & V).
      destruct (A (partText (nth v names "") qT qF) stF
        (FOr (FAnd (FVar (ren v)) (FRecall qT)) (FAnd (FNot (FVar (ren v))) (FRecall qF))) gs2 fs2 E L2 N2) as (gs' & fs' & X1 & X2 & X3 & (l & X4)).
      - rewrite words_part by exact W.
        apply (g_or var uintBound false _ _ _ ["&"; nth v names ""; "?"; showNat qT] ["&"; "!"; nth v names ""; "?"; showNat qF]).
        + apply (g_and var uintBound false _ _ _ [nth v names ""] ["?"; showNat qT]); [now constructor|].
          constructor; [apply numeral_show|lia|exact Q1].
        + apply (g_and var uintBound false _ _ _ ["!"; nth v names ""] ["?"; showNat qF]); [constructor; now constructor|].
          constructor; [apply numeral_show|lia|exact Q2].
      - intros e. cbn [den]. rewrite !nth_error_map, K1', K2. cbn [option_map lift1 lift2]. f_equal.
        rewrite CT, CF. destruct (e (ren v)) eqn:Ev; cbn [negb andb orb]; rewrite ?orb_false_r; apply eval_ext; intros w;
          (destruct (Nat.eq_dec w v) as [->|Nw]; [rewrite upd_same; auto|now rewrite upd_other]).
      - exists gs', fs'. split; [exact X1|split; [exact X2|split; [exact X3|]]]. exists (a1 ++ a2 ++ l)%list.
        rewrite X4, A2, A1. now rewrite <- !app_assoc.
    Qed.
  End READ.
End PRINT.

Lemma words_parts parts : words (sconcat (map (fun p => " " ++ p) parts)) = concat (map words parts).
Proof.
  induction parts as [|p parts IH]; [reflexivity|]. cbn [map concat]. rewrite sconcat_cons, <- IH.
  destruct parts as [|q parts].
  - cbn [map]. rewrite sconcat_nil, sapp_nil, app_nil_r. reflexivity.
  - cbn [map]. rewrite sconcat_cons. change ((" " ++ q) ++ ?x) with (String " " (q ++ x)).
    change ((" " ++ p) ++ ?x) with (String " " (p ++ x)). change (words (String " " ?x)) with (words x).
    now rewrite words_sep.
Qed.

Theorem print_read names f : (forall v, mentions f v -> v < length names) ->
  exists parts text, printParts names f = Some parts /\ printFormula names f = Some text /\
    forall names' types' allowed ren ord line, (N.of_nat (length parts) < uintBound)%N ->
      readable names (var_ok names' types' allowed) ren f -> words line = words text ->
      exists b, parseFormula names' types' allowed ord line = POk (Some b) /\ forall e, eval b e = eval f (fun v => e (ren v)).
Proof.
  intros H. unfold printFormula, printParts.
  destruct (print_total names (S (S (length names))) f ([], [])) as ([k [nodes parts]] & P); auto.
  { pose proof (rank_le names f). lia. }
  rewrite P. exists parts. eexists. split; [reflexivity|]. split; [reflexivity|].
  intros names' types' allowed ren ord line HB HR HL.
  destruct (print_listing names (var_ok names' types' allowed) ren _ _ _ _ _ P HR HB [] []) as (gs & fs & L & _ & K & _); [constructor|intros g j []|].
  cbn [snd] in *. destruct (print_mono _ _ _ _ _ _ P) as [_ Len]. specialize (Len eq_refl). cbn [snd] in Len.
  destruct (listing_length _ _ _ _ _ L) as [L1 L2].
  assert (EG : exists gs0, gs = (gs0 ++ [f])%list).
  { destruct (@exists_last _ gs) as (gs0 & g & ->); [intros ->; cbn in *; lia|]. exists gs0. rewrite app_length in L1. cbn in L1.
    rewrite nth_error_app2 in K by lia. replace (k - length gs0) with 0 in K by lia. cbn in K. congruence. }
  destruct EG as (gs0 & ->).
  destruct (parse_accepts names' types' allowed ord line (FBuf fs)) as (b & E & D).
  - rewrite HL, !sconcat_cons. change ("$ " ++ ?x) with ("$" ++ String " " x). rewrite words_sep.
    assert (EW : words (showNat (length parts) ++ sconcat (map (fun p => " " ++ p) parts)) = showNat (length parts) :: concat (map words parts)).
    { rewrite <- words_parts. destruct parts as [|p parts]; [cbn in Len; lia|]. cbn [map]. rewrite sconcat_cons.
      change ((" " ++ p) ++ ?x) with (String " " (p ++ x)). rewrite words_sep, word_show. reflexivity. }
    rewrite EW. cbn [app words]. apply (g_buf _ _ _ 0 (showNat (length parts)) (length parts)); auto; [apply numeral_show|lia|lia|].
    now apply (listing_gram _ ren) with (gs := (gs0 ++ [f])%list).
  - exists b. split; [exact E|]. intros e. specialize (D e). rewrite (listing_value _ ren e _ _ _ _ L) in D. congruence.
Qed.

(** ** Lines *)
Lemma words_wsep w a b : isWs w = true -> words (a ++ String w b) = (words a ++ words b)%list.
Proof.
  intros Hw. induction a as [|x a IH]; [cbn [append words]; rewrite Hw; reflexivity|]. change (String x a ++ String w b) with (String x (a ++ String w b)).
  destruct (isWs x) eqn:Ex.
  - cbn [words]. rewrite Ex. exact IH.
  - destruct a as [|y a].
    + cbn [append words]. rewrite Ex, Hw. reflexivity.
    + change (String y a ++ String w b) with (String y (a ++ String w b)) in *.
      cbn [words] in *. rewrite Ex. destruct (isWs y) eqn:Ey; [cbn [app]; now rewrite IH|].
      rewrite IH. pose proof (words_nonempty y a Ey) as W. cbn [words] in W. rewrite Ey in W.
      match goal with |- context[(?l ++ words b)%list] => destruct l; [now elim W|reflexivity] end.
Qed.
Lemma soa_app a b : string_of_list_ascii (a ++ b) = string_of_list_ascii a ++ string_of_list_ascii b.
Proof. induction a as [|x a IH]; [reflexivity|]. cbn. now rewrite IH. Qed.
Lemma words_drop l : words (string_of_list_ascii (dropWs l)) = words (string_of_list_ascii l).
Proof. induction l as [|a l IH]; [reflexivity|]. cbn [dropWs]. destruct (isWs a) eqn:E; [|reflexivity]. rewrite IH. cbn [string_of_list_ascii words]. now rewrite E. Qed.
Lemma words_dropRight l : words (string_of_list_ascii (rev (dropWs l))) = words (string_of_list_ascii (rev l)).
Proof.
  induction l as [|a l IH]; [reflexivity|]. cbn [dropWs]. destruct (isWs a) eqn:E; [|reflexivity].
  rewrite IH. cbn [rev]. rewrite soa_app. cbn [string_of_list_ascii]. rewrite words_wsep by exact E. cbn [words]. now rewrite app_nil_r.
Qed.
Lemma words_strip s : words (strip s) = words s.
Proof. unfold strip. rewrite words_dropRight, rev_involutive, words_drop. now rewrite string_of_list_ascii_of_string. Qed.

Lemma word_noNl w : word w -> noNl w.
Proof.
  unfold word. intros H a Ha ->. apply in_split in Ha. destruct Ha as (l1 & l2 & E).
  assert (E' : w = string_of_list_ascii l1 ++ String "010" (string_of_list_ascii l2)).
  { rewrite <- (string_of_list_ascii_of_string w), E, soa_app. reflexivity. }
  assert (W : words w = (words (string_of_list_ascii l1) ++ words (string_of_list_ascii l2))%list) by (rewrite E'; now apply words_wsep).
  (* none of the words is as long as the whole string *)
  assert (X : forall s v, In v (words s) -> String.length v <= String.length s).
  { clear. induction s as [|a s IH]; intros v Hv; [destruct Hv|]. cbn [words] in Hv. destruct (isWs a); [apply IH in Hv; cbn; lia|].
    destruct s as [|b s]; [destruct Hv as [<-|[]]; cbn; lia|]. destruct (isWs b).
    - destruct Hv as [<-|Hv]; [cbn; lia|]. apply IH in Hv. cbn [String.length] in *. lia.
    - destruct (words (String b s)) as [|v0 vs]; [destruct Hv as [<-|[]]; cbn; lia|]. destruct Hv as [<-|Hv].
      + specialize (IH v0 (or_introl eq_refl)). cbn [String.length] in *. lia.
      + specialize (IH v (or_intror Hv)). cbn [String.length] in *. lia. }
  assert (I : In w (words (string_of_list_ascii l1) ++ words (string_of_list_ascii l2))) by (rewrite <- W, H; now left).
  assert (LN : String.length w = String.length (string_of_list_ascii l1) + S (String.length (string_of_list_ascii l2))).
  { rewrite E' at 1. clear. induction (string_of_list_ascii l1) as [|a s IH]; cbn in *; auto. }
  apply in_app_or in I. destruct I as [I|I]; apply X in I; lia.
Qed.

(** What the parts look like. *)
Lemma print_parts names fuel : forall f st k st', printRec fuel names f st = Some (k, st') ->
  forall P : string -> Prop, P "0" -> P "1" -> (forall v a b, mentions f v -> P (partText (nth v names "") a b)) ->
  Forall P (snd st) -> Forall P (snd st').
Proof.
  induction fuel as [|fuel IH]; intros f st k st'; [discriminate|]. cbn [printRec]. intros E P P0 P1 PV HF.
  destruct (lookupNode (fst st) f) eqn:EL; [injection E as <- <-; auto|].
  assert (SN : forall l x, Forall P l -> P x -> Forall P (l ++ [x])) by (intros l x H1 H2; apply Forall_app; auto).
  destruct (isFalse f); [injection E as <- <-; cbn; auto|]. destruct (isTrue f); [injection E as <- <-; cbn; auto|].
  destruct (rootOf f) as [v|] eqn:ER; [|discriminate].
  destruct (printRec fuel names (bexists [v] (band f (bvar v))) st) as [[qT stT]|] eqn:PT; [|discriminate].
  destruct (printRec fuel names (bexists [v] (band f (bnot (bvar v)))) stT) as [[qF stF]|] eqn:PF; [|discriminate].
  injection E as <- <-. cbn [snd]. apply SN; [|apply PV, root_mentioned, ER].
  apply (IH _ _ _ _ PF); auto.
  - intros w a b Hw. apply PV. apply (mentions_cofactor v false f w _ (cofactor v false f) Hw).
  - apply (IH _ _ _ _ PT); auto. intros w a b Hw. apply PV. apply (mentions_cofactor v true f w _ (cofactor v true f) Hw).
Qed.
Lemma print_noNl names f text : printFormula names f = Some text -> (forall v, mentions f v -> word (nth v names "")) ->
  noNl text /\ exists r, text = String "$" r.
Proof.
  unfold printFormula, printParts. destruct (printRec _ names f ([], [])) as [[k [nodes parts]]|] eqn:P; [|discriminate].
  intros E H. injection E as <-. rewrite !sconcat_cons. split; [|eexists; reflexivity].
  apply noNl_app; [apply noNl_lit; reflexivity|]. apply noNl_app; [apply noNl_show|].
  assert (F : Forall noNl parts).
  { apply (print_parts _ _ _ _ _ _ P); [apply noNl_lit; reflexivity|apply noNl_lit; reflexivity| |constructor].
    intros v a b Hv. unfold partText. rewrite !sconcat_cons, sconcat_nil. pose proof (word_noNl _ (H v Hv)) as W.
    repeat (apply noNl_app; [first [exact W|apply noNl_show|apply noNl_lit; reflexivity]|]). intros x []. }
  clear P. induction F as [|p ps Hp F IH]; [intros x []|]. cbn [map]. rewrite sconcat_cons. apply noNl_app; [|exact IH].
  apply (noNl_app " " p); [|exact Hp]. apply noNl_lit. reflexivity.
Qed.
Lemma strip_dollar r : exists r', strip (String "$" r) = String "$" r'.
Proof.
  unfold strip. cbn [list_ascii_of_string dropWs]. change (isWs "$") with false. cbv iota. cbn [rev].
  assert (X : forall l, exists l', dropWs (l ++ ["$"%char]) = (l' ++ ["$"%char])%list).
  { induction l as [|a l IH]; [exists []; reflexivity|]. cbn [app dropWs]. destruct (isWs a); [exact IH|]. exists (a :: l). reflexivity. }
  destruct (X (rev (list_ascii_of_string r))) as (l' & ->). rewrite rev_app_distr. cbn. eauto.
Qed.
