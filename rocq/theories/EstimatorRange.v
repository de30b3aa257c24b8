(** * Estimators: the analysis of differences *)

From Coq Require Import String Ascii Arith NArith ZArith List Bool Lia.
From Verif Require Import BDD Spec VarTypes Synth Sem FormulaSpec FileSpec OutputSpec Parser ParserProofs Explicit OutputProofs EstimatorSpec Estimator EstimatorProofs.
Import ListNotations.
Local Open Scope string_scope.

(** ** Names *)
Lemma splitAt_none ch s : ~ occurs ch s -> splitAt ch s = None.
Proof.
  unfold occurs. induction s as [|a s IH]; [reflexivity|]. cbn. intros H. destruct (Ascii.eqb_spec a ch) as [->|N]; [elim H; now left|].
  rewrite IH; auto.
Qed.
Lemma splitAt_app ch p s : ~ occurs ch p -> splitAt ch (p ++ String ch s) = Some (p, s).
Proof.
  unfold occurs. induction p as [|a p IH]; cbn; [now rewrite Ascii.eqb_refl|]. intros H.
  destruct (Ascii.eqb_spec a ch) as [->|N]; [elim H; now left|]. rewrite IH; auto.
Qed.
Lemma splitAt_occurs ch ch' s p r : splitAt ch s = Some (p, r) -> occurs ch' r -> occurs ch' s.
Proof.
  unfold occurs. revert p. induction s as [|a s IH]; intros p; [discriminate|]. cbn. destruct (a =? ch)%char.
  - intros E. injection E as <- <-. auto.
  - destruct (splitAt ch s) as [[u v]|] eqn:X; [|discriminate]. intros E. injection E as <- <-. eauto.
Qed.
Lemma splitAt_some ch s p r : splitAt ch s = Some (p, r) -> occurs ch s.
Proof.
  unfold occurs. revert p r. induction s as [|a s IH]; intros p r; [discriminate|]. cbn. destruct (Ascii.eqb_spec a ch) as [->|N]; [now left|].
  destruct (splitAt ch s) as [[u v]|] eqn:X; [|discriminate]. intros _. right. eauto.
Qed.
Lemma digits_nodot w : allDigits w = true -> ~ occurs "." w.
Proof.
  unfold occurs. induction w as [|a w IH]; cbn; [tauto|]. rewrite andb_true_iff. intros [Ha Hw] [->|H]; [discriminate Ha|now apply IH].
Qed.
Lemma splitDots_nodot w : ~ occurs "." w -> splitDots w = [w].
Proof.
  unfold occurs. induction w as [|a w IH]; [reflexivity|]. cbn. intros H. destruct (Ascii.eqb_spec a ".") as [->|N]; [elim H; now left|].
  rewrite IH; auto.
Qed.
Lemma splitDots_app w s : ~ occurs "." w -> splitDots (w ++ String "." s) = w :: splitDots s.
Proof.
  unfold occurs. induction w as [|a w IH]; [reflexivity|]. cbn. intros H. destruct (Ascii.eqb_spec a ".") as [->|N]; [elim H; now left|].
  rewrite IH; auto.
Qed.

Lemma takeDigits_app w : forall acc b rest, allDigits w = true ->
  match rest with EmptyString => True | String a _ => isDigit a = false end ->
  takeDigits acc b (w ++ rest) = (decimal acc w, b || negb (String.eqb w ""), rest).
Proof.
  induction w as [|a w IH]; intros acc b rest Hw Hr.
  - cbn [append decimal]. change (String.eqb "" "") with true. cbn [negb]. rewrite orb_false_r.
    destruct rest as [|a r]; [reflexivity|]. cbn. now rewrite digit_spec, Hr.
  - cbn [allDigits] in Hw. apply andb_true_iff in Hw. destruct Hw as [Ha Hw]. cbn [append takeDigits decimal]. rewrite digit_spec, Ha, IH by auto.
    cbn. now rewrite orb_true_r.
Qed.
Lemma readUnsigned_app w n rest : numeral w n -> (n < uintBound)%N ->
  match rest with EmptyString => True | String a _ => isDigit a = false end -> readUnsigned (w ++ rest) = Some (n, rest).
Proof.
  intros (Hw & Hd & Hn) Hb Hr. destruct w as [|a w]; [now elim Hw|]. pose proof Hd as Hd'. cbn [allDigits] in Hd'.
  apply andb_true_iff in Hd'. destruct Hd' as [Ha _].
  assert (Sp : isspace a = false) by (destruct (isspace a) eqn:E; auto; rewrite digit_ws in Ha by exact E; discriminate).
  unfold readUnsigned. cbn [append skipWs]. rewrite Sp.
  destruct (Ascii.eqb_spec a "-") as [->|_]; [discriminate Ha|]. destruct (Ascii.eqb_spec a "+") as [->|_]; [discriminate Ha|].
  change (String a (w ++ rest)) with (String a w ++ rest). rewrite takeDigits_app, Hn by auto. cbn [orb negb String.eqb].
  destruct (N.leb_spec uintBound n); [lia|reflexivity].
Qed.

Lemma parseRange_spec base primed wl wh lo hi : numeral wl lo -> numeral wh hi -> (lo < uintBound)%N -> (hi < uintBound)%N ->
  parseRange base primed ("0." ++ wl ++ "." ++ wh ++ prime primed) = inl (lo, hi).
Proof.
  intros Hl Hh Bl Bh. unfold parseRange.
  assert (E : splitDots ("0." ++ wl ++ "." ++ wh ++ prime primed) = ["0"; wl; wh ++ prime primed]).
  { change ("0." ++ ?x) with ("0" ++ String "." x). change ("." ++ ?x) with (String "." x).
    rewrite splitDots_app by (apply digits_nodot; reflexivity). rewrite splitDots_app by (apply digits_nodot, Hl).
    rewrite splitDots_nodot; auto. unfold occurs.
    destruct Hh as (_ & Hd & _). apply digits_nodot in Hd. unfold occurs in Hd. clear - Hd.
    induction wh as [|a w IH]; cbn in *; [destruct primed; cbn; intros H; [destruct H as [H|[]]; discriminate|destruct H]|].
    intros [H|H]; [apply Hd; now left|]. apply IH; auto. }
  rewrite E. cbn [String.eqb Ascii.eqb Bool.eqb negb].
  replace (readUnsigned wl) with (Some (lo, "")) by (symmetry; rewrite <- (sapp_nil wl) at 1; now apply readUnsigned_app).
  rewrite (readUnsigned_app wh hi (prime primed)); auto; [|destruct primed; reflexivity || exact I].
  destruct primed; reflexivity.
Qed.

(** ** Values *)
Lemma bits_value_bound bits e : (0 <= bits_value bits e < 2 ^ Z.of_nat (length bits))%Z.
Proof.
  induction bits as [|v bits IH]; [cbn; lia|]. cbn [bits_value length]. rewrite Nat2Z.inj_succ, Z.pow_succ_r by lia. destruct (e v); lia.
Qed.
Lemma bits_value_spec bits e : forall m, (m < 2 ^ N.of_nat (length bits))%N ->
  (bits_value bits e = Z.of_N m <-> forall j v, nth_error bits j = Some v -> e v = N.testbit m (N.of_nat j)).
Proof.
  induction bits as [|v bits IH]; intros m Hm.
  - cbn in *. split; [intros _ [|j] w; discriminate|]. intros _. lia.
  - cbn [length] in Hm. rewrite Nat2N.inj_succ, N.pow_succ_r' in Hm.
    assert (Hd : (N.div2 m < 2 ^ N.of_nat (length bits))%N) by (rewrite N.div2_div; apply N.div_lt_upper_bound; lia).
    specialize (IH (N.div2 m) Hd). cbn [bits_value].
    assert (Em : Z.of_N m = ((if N.odd m then 1 else 0) + 2 * Z.of_N (N.div2 m))%Z).
    { rewrite (N.div2_odd m) at 1. destruct (N.odd m); cbn [N.b2n]; lia. }
    rewrite Em. split.
    + intros E. assert (X : e v = N.odd m /\ bits_value bits e = Z.of_N (N.div2 m)) by (destruct (e v), (N.odd m); split; try reflexivity; lia).
      destruct X as [X1 X2]. pose proof (proj1 IH X2) as X3. intros [|j] w Hj; cbn in Hj.
      * injection Hj as <-. rewrite N.bit0_odd. exact X1.
      * rewrite (X3 j w Hj). rewrite Nat2N.inj_succ. now rewrite N.div2_spec, N.shiftr_spec', N.add_1_r.
    + intros H. rewrite (proj2 IH).
      * rewrite (H 0 v eq_refl). cbn [N.of_nat]. now rewrite N.bit0_odd.
      * intros j w Hj. rewrite (H (S j) w Hj), Nat2N.inj_succ. now rewrite N.div2_spec, N.shiftr_spec', N.add_1_r.
Qed.

Lemma eval_literal v b e : eval (literalOf v b) e = Bool.eqb (e v) b.
Proof. unfold literalOf. destruct b; rewrite ?eval_not, eval_var; destruct (e v); reflexivity. Qed.

Section CTX.
  Variable c : ctx.
  Hypothesis ND : NoDup (varNames c).

  Lemma find_unique v w : nth_error (varNames c) v = Some w -> findVar (varNames c) 0 w = Some v.
  Proof.
    intros E. apply findVar_0. split; auto. intros j Lj Ej. assert (j = v); [|lia].
    rewrite NoDup_nth_error in ND. apply ND; [apply nth_error_Some; congruence|congruence].
  Qed.
  Lemma bits_from p primed value bits : forall i acc,
    (forall j v, nth_error bits j = Some v -> exists w, number (i + j) w /\ nth_error (varNames c) v = Some (p ++ "@" ++ w ++ prime primed)) ->
    exists b, bitsFrom c p primed value i (length bits) acc = inl b /\
      forall e, eval b e = true <-> eval acc e = true /\ forall j v, nth_error bits j = Some v -> e v = N.testbit value (N.of_nat (i + j)).
  Proof.
    induction bits as [|v bits IH]; intros i acc H.
    - exists acc. split; [reflexivity|]. intros e. split; [intros E; split; auto; intros [|j] w; discriminate|tauto].
    - cbn [length bitsFrom]. destruct (H 0 v eq_refl) as (w & Hw & Hn). rewrite Nat.add_0_r in Hw.
      assert (w = showNat i) by (eapply number_unique; [exact Hw|apply showNat_number]). subst w.
      assert (EN : sconcat [p; "@"; showNat i; if primed then "'" else ""] = p ++ "@" ++ showNat i ++ prime primed).
      { rewrite !sconcat_cons, sconcat_nil, sapp_nil. reflexivity. }
      rewrite EN, (find_unique v _ Hn).
      destruct (IH (S i) (band acc (literalOf v (N.testbit value (N.of_nat i))))) as (b & E & Hb).
      { intros j u Hj. destruct (H (S j) u Hj) as (w & X). exists w. now replace (S i + j) with (i + S j) by lia. }
      exists b. split; [exact E|]. intros e. rewrite Hb, eval_and, andb_true_iff, eval_literal, eqb_true_iff. split.
      + intros [[H1 H2] H3]. split; auto. intros [|j] u Hj; cbn in Hj.
        * injection Hj as <-. now rewrite Nat.add_0_r.
        * rewrite (H3 j u Hj). now replace (S i + j) with (i + S j) by lia.
      + intros [H1 H2]. split.
        * split; auto. rewrite (H2 0 v eq_refl). now rewrite Nat.add_0_r.
        * intros j u Hj. rewrite (H2 (S j) u Hj). now replace (i + S j) with (S i + j) by lia.
  Qed.


  (** One value of a number. *)
  Lemma value_spec i p lo hi primed bits value : is_number (varNames c) i p lo hi primed bits -> (lo <= value <= hi)%N ->
    exists b, valueBF c i p primed lo hi value = inl b /\ forall e, eval b e = true <-> number_is i lo hi bits e (Z.of_N value).
  Proof.
    intros (_ & _ & HL & HB) [V1 V2]. unfold valueBF. rewrite <- HL.
    destruct (bits_from p primed (value - lo) bits 1 (band btrue (literalOf i (N.testbit (value - lo) 0)))) as (b & E & Hb); [exact HB|].
    exists b. split; [exact E|]. intros e. rewrite Hb, eval_and, eval_true, eval_literal. cbn [andb]. rewrite eqb_true_iff.
    unfold number_is.
    assert (M : (value - lo < 2 ^ N.of_nat (length (i :: bits)))%N).
    { cbn [length]. pose proof (N.size_gt (hi - lo)) as G. eapply N.le_lt_trans; [|eapply N.lt_le_trans; [exact G|]]; [lia|].
      apply N.pow_le_mono_r; [lia|]. lia. }
    pose proof (bits_value_spec (i :: bits) e (value - lo) M) as S.
    transitivity (bits_value (i :: bits) e = Z.of_N (value - lo)).
    - rewrite S. split.
      + intros [H1 H2] [|j] v Hj; cbn in Hj; [injection Hj as <-; exact H1|]. apply (H2 j v Hj).
      + intros H. split; [apply (H 0 i eq_refl)|]. intros j v Hj. apply (H (Datatypes.S j) v Hj).
    - split; intros H; [split; lia|lia].
  Qed.

  Lemma forRange_inv {A} (P : N -> A -> Prop) lo hi body a : (hi + 1 < uintBound)%N -> P lo a ->
    (forall v x, (lo <= v <= hi)%N -> P v x -> exists y, body v x = inl y /\ P (v + 1)%N y) ->
    exists y, forRange lo hi body a = inl y /\ P (N.max lo (hi + 1)) y.
  Proof.
    intros HB H0 HS. unfold forRange. destruct (N.leb_spec uintBound (hi + 1)); [lia|].
    set (stp := fun st : N * rres A => (fst st + 1, rbind (snd st) (body (fst st)))%N).
    assert (G : forall k, (k <= hi + 1 - lo)%N -> exists y, N.iter k stp (lo, inl a) = ((lo + k)%N, inl y) /\ P (lo + k)%N y).
    { induction k as [|k IH] using N.peano_ind; intros Hk.
      - exists a. rewrite N.add_0_r. auto.
      - destruct IH as (y & E & Hy); [lia|]. rewrite N.iter_succ, E. unfold stp. cbn [fst snd rbind].
        destruct (HS (lo + k)%N y) as (y' & E' & Hy'); [lia|exact Hy|]. exists y'. rewrite E'.
        replace (lo + N.succ k)%N with (lo + k + 1)%N by lia. auto. }
    destruct (G (hi + 1 - lo)%N (N.le_refl _)) as (y & E & Hy). exists y. rewrite E. split; [reflexivity|].
    now replace (N.max lo (hi + 1)) with (lo + (hi + 1 - lo))%N by lia.
  Qed.
End CTX.

(** ** Ranges *)
Definition rangeD (P : Z -> Z -> Prop) (d : Z * Z) : Prop :=
  (forall x y, P x y -> fst d <= y - x <= snd d)%Z /\
  (((forall x y, ~ P x y) /\ d = (2147483647, -2147483648)%Z) \/
   ((exists x y, P x y /\ y - x = fst d)%Z /\ (exists x y, P x y /\ y - x = snd d)%Z)).
Lemma rangeD_spec P lo hi : rangeD P (lo, hi) -> range_of P lo hi.
Proof.
  intros [H1 [[H2 E]|[H2 H3]]]; (split; [exact H1|]); split.
  - intros (x & y & H). elim (H2 x y H).
  - intros _. now injection E as -> ->.
  - auto.
  - intros H. destruct H2 as (x & y & X & _). elim (H x y X).
Qed.
Lemma rangeD_ext P Q d : (forall x y, P x y <-> Q x y) -> rangeD P d -> rangeD Q d.
Proof.
  intros H [H1 H2]. split; [intros x y X; apply H1; now apply H|]. destruct H2 as [[H2 E]|[(x & y & X & E) (x' & y' & X' & E')]].
  - left. split; auto. intros x y X. apply (H2 x y). now apply H.
  - right. split; [exists x, y|exists x', y']; rewrite <- H; auto.
Qed.
Lemma rangeD_add P d x y : rangeD P d -> (-2147483648 < y - x <= 2147483647)%Z ->
  rangeD (fun x' y' => P x' y' \/ (x' = x /\ y' = y)) (Z.min (fst d) (y - x), Z.max (snd d) (y - x))%Z.
Proof.
  intros [H1 H2] B. split.
  - cbn [fst snd]. intros x' y' [H|[-> ->]]; [specialize (H1 x' y' H)|]; lia.
  - right. cbn [fst snd]. destruct H2 as [[_ ->]|[(a & b & X & E) (a' & b' & X' & E')]]; cbn [fst snd].
    + split; exists x, y; (split; [now right|lia]).
    + split.
      * destruct (Z.le_gt_cases (fst d) (y - x)); [exists a, b; split; [now left|lia]|exists x, y; split; [now right|lia]].
      * destruct (Z.le_gt_cases (y - x) (snd d)); [exists a', b'; split; [now left|lia]|exists x, y; split; [now right|lia]].
Qed.
Lemma rangeD_keep P d x y : rangeD P d -> P x y -> rangeD (fun x' y' => P x' y' \/ (x' = x /\ y' = y)) d.
Proof. intros H X. eapply rangeD_ext; [|exact H]. intros x' y'. split; [auto|]. intros [Y|[-> ->]]; auto. Qed.
Lemma rangeD_in P d x y : rangeD P d -> (fst d <= y - x <= snd d)%Z -> rangeD (fun x' y' => P x' y' \/ (x' = x /\ y' = y)) d.
Proof.
  intros [H1 H2] B. split; [intros x' y' [X|[-> ->]]; auto|]. destruct H2 as [[_ ->]|[(a & b & X & E) (a' & b' & X' & E')]].
  - cbn in B. lia.
  - right. split; [exists a, b|exists a', b']; auto.
Qed.

Lemma wrap_small z : (-2147483648 <= z < 2147483648)%Z -> wrap z = z.
Proof.
  intros H. unfold wrap. destruct (Z.le_gt_cases 0 z) as [P|P].
  - rewrite Z.mod_small by lia. destruct (Z.ltb_spec z 2147483648); lia.
  - replace (z mod 4294967296)%Z with (z + 4294967296)%Z by (rewrite <- (Z_mod_plus_full z 1), Z.mod_small; lia).
    destruct (Z.ltb_spec (z + 4294967296) 2147483648); lia.
Qed.

Definition intBound : N := 2147483648.

Section DIFF.
  Variable c : ctx.
  Hypothesis ND : NoDup (varNames c).
  Variable all : BF.

  (** The pairs of values of the reference and the simulated number. *)
  Definition pairs (ref : nat) (rlo rhi : N) (rbits : list nat) (sim : nat) (slo shi : N) (sbits : list nat) (x y : Z) : Prop :=
    exists e, eval all e = true /\ number_is ref rlo rhi rbits e x /\ number_is sim slo shi sbits e y.

  Lemma number_is_low i lo hi bits e x : number_is i lo hi bits e x -> (Z.of_N lo <= x <= Z.of_N hi)%Z.
  Proof. intros [E L]. pose proof (bits_value_bound (i :: bits) e). lia. Qed.

  Lemma differences_spec ref rp primed rlo rhi rbits sim sp slo shi sbits :
    is_number (varNames c) ref rp rlo rhi primed rbits -> is_number (varNames c) sim sp slo shi true sbits ->
    (rhi < intBound)%N -> (shi < intBound)%N ->
    exists lo hi, differences c all ref rp primed rlo rhi sim sp slo shi = inl (lo, hi) /\
      range_of (pairs ref rlo rhi rbits sim slo shi sbits) lo hi.
  Proof.
    intros HR HS BR BS. unfold intBound in *. unfold differences. set (P := pairs ref rlo rhi rbits sim slo shi sbits).
    assert (PB : forall x y, P x y -> (Z.of_N rlo <= x <= Z.of_N rhi /\ Z.of_N slo <= y <= Z.of_N shi)%Z).
    { intros x y (e & _ & H1 & H2). apply number_is_low in H1, H2. auto. }
    destruct (forRange_inv (fun r d => rangeD (fun x y => P x y /\ (x < Z.of_N r)%Z) d) rlo rhi
      (fun r d => rbind (valueBF c ref rp primed rlo rhi r) (fun bfReference =>
        forRange slo shi (fun y d =>
          rbind (valueBF c sim sp true slo shi y) (fun bfSimulated =>
            let diff := wrap (Z.of_N y - Z.of_N r) in
            if ((diff <? fst d)%Z || (snd d <? diff)%Z) && negb (bleq all (bor (bnot bfSimulated) (bnot bfReference)))
            then inl (Z.min (fst d) diff, Z.max (snd d) diff) else inl d)) d))
      (2147483647, -2147483648)%Z) as ([lo hi] & E & H).
    - unfold uintBound. lia.
    - split; [intros x y [X L]; apply PB in X; lia|]. left. split; auto. intros x y [X L]. apply PB in X. lia.
    - intros r d Hr Hd. destruct (value_spec c ND ref rp rlo rhi primed rbits r HR Hr) as (bR & -> & EbR). cbn [rbind].
      destruct (forRange_inv (fun s d => rangeD (fun x y => P x y /\ (x < Z.of_N r \/ x = Z.of_N r /\ y < Z.of_N s)%Z) d) slo shi
        (fun y d => rbind (valueBF c sim sp true slo shi y) (fun bfSimulated =>
            let diff := wrap (Z.of_N y - Z.of_N r) in
            if ((diff <? fst d)%Z || (snd d <? diff)%Z) && negb (bleq all (bor (bnot bfSimulated) (bnot bR)))
            then inl (Z.min (fst d) diff, Z.max (snd d) diff) else inl d)) d) as (d' & E' & H').
      + unfold uintBound. lia.
      + eapply rangeD_ext; [|exact Hd]. intros x y. split; [intros [X L]; auto|]. intros [X L]. split; auto. apply PB in X. lia.
      + intros y d0 Hy Hd0. destruct (value_spec c ND sim sp slo shi true sbits y HS Hy) as (bS & -> & EbS). cbn [rbind]. cbv zeta.
        rewrite wrap_small by lia.
        set (sat := negb (bleq all (bor (bnot bS) (bnot bR)))).
        assert (Sat : sat = true <-> P (Z.of_N r) (Z.of_N y)).
        { unfold sat. rewrite negb_true_iff. split.
          - intros F. unfold bleq in F. apply isFalse_false in F. destruct F as (e & F).
            rewrite eval_and, eval_not, eval_or, !eval_not, !andb_true_iff, negb_true_iff, orb_false_iff, !negb_false_iff in F.
            destruct F as (F1 & F2 & F3). exists e. split; [exact F1|]. split; [now apply EbR|now apply EbS].
          - intros (e & F1 & F2 & F3). destruct (bleq _ _) eqn:X; auto. rewrite bleq_spec in X. specialize (X e F1).
            apply EbR in F2. apply EbS in F3. rewrite eval_or, !eval_not, F2, F3 in X. discriminate. }
        assert (Next : forall d1, rangeD (fun x' y' => (P x' y' /\ (x' < Z.of_N r \/ x' = Z.of_N r /\ y' < Z.of_N y)%Z) \/ (x' = Z.of_N r /\ y' = Z.of_N y /\ sat = true)) d1 ->
          rangeD (fun x y0 => P x y0 /\ (x < Z.of_N r \/ x = Z.of_N r /\ y0 < Z.of_N (y + 1))%Z) d1).
        { intros d1. apply rangeD_ext. intros x' y'. split.
          - intros [[X L]|(-> & -> & X)]; [split; [exact X|lia]|]. split; [now apply Sat|lia].
          - intros [X L]. destruct (Z.lt_ge_cases x' (Z.of_N r)); [left; auto|]. destruct (Z.lt_ge_cases y' (Z.of_N y)); [left; split; [auto|lia]|].
            right. assert (x' = Z.of_N r) by lia. assert (y' = Z.of_N y) by lia. subst x' y'. split; [reflexivity|]. split; [reflexivity|]. now apply Sat. }
        destruct sat eqn:ES.
        * rewrite andb_true_r. destruct ((_ <? fst d0)%Z || (snd d0 <? _)%Z) eqn:EC.
          -- eexists. split; [reflexivity|]. apply Next. eapply rangeD_ext; [|apply rangeD_add; [exact Hd0|lia]].
             intros x' y'. cbv beta. tauto.
          -- eexists. split; [reflexivity|]. apply Next. apply orb_false_iff in EC. destruct EC as [E1 E2]. apply Z.ltb_ge in E1, E2.
             eapply rangeD_ext; [|apply (rangeD_in _ d0 (Z.of_N r) (Z.of_N y) Hd0); lia]. intros x' y'. cbv beta. tauto.
        * rewrite andb_false_r. eexists. split; [reflexivity|]. apply Next. eapply rangeD_ext; [|exact Hd0].
          intros x' y'. cbv beta. split; [auto|]. intros [X|(_ & _ & X)]; [exact X|discriminate].
      + exists d'. split; [exact E'|]. eapply rangeD_ext; [|exact H']. intros x y. cbv beta. split; intros [X L]; (split; [exact X|]); apply PB in X; lia.
    - exists lo, hi. split; [exact E|]. apply rangeD_spec. eapply rangeD_ext; [|exact H]. intros x y. cbv beta.
      split; [tauto|]. intros X. split; [exact X|]. apply PB in X. lia.
  Qed.
End DIFF.

(** ** All lines *)

Lemma hasDot_spec s : hasDot s = true <-> occurs "." s.
Proof.
  unfold hasDot, occurs. rewrite existsb_exists. split.
  - intros (a & H & E). apply Ascii.eqb_eq in E. now subst a.
  - intros H. exists "."%char. auto.
Qed.

Section LINES.
  Variable c : ctx.
  Hypothesis Hwf : wfE c.
  Hypothesis LN : length (varNames c) = length (varTypes c).
  Hypothesis ND : NoDup (varNames c).
  Hypothesis WN : well_numbered (varNames c).
  Variable all : BF.

  Definition lineFor (p : nat * nat) (l : rangeLine) : Prop :=
    exists rlo rhi rbits slo shi sbits,
      is_number (varNames c) (fst p) (l_ref l) rlo rhi (Nat.odd (fst p)) rbits /\
      is_number (varNames c) (snd p) (l_sim l) slo shi true sbits /\ l_primed l = Nat.odd (fst p) /\
      range_of (pairs all (fst p) rlo rhi rbits (snd p) slo shi sbits) (l_min l) (l_max l).

  Lemma type_cases i : i < length (varNames c) ->
    inherits (nth i (varTypes c) NoneVariableType) Post = Nat.odd i /\
    inherits (nth i (varTypes c) NoneVariableType) EstimationPost = next_estimate (domain_of c) i.
  Proof.
    intros L. rewrite LN, (nvars_spec c (Hk c Hwf)) in L. unfold next_estimate. destruct (even_cases i) as [[k ->]|[k ->]].
    - assert (Lk : k < nvars c) by lia. pose proof (type_est c Hwf k Lk) as T.
      replace (Nat.odd (2 * k)) with false by (unfold Nat.odd; now rewrite even_double).
      destruct (nth (2 * k) (varTypes c) NoneVariableType); try discriminate T; auto.
    - assert (Lk : k < nvars c) by lia. pose proof (type_est c Hwf k Lk) as T.
      replace (Nat.odd (2 * k + 1)) with true by (unfold Nat.odd; now rewrite even_double1).
      rewrite (type_odd c (Hk c Hwf)). replace (Nat.div2 (2 * k + 1)) with k by (rewrite Nat.add_1_r; symmetry; apply Nat.div2_succ_double).
      cbn [domain_of d_kind]. destruct (nth (2 * k) (varTypes c) NoneVariableType); try discriminate T; auto.
  Qed.

  Lemma number_name i p lo hi primed bits : is_number (varNames c) i p lo hi primed bits ->
    exists wl wh, numeral wl lo /\ numeral wh hi /\ splitAt "@" (nth i (varNames c) "") = Some (p, "0." ++ wl ++ "." ++ wh ++ prime primed).
  Proof.
    intros (HP & (wl & wh & Hl & Hh & E) & _). exists wl, wh. split; [exact Hl|]. split; [exact Hh|].
    rewrite (nth_error_nth _ _ "" E). change ("@0." ++ ?x) with (String "@" ("0." ++ x)). now apply splitAt_app.
  Qed.
  Lemma small_uint n : (n < intBound)%N -> (n < uintBound)%N.
  Proof. unfold intBound, uintBound. lia. Qed.

  Lemma simLoop_spec ref rp rlo rhi rbits : is_number (varNames c) ref rp rlo rhi (Nat.odd ref) rbits -> ref < length (varNames c) ->
    (rhi < intBound)%N ->
    forall sims out, (forall i, In i sims -> i < length (varNames c)) ->
    exists ls, simLoop c all ref rp rlo rhi sims out = ((out ++ ls)%list, None) /\
      Forall2 lineFor (map (pair ref) (filter (fun s => negb (Nat.eqb s ref) && next_estimate (domain_of c) s) (filter (fun i => hasDot (nth i (varNames c) "")) sims))) ls.
  Proof.
    intros HR LR BR. induction sims as [|sim sims IH]; intros out HI.
    - exists []. rewrite app_nil_r. split; [reflexivity|constructor].
    - assert (Ls : sim < length (varNames c)) by (apply HI; now left).
      assert (HI' : forall i, In i sims -> i < length (varNames c)) by (intros i Hi; apply HI; now right).
      destruct (type_cases sim Ls) as [_ TE]. destruct (type_cases ref LR) as [TP _].
      cbn [simLoop filter].
      destruct (hasDot (nth sim (varNames c) "")) eqn:HD.
      + destruct (WN sim (nth sim (varNames c) "") (nth_error_nth' _ _ Ls) HD) as (sp & slo & shi & sbits & HS & Bl & Bh).
        destruct (number_name _ _ _ _ _ _ HS) as (wl & wh & Nl & Nh & ->). cbn [filter].
        change (splitAt "." ("0." ++ wl ++ "." ++ wh ++ prime (Nat.odd sim))) with (Some ("0", wl ++ "." ++ wh ++ prime (Nat.odd sim))).
        cbn [andb]. rewrite TE, TP.
        destruct (negb (Nat.eqb sim ref) && next_estimate (domain_of c) sim) eqn:C.
        * apply andb_true_iff in C. destruct C as [C1 C2].
          assert (EO : Nat.odd sim = true) by (unfold next_estimate in C2; apply andb_true_iff in C2; tauto). rewrite EO in *.
          rewrite parseRange_spec with (lo := slo) (hi := shi) by auto using small_uint. cbn [rbind].
          destruct (differences_spec c ND all ref rp (Nat.odd ref) rlo rhi rbits sim sp slo shi sbits HR HS BR Bh) as (lo & hi & -> & HRG).
          destruct (IH (out ++ [mkLine sp rp (Nat.odd ref) lo hi])%list HI') as (ls & -> & HF).
          exists (mkLine sp rp (Nat.odd ref) lo hi :: ls). split; [now rewrite <- app_assoc|]. cbn [map]. constructor; [|exact HF].
          exists rlo, rhi, rbits, slo, shi, sbits. cbn [fst snd l_ref l_sim l_primed l_min l_max]. auto.
        * apply IH, HI'.
      + assert (ND0 : ~ occurs "." (nth sim (varNames c) "")) by (rewrite <- hasDot_spec, HD; discriminate).
        destruct (splitAt "@" (nth sim (varNames c) "")) as [[sp ss]|] eqn:ES.
        * rewrite (splitAt_none "." ss); [|intros O; apply ND0; eapply splitAt_occurs; eauto]. cbn [andb]. apply IH, HI'.
        * rewrite (splitAt_none "." _ ND0). cbn [andb]. apply IH, HI'.
  Qed.

  Lemma refLoop_spec : forall refs out, (forall i, In i refs -> i < length (varNames c)) ->
    exists ls, refLoop c all refs out = ((out ++ ls)%list, None) /\
      Forall2 lineFor (flat_map (fun r => map (pair r) (filter (fun s => negb (Nat.eqb s r) && next_estimate (domain_of c) s) (dotted (varNames c))))
        (filter (fun i => hasDot (nth i (varNames c) "")) refs)) ls.
  Proof.
    induction refs as [|ref refs IH]; intros out HI.
    - exists []. rewrite app_nil_r. split; [reflexivity|constructor].
    - assert (LR : ref < length (varNames c)) by (apply HI; now left).
      assert (HI' : forall i, In i refs -> i < length (varNames c)) by (intros i Hi; apply HI; now right).
      destruct (type_cases ref LR) as [TP _]. cbn [refLoop filter].
      destruct (hasDot (nth ref (varNames c) "")) eqn:HD.
      + destruct (WN ref (nth ref (varNames c) "") (nth_error_nth' _ _ LR) HD) as (rp & rlo & rhi & rbits & HR & Bl & Bh).
        destruct (number_name _ _ _ _ _ _ HR) as (wl & wh & Nl & Nh & ->). cbn [flat_map].
        change (splitAt "." ("0." ++ wl ++ "." ++ wh ++ prime (Nat.odd ref))) with (Some ("0", wl ++ "." ++ wh ++ prime (Nat.odd ref))).
        rewrite TP, parseRange_spec with (lo := rlo) (hi := rhi) by auto using small_uint.
        destruct (simLoop_spec ref rp rlo rhi rbits HR LR Bh (seq 0 (length (varNames c))) out) as (ls & -> & HF).
        { intros i Hi. apply in_seq in Hi. lia. }
        destruct (IH (out ++ ls)%list HI') as (ls' & -> & HF'). exists (ls ++ ls')%list. split; [now rewrite app_assoc|].
        apply Forall2_app; [exact HF|exact HF'].
      + assert (ND0 : ~ occurs "." (nth ref (varNames c) "")) by (rewrite <- hasDot_spec, HD; discriminate).
        destruct (splitAt "@" (nth ref (varNames c) "")) as [[rp rs]|] eqn:ES; [|apply IH, HI'].
        rewrite (splitAt_none "." rs); [|intros O; apply ND0; eapply splitAt_occurs; eauto]. apply IH, HI'.
  Qed.

  Theorem rangeLines_spec : exists ls, rangeLines c all = (ls, None) /\ Forall2 lineFor (range_pairs (domain_of c) (varNames c)) ls.
  Proof.
    unfold rangeLines, range_pairs. destruct (refLoop_spec (seq 0 (length (varNames c))) []) as (ls & E & F).
    - intros i Hi. apply in_seq in Hi. lia.
    - exists ls. split; [exact E|exact F].
  Qed.
End LINES.
