(** * Proofs about the searches for realizable parameters *)

From Coq Require Import String Ascii ZArith List Bool Lia.
From Verif Require Import Loop Parser FileSpec FileProofs SearchSpec Search.
Import ListNotations.
Local Open Scope Z_scope.

Ltac Zify.zify_post_hook ::= Z.div_mod_to_equations.

(** ** Answers *)

Lemma says_eqb b l : says b l <-> String.eqb (trim l) (if b then resultRealizable else resultUnrealizable) = true.
Proof. unfold says. rewrite trim_spec, String.eqb_eq. destruct b; reflexivity. Qed.

Lemma says_both l : says true l -> says false l -> False.
Proof. unfold says. congruence. Qed.

Lemma filter_none {A} (f : A -> bool) l : length (filter f l) = 0%nat <-> forall x, In x l -> f x = false.
Proof.
  induction l as [|a l IH]; cbn; [split; auto; intros _ x []|]. destruct (f a) eqn:E; cbn; split.
  - discriminate.
  - intros H. rewrite (H a) in E by auto. discriminate.
  - intros H x [<-|Hx]; auto. now apply IH.
  - intros H. apply IH. auto.
Qed.

Lemma filter_one {A} (f : A -> bool) l : length (filter f l) = 1%nat ->
  exists l1 x l2, l = (l1 ++ x :: l2)%list /\ f x = true /\ forall y, In y (l1 ++ l2)%list -> f y = false.
Proof.
  induction l as [|a l IH]; cbn; [discriminate|]. destruct (f a) eqn:E; cbn.
  - intros H. injection H as H. exists [], a, l. split; auto. split; auto. now apply filter_none.
  - intros H. destruct (IH H) as (l1 & x & l2 & -> & Fx & Hy). exists (a :: l1), x, l2. split; auto. split; auto.
    cbn. intros y [<-|Hin]; auto.
Qed.

Lemma check_answers out b : checkRealizability out = Some b <-> answers out b.
Proof.
  destruct out as [lines code]. unfold checkRealizability, answers. cbn [fst snd].
  set (fr := fun l => String.eqb (trim l) resultRealizable). set (fu := fun l => String.eqb (trim l) resultUnrealizable).
  assert (FR : forall l, fr l = true <-> says true l) by (intros l; symmetry; apply says_eqb).
  assert (FU : forall l, fu l = true <-> says false l) by (intros l; symmetry; apply says_eqb).
  destruct (Z.eqb_spec code 0) as [->|NE]; cbn [negb]; [|split; [discriminate|intros [H _]; contradiction]].
  split.
  - destruct (Nat.ltb_spec 1 (length (filter fr lines) + length (filter fu lines))) as [|H1]; [discriminate|].
    destruct (Nat.eqb_spec (length (filter fr lines) + length (filter fu lines)) 0) as [|H2]; [discriminate|].
    intros E. injection E as <-. split; auto.
    destruct (Nat.ltb_spec 0 (length (filter fr lines))) as [H3|H3].
    + assert (X : length (filter fr lines) = 1%nat) by lia. assert (Y : length (filter fu lines) = 0%nat) by lia.
      destruct (filter_one _ _ X) as (l1 & x & l2 & -> & Fx & Hy). exists l1, x, l2. split; auto. split; [now apply FR|].
      intros y b' Hin S. destruct b'.
      * apply FR in S. rewrite Hy in S by auto. discriminate.
      * apply FU in S. rewrite filter_none in Y. rewrite Y in S; [discriminate|].
        apply in_app_iff in Hin. apply in_app_iff. cbn. tauto.
    + assert (X : length (filter fu lines) = 1%nat) by lia. assert (Y : length (filter fr lines) = 0%nat) by lia.
      destruct (filter_one _ _ X) as (l1 & x & l2 & -> & Fx & Hy). exists l1, x, l2. split; auto. split; [now apply FU|].
      intros y b' Hin S. destruct b'.
      * apply FR in S. rewrite filter_none in Y. rewrite Y in S; [discriminate|].
        apply in_app_iff in Hin. apply in_app_iff. cbn. tauto.
      * apply FU in S. rewrite Hy in S by auto. discriminate.
  - intros (_ & A & line & B & -> & S & Hother).
    rewrite !filter_app. cbn [filter].
    assert (ZR : filter fr A = [] /\ filter fr B = [] /\ filter fu A = [] /\ filter fu B = []).
    { repeat split; apply length_zero_iff_nil, filter_none; intros x Hx; apply not_true_iff_false;
        [rewrite FR|rewrite FR|rewrite FU|rewrite FU]; apply Hother; apply in_app_iff; auto. }
    destruct ZR as (-> & -> & -> & ->). cbn [app]. destruct b.
    + assert (E1 : fr line = true) by now apply FR. assert (E2 : fu line = false).
      { apply not_true_iff_false. rewrite FU. intros S'. exact (says_both _ S S'). }
      rewrite E1, E2. reflexivity.
    + assert (E1 : fu line = true) by now apply FU. assert (E2 : fr line = false).
      { apply not_true_iff_false. rewrite FR. intros S'. exact (says_both _ S' S). }
      rewrite E1, E2. reflexivity.
Qed.

(** ** Binary search *)

Section BINARY.
  Variable script : Z -> list string * Z.
  Variable monotone : bool.
  Variable real : Z -> bool.
  Variables L H : Z.
  Hypothesis LH : L <= H.
  Hypothesis Ans : forall v, L <= v <= H -> checkRealizability (script v) = Some (real v).

  Definition binInv (s : Z * Z * list Z) : Prop :=
    let '(lo, hi, calls) := s in
    L <= lo /\ lo <= hi /\ hi <= H /\
    (if monotone then (lo = L \/ real (lo - 1) = false) /\ (hi = H \/ real hi = true)
     else (hi = H \/ real (hi + 1) = false) /\ (lo = L \/ real lo = true)) /\
    2 ^ Z.of_nat (length calls) * (hi - lo) <= H - L /\
    (length calls = 0%nat \/ 2 ^ (Z.of_nat (length calls) - 1) <= H - L) /\
    (forall v, In v calls -> L <= v <= H).

  Lemma binBody s : binInv s ->
    match binaryBody script monotone s with
    | Cont s' => binInv s' /\ snd (fst s') - fst (fst s') < snd (fst s) - fst (fst s)
    | Done (calls, r) => 
        (length calls <= Z.to_nat (Z.log2 (H - L)) + 2)%nat /\ (forall v, In v calls -> L <= v <= H) /\
        exists v calls', calls = (calls' ++ [v])%list /\ L <= v <= H /\ 
        ((real v = true /\ r = (if monotone then Minimum v else Maximum v) /\
          (if monotone then v = L \/ real (v - 1) = false else v = H \/ real (v + 1) = false)) \/
         (real v = false /\ r = TotallyUnrealizable /\ v = if monotone then H else L))
    | Abort => False
    end.
  Proof.
    destruct s as [[lo hi] calls]. intros (I1 & I2 & I3 & I4 & I5 & I6 & I7). unfold binaryBody.
    destruct (Z.ltb_spec lo hi) as [LT|GE].
    - set (tv := if negb monotone && _ then _ else _).
      assert (T : lo <= tv <= hi /\ (if monotone then tv < hi else lo < tv) /\
                  2 * (tv - lo) <= hi - lo + (if monotone then 0 else 1) /\ 2 * (hi - tv) <= hi - lo + (if monotone then 1 else 0)).
      { subst tv. destruct monotone; cbn [negb andb]; [lia|]. destruct (Z.ltb_spec 0 ((lo + hi) mod 2)); lia. }
      destruct T as (T1 & T2 & T3 & T4).
      rewrite Ans by lia.
      assert (C7 : forall v, In v (calls ++ [tv])%list -> L <= v <= H).
      { intros v Hv. apply in_app_iff in Hv. destruct Hv as [Hv|[<-|[]]]; auto. lia. }
      assert (C5 : forall d, 2 * d <= hi - lo -> 2 ^ Z.of_nat (length (calls ++ [tv])) * d <= H - L).
      { intros d Hd. rewrite app_length. cbn [length]. rewrite Nat2Z.inj_add, Z.pow_add_r by lia.
        change (2 ^ Z.of_nat 1) with 2. assert (0 <= 2 ^ Z.of_nat (length calls)) by (apply Z.pow_nonneg; lia). nia. }
      assert (C6 : length (calls ++ [tv])%list = 0%nat \/ 2 ^ (Z.of_nat (length (calls ++ [tv])%list) - 1) <= H - L).
      { right. rewrite app_length. cbn [length]. replace (Z.of_nat (length calls + 1) - 1) with (Z.of_nat (length calls)) by lia.
        assert (0 <= 2 ^ Z.of_nat (length calls)) by (apply Z.pow_nonneg; lia). nia. }
      unfold binInv. destruct (real tv) eqn:R, monotone; cbn [fst snd]; (split; [|lia]);
        (split; [lia|split; [lia|split; [lia|split; [|split; [apply C5; lia|split; [exact C6|exact C7]]]]]]).
      + split; [tauto|now right].
      + split; [tauto|now right].
      + split; [right; now replace (tv + 1 - 1) with tv by lia|tauto].
      + split; [right; now replace (tv - 1 + 1) with tv by lia|tauto].
    - assert (E : lo = hi) by lia. subst lo. rewrite Ans by lia.
      assert (C : (length (calls ++ [hi])%list <= Z.to_nat (Z.log2 (H - L)) + 2)%nat).
      { rewrite app_length. cbn [length]. destruct I6 as [->|I6]; [lia|].
        destruct (length calls) as [|k] eqn:EK; [lia|].
        assert (Z.of_nat k <= Z.log2 (H - L)).
        { apply Z.log2_le_pow2; replace (Z.of_nat (S k) - 1) with (Z.of_nat k) in I6 by lia; [|exact I6].
          assert (0 < 2 ^ Z.of_nat k) by (apply Z.pow_pos_nonneg; lia). lia. }
        lia. }
      destruct (real hi) eqn:R.
      + split; [exact C|]. split.
        { intros v Hv. apply in_app_iff in Hv. destruct Hv as [Hv|[<-|[]]]; auto; lia. }
        exists hi, calls. split; auto. split; [lia|]. left. split; auto. split; auto. destruct monotone; tauto.
      + split; [exact C|]. split.
        { intros v Hv. apply in_app_iff in Hv. destruct Hv as [Hv|[<-|[]]]; auto; lia. }
        exists hi, calls. split; auto. split; [lia|]. right. split; auto. split; auto.
        destruct monotone; destruct I4 as [_ [I4|I4]]; congruence.
  Qed.

  Lemma binary_spec : exists calls' v r, binarySearch script monotone L H = Some ((calls' ++ [v])%list, r) /\
    (length (calls' ++ [v]) <= Z.to_nat (Z.log2 (H - L)) + 2)%nat /\
    (forall w, In w (calls' ++ [v])%list -> L <= w <= H) /\
    ((real v = true /\ r = (if monotone then Minimum v else Maximum v) /\
      (if monotone then v = L \/ real (v - 1) = false else v = H \/ real (v + 1) = false)) \/
     (real v = false /\ r = TotallyUnrealizable /\ v = if monotone then H else L)).
  Proof.
    unfold binarySearch.
    assert (I0 : binInv (L, H, [])).
    { split; [lia|]. split; [lia|]. split; [lia|]. split; [destruct monotone; auto|]. split; [cbn [length]; change (2 ^ Z.of_nat 0) with 1; lia|].
      split; [now left|intros v []]. }
    destruct (run_total (binaryBody script monotone) binInv (fun s => Z.to_nat (snd (fst s) - fst (fst s)))
      (Z.to_nat (Z.log2_up (Z.max 1 (H - L))) + 1) (L, H, []) I0) as (r & Er & Rr).
    - intros s Is. pose proof (binBody s Is) as B. destruct (binaryBody script monotone s) as [s'|r|]; auto.
      destruct B as [B1 B2]. split; auto. destruct s' as [[lo' hi'] cs']. destruct B1 as (_ & B1 & _). cbn [fst snd] in *. lia.
    - cbn [fst snd]. assert (X : Z.max 1 (H - L) <= 2 ^ Z.log2_up (Z.max 1 (H - L))).
      { destruct (Z.eq_dec (Z.max 1 (H - L)) 1) as [->|N]; [reflexivity|]. apply Z.log2_up_spec. lia. }
      rewrite Nat.add_1_r. cbn [Nat.pow].
      assert (Y : Z.of_nat (2 ^ Z.to_nat (Z.log2_up (Z.max 1 (H - L)))) = 2 ^ Z.log2_up (Z.max 1 (H - L))).
      { rewrite Nat2Z.inj_pow, Z2Nat.id by apply Z.log2_up_nonneg. reflexivity. }
      lia.
    - assert (Q : match r with (calls, r) =>
        (length calls <= Z.to_nat (Z.log2 (H - L)) + 2)%nat /\ (forall v, In v calls -> L <= v <= H) /\
        exists v calls', calls = (calls' ++ [v])%list /\ L <= v <= H /\ 
        ((real v = true /\ r = (if monotone then Minimum v else Maximum v) /\
          (if monotone then v = L \/ real (v - 1) = false else v = H \/ real (v + 1) = false)) \/
         (real v = false /\ r = TotallyUnrealizable /\ v = if monotone then H else L)) end).
      { apply (Runs_inv (binaryBody script monotone) binInv (fun r => match r with (calls, r) => _ end) _ r Rr I0).
        - intros s s' Is Eb. pose proof (binBody s Is) as B. rewrite Eb in B. tauto.
        - intros s r' Is Eb. pose proof (binBody s Is) as B. rewrite Eb in B. exact B. }
      destruct r as [calls r]. destruct Q as (Q1 & Q2 & v & calls' & -> & Q3 & Q4). exists calls', v, r. auto.
  Qed.
End BINARY.

(** ** Several parameters *)

Definition leT : list Z -> list Z -> Prop := Forall2 Z.le.

Lemma compare_true a b : length a = length b -> forall cs cl,
  isTrue (compareFrom cs cl a b) = true <-> cs = true /\ leT a b.
Proof.
  revert b. induction a as [|x a IH]; intros [|y b] E cs cl; try discriminate; cbn [compareFrom].
  - destruct cs; cbn; [split; auto; intros _; split; auto; constructor|]. destruct cl; cbn; split; try discriminate; intros []; discriminate.
  - injection E as E. destruct (Z.ltb_spec x y) as [H1|H1].
    + rewrite (IH b E). split; intros [H2 H3]; split; auto; [constructor; [lia|exact H3]|now inversion H3].
    + destruct (Z.ltb_spec y x) as [H2|H2].
      * rewrite (IH b E). split; intros [H3 H4]; [discriminate|]. inversion H4; subst. lia.
      * rewrite (IH b E). split; intros [H3 H4]; split; auto; [constructor; [lia|exact H4]|now inversion H4].
Qed.

Lemma comparator a b : length a = length b -> (isTrue (tupleComparator a b) = true <-> leT a b).
Proof. intros E. unfold tupleComparator. rewrite compare_true by auto. tauto. Qed.

Lemma leT_refl a : leT a a.
Proof. induction a; constructor; auto. lia. Qed.
Lemma leT_trans a b c : leT a b -> leT b c -> leT a c.
Proof.
  intros H. revert c. induction H as [|x y a b H1 H IH]; intros c Hc; inversion Hc; subst; constructor; [lia|]. now apply IH.
Qed.
Lemma leT_antisym a b : leT a b -> leT b a -> a = b.
Proof. induction 1; intros Hc; inversion Hc; subst; auto. f_equal; [lia|auto]. Qed.

Definition inN (types : list (Z * Z)) (t : list Z) : Prop := Forall2 (fun p v => fst p <= v <= snd p) types t.

Lemma in_xrange lo hi v : In v (xrange lo hi) <-> lo <= v < hi.
Proof.
  unfold xrange. rewrite in_map_iff. split.
  - intros (k & <- & Hk). apply in_seq in Hk. lia.
  - intros Hv. exists (Z.to_nat (v - lo)). split; [lia|]. apply in_seq. lia.
Qed.

Lemma in_product ls t : In t (product ls) <-> Forall2 (fun l v => In v l) ls t.
Proof.
  revert t. induction ls as [|l ls IH]; intros t; cbn [product].
  - split; [intros [<-|[]]; constructor|intros H; inversion H; now left].
  - rewrite in_flat_map. split.
    + intros (a & Ha & H). apply in_map_iff in H. destruct H as (u & <- & Hu). constructor; auto. now apply IH.
    + intros H. inversion H as [|? v ? u H1 H2]; subst. exists v. split; auto. apply in_map. now apply IH.
Qed.

Lemma in_boxes types t : In t (product (map (fun p => xrange (fst p) (snd p + 1)) types)) <-> inN types t.
Proof.
  rewrite in_product. unfold inN. revert t. induction types as [|p types IH]; intros t; cbn [map]; (split; intros H; inversion H; subst; constructor; auto).
  - match goal with H : In _ (xrange _ _) |- _ => apply in_xrange in H; lia end.
  - now apply IH.
  - apply in_xrange. lia.
  - now apply IH.
Qed.

Lemma in_above types t : inN types t -> In t (product (above types t)).
Proof.
  rewrite in_product. induction 1 as [|[lo hi] v types t H1 H IH]; cbn [above]; constructor; auto. apply in_xrange. cbn in H1. lia.
Qed.
Lemma in_below types t : inN types t -> In t (product (below types t)).
Proof.
  rewrite in_product. induction 1 as [|[lo hi] v types t H1 H IH]; cbn [below]; constructor; auto. apply in_xrange. cbn in H1. lia.
Qed.

Lemma inN_length types t : inN types t -> length t = length types.
Proof. induction 1; cbn; auto. Qed.

Section BEST.
  Variable types : list (Z * Z).
  Variables neg pos : list (list Z).

  Definition cov (t : list Z) : bool := coveredNeg neg t || coveredPos pos t.

  Lemma consider_spec best t : inN types t ->
    (consider types neg pos best t = best /\ (best = None -> cov t = true)) \/
    (exists v, consider types neg pos best t = Some (t, v) /\ cov t = false).
  Proof.
    intros Ht. unfold consider. fold (cov t). destruct (cov t) eqn:C; [auto|].
    set (dp := Z.of_nat _). set (dn := Z.of_nat _).
    unfold cov in C. apply orb_false_iff in C. destruct C as [C1 C2].
    assert (P1 : 0 < dn).
    { unfold dn. assert (In t (filter (fun b => negb (coveredPos pos b)) (product (above types t)))).
      { apply filter_In. split; [now apply in_above|]. now rewrite C2. }
      destruct (filter _ (product (above types t))); [contradiction|]. cbn [length]. lia. }
    assert (P2 : 0 < dp).
    { unfold dp. assert (In t (filter (fun b => negb (coveredNeg neg b)) (product (below types t)))).
      { apply filter_In. split; [now apply in_below|]. now rewrite C1. }
      destruct (filter _ (product (below types t))); [contradiction|]. cbn [length]. lia. }
    destruct (Z.ltb_spec 0 dp) as [_|]; [|lia]. cbn [orb].
    destruct best as [[t0 v0]|].
    - destruct (v0 <=? Z.min dn dp); [right|left]; eauto. split; auto. discriminate.
    - destruct (Z.leb_spec (-1) (Z.min dn dp)); [|lia]. right. exists (Z.min dn dp). auto.
  Qed.

  Lemma fold_best : forall l best, (forall t, In t l -> inN types t) ->
    (forall t v, best = Some (t, v) -> inN types t /\ cov t = false) ->
    match fold_left (consider types neg pos) l best with
    | None => best = None /\ forall t, In t l -> cov t = true
    | Some (t, _) => inN types t /\ cov t = false
    end.
  Proof.
    induction l as [|t l IH]; intros best Hl Hb; cbn [fold_left].
    - destruct best as [[t v]|]; eauto.
    - assert (Ht : inN types t) by (apply Hl; now left).
      specialize (IH (consider types neg pos best t)). destruct (consider_spec best t Ht) as [[E C]|(v & E & C)]; rewrite E in IH |- *.
      + specialize (IH (fun u Hu => Hl u (or_intror Hu)) Hb). destruct (fold_left _ l best) as [[u w]|]; auto.
        destruct IH as [-> IH]. split; auto. intros u [<-|Hu]; auto.
      + assert (X : forall t0 v0, Some (t, v) = Some (t0, v0) -> inN types t0 /\ cov t0 = false) by (intros ? ? Q; injection Q as <- <-; auto).
        specialize (IH (fun u Hu => Hl u (or_intror Hu)) X). destruct (fold_left _ l _) as [[u w]|]; auto.
        destruct IH as [IH _]. discriminate.
  Qed.

  Lemma best_spec : match findBest types neg pos with
    | None => forall t, inN types t -> cov t = true
    | Some (t, _) => inN types t /\ cov t = false
    end.
  Proof.
    unfold findBest. pose proof (fold_best (product (map (fun p => xrange (fst p) (snd p + 1)) types)) None) as H.
    destruct (fold_left _ _ None) as [[t v]|].
    - apply H; [intros u Hu; now apply in_boxes|discriminate].
    - intros t Ht. apply H; [intros u Hu; now apply in_boxes|discriminate|now apply in_boxes].
  Qed.

  Lemma cov_spec t : inN types t -> (forall u, In u neg \/ In u pos -> inN types u) ->
    (cov t = true <-> (exists u, In u neg /\ leT t u) \/ (exists u, In u pos /\ leT u t)).
  Proof.
    intros Ht Hin. assert (Len : forall u, In u neg \/ In u pos -> length u = length t).
    { intros u Hu. rewrite (inN_length _ _ Ht). apply inN_length. auto. }
    unfold cov, coveredNeg, coveredPos. rewrite orb_true_iff, !existsb_exists. split; intros [(u & H1 & H2)|(u & H1 & H2)]; [left|right|left|right];
      exists u; split; auto; apply comparator in H2 || apply comparator; auto; try (symmetry; auto); auto.
  Qed.
End BEST.

Lemma filter_length_lt {A} (f g : A -> bool) l x : (forall y, In y l -> g y = true -> f y = true) ->
  In x l -> f x = true -> g x = false -> (length (filter g l) < length (filter f l))%nat.
Proof.
  intros Hle Hx Fx Gx. induction l as [|a l IH]; [contradiction|].
  assert (LE : forall l', (forall y, In y l' -> g y = true -> f y = true) -> (length (filter g l') <= length (filter f l'))%nat).
  { clear. induction l' as [|b l' IH]; cbn; auto. intros H. specialize (IH (fun y Hy => H y (or_intror Hy))).
    destruct (g b) eqn:G; [rewrite (H b (or_introl eq_refl) G)|destruct (f b)]; cbn; lia. }
  cbn. destruct Hx as [->|Hx].
  - rewrite Fx, Gx. cbn. specialize (LE l (fun y Hy => Hle y (or_intror Hy))). lia.
  - specialize (IH (fun y Hy => Hle y (or_intror Hy)) Hx). destruct (g a) eqn:G.
    + rewrite (Hle a (or_introl eq_refl) G). cbn. lia.
    + destruct (f a); cbn; lia.
Qed.

Section MULTI.
  Variable script : list Z -> list string * Z.
  Variable ps : list parameter.
  Variable types : list (Z * Z).
  Variable real : list Z -> bool.
  Hypothesis Ans : forall t, inN types t -> checkRealizability (script (translate ps t)) = Some (real t).
  Hypothesis Inj : forall t u, inN types t -> inN types u -> translate ps t = translate ps u -> t = u.

  Definition multiInv (s : multiState) : Prop :=
    let '(neg, pos, calls) := s in
    (forall u, In u neg \/ In u pos -> inN types u) /\
    (forall u, In u neg -> real u = false) /\ (forall u, In u pos -> real u = true) /\
    (forall u v, In u pos -> In v pos -> leT u v -> u = v) /\ NoDup pos /\
    NoDup calls /\ (forall q, In q calls -> exists t, inN types t /\ q = translate ps t /\ cov neg pos t = true).

  Definition open (neg pos : list (list Z)) : nat :=
    length (filter (fun t => negb (cov neg pos t)) (product (map (fun p => xrange (fst p) (snd p + 1)) types))).

  Lemma NoDup_snoc {A} (l : list A) x : NoDup l -> ~ In x l -> NoDup (l ++ [x]).
  Proof.
    induction 1 as [|a l N H IH]; cbn; intros Hx; constructor; auto.
    - constructor.
    - intros X. apply in_app_iff in X. destruct X as [X|[X|[]]]; [auto|]. subst. apply Hx. now left.
  Qed.

  Lemma multiBody_spec s : multiInv s ->
    match multiBody script ps types s with
    | Cont s' => multiInv s' /\ (open (fst (fst s')) (snd (fst s')) < open (fst (fst s)) (snd (fst s)))%nat
    | Done (calls, front) => exists neg pos, multiInv (neg, pos, calls) /\ front = map (translate ps) pos /\
         forall t, inN types t -> cov neg pos t = true
    | Abort => False
    end.
  Proof.
    destruct s as [[neg pos] calls]. intros I. pose proof I as (I1 & I2 & I3 & I4 & I5 & I6 & I7). unfold multiBody.
    pose proof (best_spec types neg pos) as B. destruct (findBest types neg pos) as [[t v]|]; [|exists neg, pos; auto].
    destruct B as [Ht Ct]. rewrite (Ans t Ht). cbn [fst snd].
    assert (Len : forall u, inN types u -> length u = length t).
    { intros u Hu. rewrite (inN_length _ _ Ht). now apply inN_length. }
    assert (NoCov : ~ ((exists u, In u neg /\ leT t u) \/ (exists u, In u pos /\ leT u t))).
    { intros X. apply (cov_spec types neg pos t Ht I1) in X. congruence. }
    assert (NC : ~ In (translate ps t) calls).
    { intros X. destruct (I7 _ X) as (t' & Ht' & Et & Ct'). apply Inj in Et; auto. congruence. }
    assert (Key : forall neg' pos', (forall u, In u neg' \/ In u pos' -> inN types u) ->
       (forall x, inN types x -> cov neg pos x = true -> cov neg' pos' x = true) -> cov neg' pos' t = true ->
       (open neg' pos' < open neg pos)%nat /\ NoDup (calls ++ [translate ps t]) /\
       (forall q, In q (calls ++ [translate ps t])%list -> exists t, inN types t /\ q = translate ps t /\ cov neg' pos' t = true)).
    { intros neg' pos' Hin Hm Hc. split; [|split].
      - unfold open. apply (filter_length_lt _ _ _ t).
        + intros y Hy. apply in_boxes in Hy. rewrite !negb_true_iff. intros C. destruct (cov neg pos y) eqn:D; auto.
          rewrite (Hm y Hy D) in C. discriminate.
        + now apply in_boxes.
        + now rewrite Ct.
        + now rewrite Hc.
      - now apply NoDup_snoc.
      - intros q Hq. apply in_app_iff in Hq. destruct Hq as [Hq|[<-|[]]].
        + destruct (I7 _ Hq) as (t' & H1 & H2 & H3). exists t'. auto.
        + exists t. auto. }
    destruct (real t) eqn:R.
    - set (pos' := (filter (fun a => negb (isTrue (tupleComparator t a))) pos ++ [t])%list).
      assert (P' : forall u, In u pos' <-> (In u pos /\ ~ leT t u) \/ u = t).
      { intros u. unfold pos'. rewrite in_app_iff, filter_In. cbn [In]. split.
        - intros [[H1 H2]|[<-|[]]]; auto. left. split; auto. intros X. apply comparator in X; [now rewrite X in H2|]. symmetry. apply Len. auto.
        - intros [[H1 H2]| ->]; auto. left. split; auto. apply negb_true_iff, not_true_iff_false. intros X. apply H2.
          apply comparator; auto. symmetry. apply Len. auto. }
      assert (In' : forall u, In u neg \/ In u pos' -> inN types u).
      { intros u [Hu|Hu]; [auto|]. apply P' in Hu. destruct Hu as [[Hu _]| ->]; auto. }
      destruct (Key neg pos' In') as (K1 & K2 & K3).
      { intros x Hx C. apply (cov_spec types neg pos x Hx I1) in C. apply (cov_spec types neg pos' x Hx In').
        destruct C as [C|(u & H1 & H2)]; auto. right.
        destruct (isTrue (tupleComparator t u)) eqn:X.
        - apply comparator in X; [|symmetry; apply Len; auto]. exists t. split; [apply P'; auto|]. eapply leT_trans; eauto.
        - exists u. split; auto. apply P'. left. split; auto. intros Y. apply comparator in Y; [congruence|symmetry; apply Len; auto]. }
      { apply (cov_spec types neg pos' t Ht In'). right. exists t. split; [apply P'; auto|apply leT_refl]. }
      split; [|exact K1]. split; [exact In'|]. split; [exact I2|].
      split; [intros u Hu; apply P' in Hu; destruct Hu as [[Hu _]| ->]; auto|].
      split; [|split; [|split; [exact K2|exact K3]]].
      + intros u w Hu Hw LE. apply P' in Hu, Hw. destruct Hu as [[Hu Nu]| ->], Hw as [[Hw Nw]| ->]; auto.
        * elim NoCov. right. eauto.
        * contradiction.
      + apply NoDup_snoc; [now apply NoDup_filter|]. intros X. apply filter_In in X. destruct X as [_ X].
        assert (Y : isTrue (tupleComparator t t) = true) by (apply comparator; auto using leT_refl). rewrite Y in X. discriminate.
    - set (neg' := (filter (fun a => negb (isTrue (tupleComparator a t))) neg ++ [t])%list).
      assert (P' : forall u, In u neg' <-> (In u neg /\ ~ leT u t) \/ u = t).
      { intros u. unfold neg'. rewrite in_app_iff, filter_In. cbn [In]. split.
        - intros [[H1 H2]|[<-|[]]]; auto. left. split; auto. intros X. apply comparator in X; [now rewrite X in H2|]. apply Len. auto.
        - intros [[H1 H2]| ->]; auto. left. split; auto. apply negb_true_iff, not_true_iff_false. intros X. apply H2.
          apply comparator; auto. }
      assert (In' : forall u, In u neg' \/ In u pos -> inN types u).
      { intros u [Hu|Hu]; [|auto]. apply P' in Hu. destruct Hu as [[Hu _]| ->]; auto. }
      destruct (Key neg' pos In') as (K1 & K2 & K3).
      { intros x Hx C. apply (cov_spec types neg pos x Hx I1) in C. apply (cov_spec types neg' pos x Hx In').
        destruct C as [(u & H1 & H2)|C]; auto. left.
        destruct (isTrue (tupleComparator u t)) eqn:X.
        - apply comparator in X; [|apply Len; auto]. exists t. split; [apply P'; auto|]. eapply leT_trans; eauto.
        - exists u. split; auto. apply P'. left. split; auto. intros Y. apply comparator in Y; [congruence|apply Len; auto]. }
      { apply (cov_spec types neg' pos t Ht In'). left. exists t. split; [apply P'; auto|apply leT_refl]. }
      split; [|exact K1]. split; [exact In'|].
      split; [intros u Hu; apply P' in Hu; destruct Hu as [[Hu _]| ->]; auto|].
      split; [exact I3|]. split; [exact I4|]. split; [exact I5|]. split; [exact K2|exact K3].
  Qed.

  Lemma multiInv0 : multiInv ([], [], []).
  Proof. split; [intros u [[]|[]]|]. split; [intros u []|]. split; [intros u []|]. split; [intros u v []|]. split; [constructor|]. split; [constructor|intros q []]. Qed.

  Lemma multi_total : exists n r, run (multiBody script ps types) n ([], [], []) = Some r.
  Proof.
    set (m := fun s : multiState => open (fst (fst s)) (snd (fst s))).
    destruct (run_total (multiBody script ps types) multiInv m (m ([], [], [])) ([], [], []) multiInv0) as (r & Er & _).
    - intros s Is. pose proof (multiBody_spec s Is) as B. destruct (multiBody script ps types s); auto.
    - apply Nat.pow_gt_lin_r. lia.
    - eauto.
  Qed.

  Lemma multi_result n calls front : run (multiBody script ps types) n ([], [], []) = Some (calls, front) ->
    exists neg pos, multiInv (neg, pos, calls) /\ front = map (translate ps) pos /\ forall t, inN types t -> cov neg pos t = true.
  Proof.
    intros E. apply run_Runs in E.
    apply (Runs_inv (multiBody script ps types) multiInv (fun r => match r with (calls, front) => exists neg pos, multiInv (neg, pos, calls) /\
        front = map (translate ps) pos /\ forall t, inN types t -> cov neg pos t = true end) _ (calls, front) E multiInv0).
    - intros s s' Is Eb. pose proof (multiBody_spec s Is) as B. rewrite Eb in B. tauto.
    - intros s r Is Eb. pose proof (multiBody_spec s Is) as B. rewrite Eb in B. exact B.
  Qed.
End MULTI.

(** ** Directions *)

Definition typeOf (p : parameter) : Z * Z := let '(mini, maxi, d) := p in if d then (mini, maxi) else (-1 * maxi, -1 * mini).

Lemma normalize_spec ps : Forall (fun p : parameter => 0 <= fst (fst p) /\ 0 <= snd (fst p)) ps -> normalize ps = Some (map typeOf ps).
Proof.
  induction 1 as [|[[lo hi] d] ps [H1 H2] H IH]; cbn [normalize map]; auto. cbn [fst snd] in *.
  destruct (Z.leb_spec 0 lo); [|lia]. destruct (Z.leb_spec 0 hi); [|lia]. cbn [andb]. rewrite IH. reflexivity.
Qed.

Lemma translate_twice ps t : length t = length ps -> translate ps (translate ps t) = t.
Proof.
  revert t. induction ps as [|[[lo hi] d] ps IH]; intros [|v t] E; try discriminate; cbn [translate]; auto.
  injection E as E. rewrite IH by auto. f_equal. destruct d; lia.
Qed.

Lemma box_translate ps t : inN (map typeOf ps) t <-> length t = length ps /\ in_box ps (translate ps t).
Proof.
  unfold inN, in_box. revert t. induction ps as [|[[lo hi] d] ps IH]; intros t; cbn [map]; split.
  - intros H. inversion H; subst. split; auto. constructor.
  - intros [H _]. destruct t; [constructor|discriminate].
  - intros H. inversion H as [|? v ? u H1 H2]; subst. apply IH in H2. destruct H2 as [H2 H3]. split; [cbn; auto|].
    assert (H1' : fst (typeOf (lo, hi, d)) <= v <= snd (typeOf (lo, hi, d))) by exact H1. clear H1. unfold typeOf in H1'.
    cbn [translate]. constructor; auto. destruct d; cbn [fst snd] in *; lia.
  - intros [H1 H2]. destruct t as [|v t]; [discriminate|]. injection H1 as H1. cbn [translate] in H2. inversion H2 as [|? ? ? ? H3 H4]; subst.
    assert (H3' : fst (fst (lo, hi, d)) <= (if d then v else -1 * v) <= snd (fst (lo, hi, d))) by exact H3. clear H3.
    constructor; [unfold typeOf; destruct d; cbn [fst snd] in *; lia|]. now apply IH.
Qed.

Lemma easier_translate ps a b : length a = length ps -> length b = length ps ->
  (easier ps (translate ps a) (translate ps b) <-> leT a b).
Proof.
  revert a b. induction ps as [|[[lo hi] d] ps IH]; intros [|v a] [|w b] E1 E2; try discriminate; cbn [translate].
  - split; intros _; constructor.
  - injection E1 as E1. injection E2 as E2. split; intros H; [inversion H as [|? ? ? ? ? ? H1 H2]|inversion H as [|? ? ? ? H1 H2]]; subst.
    + assert (H1' : if d then (if d then v else -1 * v) <= (if d then w else -1 * w) else (if d then w else -1 * w) <= (if d then v else -1 * v)) by exact H1.
      clear H1. constructor; [destruct d; lia|]. now apply IH.
    + constructor; [cbn [snd]; destruct d; lia|]. now apply IH.
Qed.

Lemma box_length ps t : in_box ps t -> length t = length ps.
Proof. unfold in_box. induction 1; cbn; auto. Qed.

Lemma inN_of_box ps t : in_box ps t -> inN (map typeOf ps) (translate ps t).
Proof.
  intros H. pose proof (box_length _ _ H) as E. apply box_translate. rewrite (translate_twice ps t E). split; auto.
  clear H. revert t E. induction ps as [|[[lo hi] d] ps IH]; intros [|v t] E; try discriminate; cbn [translate length]; auto.
Qed.
