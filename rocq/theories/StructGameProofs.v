(** * Proofs: games over integers and games over their bits *)

From Coq Require Import String Ascii List Bool Arith NArith ZArith Lia.
From Verif Require Import FormulaSpec Spec FileSpec StructuredSpec StructuredProofs StructuredAccept StructGrammar StructFileSpec.
Import ListNotations.
Local Open Scope list_scope.

(** ** Values and bits *)

Definition size (d : declaration) : nat := match d with DBool _ => 1 | DInt _ mn mx => bitsFor (mx - mn) end.
Definition proper (d : declaration) : Prop := match d with DBool _ => True | DInt _ mn mx => (mn <= mx)%Z end.
Definition enc (ds : list declaration) (vs : list value) : list bool := flat_map (fun dv => bitsOf (fst dv) (snd dv)) (combine ds vs).
Definition decV (d : declaration) (bs : list bool) : value :=
  match d with DBool _ => VBool (hd false bs) | DInt _ mn mx => VInt (Z.min mx (mn + bitsValue bs)) end.
Fixpoint dec (ds : list declaration) (bs : list bool) : list value :=
  match ds with [] => [] | d :: ds => decV d (firstn (size d) bs) :: dec ds (skipn (size d) bs) end.
Definition inV (d : declaration) (bs : list bool) : Prop :=
  match d with DBool _ => True | DInt _ mn mx => (mn + bitsValue bs <= mx)%Z end.
Fixpoint inRange (ds : list declaration) (bs : list bool) : Prop :=
  match ds with [] => True | d :: ds => inV d (firstn (size d) bs) /\ inRange ds (skipn (size d) bs) end.
Definition total (ds : list declaration) : nat := list_sum (map size ds).

Lemma size_names d : length (namesOfBits d) = size d.
Proof. destruct d as [x|x mn mx]; [reflexivity|]. cbn. unfold bitNames. now rewrite map_length, seq_length. Qed.
Lemma bitsOf_length d v : fits d v -> length (bitsOf d v) = size d.
Proof. destruct d, v; cbn; try contradiction; auto. now rewrite map_length, seq_length. Qed.

Lemma bitsValue_testbit n : forall v, (0 <= v < 2 ^ Z.of_nat n)%Z -> bitsValue (map (fun i => Z.testbit v (Z.of_nat i)) (seq 0 n)) = v.
Proof.
  intros v H. rewrite bits_mod. rewrite Z.div_1_r. now apply Z.mod_small.
Qed.
Lemma testbit_bits bs : map (fun i => Z.testbit (bitsValue bs) (Z.of_nat i)) (seq 0 (length bs)) = bs.
Proof.
  induction bs as [|b bs IH]; [reflexivity|]. cbn [length seq map bitsValue].
  f_equal; [now rewrite Z.add_comm, Z.testbit_0_r|]. rewrite <- IH at 2. rewrite <- seq_shift, map_map. apply map_ext. intros i.
  rewrite Nat2Z.inj_succ, Z.add_comm, Z.testbit_succ_r; [reflexivity|lia].
Qed.

Lemma decV_bitsOf d v : fits d v -> decV d (bitsOf d v) = v /\ inV d (bitsOf d v).
Proof.
  destruct d as [x|x mn mx], v as [b|z]; cbn; try contradiction; auto. intros H.
  destruct (bitsFor_spec (mx - mn) ltac:(lia)) as [B _].
  rewrite bitsValue_testbit by lia. split; [f_equal; lia|lia].
Qed.
Lemma bitsOf_decV d bs : length bs = size d -> inV d bs -> bitsOf d (decV d bs) = bs.
Proof.
  destruct d as [x|x mn mx]; cbn.
  - destruct bs as [|b [|]]; cbn; try discriminate; auto.
  - intros L H. rewrite Z.min_r by lia. rewrite <- L. transitivity (map (fun i => Z.testbit (bitsValue bs) (Z.of_nat i)) (seq 0 (length bs))); [|apply testbit_bits].
    apply map_ext. intros i. f_equal. lia.
Qed.
Lemma fits_decV d bs : proper d -> fits d (decV d bs).
Proof. destruct d as [x|x mn mx]; cbn; auto. intros H. pose proof (bitsValue_nonneg bs). lia. Qed.

Lemma firstn_app_l {A} n (l l' : list A) : length l = n -> firstn n (l ++ l') = l.
Proof. intros <-. rewrite firstn_app, Nat.sub_diag, firstn_all. cbn. apply app_nil_r. Qed.
Lemma skipn_app_l {A} n (l l' : list A) : length l = n -> skipn n (l ++ l') = l'.
Proof. intros <-. rewrite skipn_app, Nat.sub_diag, skipn_all. reflexivity. Qed.

Lemma dec_enc ds vs : Forall2 fits ds vs -> dec ds (enc ds vs) = vs /\ inRange ds (enc ds vs) /\ length (enc ds vs) = total ds.
Proof.
  induction 1 as [|d v ds vs H _ (IH1 & IH2 & IH3)]; [cbn; auto|].
  unfold enc in *. cbn [combine flat_map dec inRange fst snd].
  rewrite firstn_app_l, skipn_app_l by now apply bitsOf_length. destruct (decV_bitsOf d v H) as [E1 E2].
  split; [now rewrite E1, IH1|]. split; [auto|]. rewrite app_length, IH3, bitsOf_length by auto. reflexivity.
Qed.
Lemma enc_dec ds : forall bs, length bs = total ds -> inRange ds bs -> enc ds (dec ds bs) = bs.
Proof.
  induction ds as [|d ds IH]; intros bs L R.
  - destruct bs; [reflexivity|discriminate].
  - change (total (d :: ds)) with (size d + total ds) in L. destruct R as [R1 R2]. unfold enc in *. cbn [dec combine flat_map fst snd].
    rewrite IH; auto; [|rewrite skipn_length; lia]. rewrite bitsOf_decV; auto; [apply firstn_skipn|]. rewrite firstn_length. lia.
Qed.
Lemma fits_dec ds : Forall proper ds -> forall bs, Forall2 fits ds (dec ds bs).
Proof. induction 1; intros bs; cbn; constructor; auto. now apply fits_decV. Qed.

Lemma enc_app ds ds' vs vs' : length ds = length vs -> enc (ds ++ ds') (vs ++ vs') = enc ds vs ++ enc ds' vs'.
Proof.
  unfold enc. revert vs. induction ds as [|d ds IH]; intros [|v vs] L; try discriminate; [reflexivity|].
  cbn. rewrite <- app_assoc. f_equal. apply IH. now injection L.
Qed.

(** ** Games *)

Section TRANSFER.
  Variables ins outs : list declaration.
  Variable m : section -> list (position -> position -> bool).
  Variable L : items.
  Variables fs fs1 fs2 : section -> list fml.
  Variable thoroughly : bool.
  Let nI := total ins.
  Let nO := total outs.
  Let g := file_game L fs.

  Definition okPos (p : position) : Prop := Forall2 fits ins (fst p) /\ Forall2 fits outs (snd p).
  Definition bitsI (st : state) : list bool := map st (seq 0 nI).
  Definition bitsO (st : state) : list bool := map st (seq nI nO).

  Hypothesis Hproper : Forall proper ins /\ Forall proper outs.
  Hypothesis Hout : outputs L = repeat false nI ++ repeat true nO.
  Hypothesis Hfs : forall s, fs s = fs1 s ++ fs2 s.
  Hypothesis Hdep : forall s f, formulaSection s = true -> In f (fs s) -> forall e e',
    (forall i, Nat.div2 i < nI + nO -> may_use s (nth (Nat.div2 i) (outputs L) false) (Nat.odd i) = true -> e i = e' i) -> holds f e = holds f e'.
  Hypothesis Hrel : forall s, formulaSection s = true ->
    Forall2 (fun c f => forall p q, okPos p -> okPos q -> c p q = holds f (valuation (bitState ins outs p) (bitState ins outs q))) (m s) (fs1 s).
  Hypothesis Hei : forall st, forallb (fun f => holds f (valuation st st)) (fs2 SEnvInit) = true <-> inRange ins (bitsI st).
  Hypothesis Hsi : forall st, forallb (fun f => holds f (valuation st st)) (fs2 SSysInit) = true <-> inRange outs (bitsO st).
  Hypothesis Het : forall st st', forallb (fun f => holds f (valuation st st')) (fs2 SEnvTrans) = true <->
    inRange ins (bitsI st') /\ (thoroughly = true -> inRange ins (bitsI st)).
  Hypothesis Hst : forall st st', forallb (fun f => holds f (valuation st st')) (fs2 SSysTrans) = true <->
    inRange outs (bitsO st') /\ (thoroughly = true -> inRange outs (bitsO st)).
  Hypothesis Hlive : fs2 SEnvLive = [] /\ fs2 SSysLive = [].

  (** A position and a valuation of the bits. *)
  Definition agrees (p : position) (st : state) : Prop := okPos p /\ forall k, k < nI + nO -> st k = bitState ins outs p k.

  Lemma bitState_enc p : okPos p -> forall k, bitState ins outs p k = nth k (enc ins (fst p) ++ enc outs (snd p)) false.
  Proof.
    intros [H1 H2] k. unfold bitState. f_equal. apply (enc_app ins outs). eapply F2_length; eauto.
  Qed.

  Lemma map_nth_seq (l : list bool) : forall n, map (fun k => nth k l false) (seq n (length l - n)) = skipn n l.
  Proof.
    induction l as [|b l IH]; intros n; [destruct n; reflexivity|]. destruct n as [|n].
    - cbn [length Nat.sub seq map skipn nth]. f_equal. rewrite <- seq_shift, map_map. cbn [nth]. specialize (IH 0). rewrite Nat.sub_0_r in IH. exact IH.
    - cbn [length Nat.sub skipn]. rewrite <- seq_shift, map_map. cbn [nth]. apply IH.
  Qed.

  (** The outputs and inputs of a valuation that is within the ranges. *)
  Lemma agrees_dec st : inRange ins (bitsI st) -> inRange outs (bitsO st) -> agrees (dec ins (bitsI st), dec outs (bitsO st)) st.
  Proof.
    intros R1 R2. destruct Hproper as [P1 P2].
    assert (O : okPos (dec ins (bitsI st), dec outs (bitsO st))) by (split; cbn; now apply fits_dec).
    split; [exact O|]. intros k Hk. rewrite bitState_enc by exact O. cbn [fst snd].
    rewrite !enc_dec; auto; try (unfold bitsI, bitsO; now rewrite map_length, seq_length).
    unfold bitsI, bitsO. rewrite <- map_app, <- seq_app.
    rewrite (nth_indep _ false (st 0)) by (rewrite map_length, seq_length; lia). rewrite map_nth. now rewrite seq_nth by lia.
  Qed.
  Lemma agrees_bits p st : agrees p st -> bitsI st = enc ins (fst p) /\ bitsO st = enc outs (snd p).
  Proof.
    intros [O H]. destruct (dec_enc _ _ (proj1 O)) as (_ & _ & L1). destruct (dec_enc _ _ (proj2 O)) as (_ & _ & L2).
    assert (E : bitsI st ++ bitsO st = enc ins (fst p) ++ enc outs (snd p)).
    { unfold bitsI, bitsO. rewrite <- map_app, <- seq_app.
      pose proof (map_nth_seq (enc ins (fst p) ++ enc outs (snd p)) 0) as M. cbn [skipn] in M. rewrite <- M.
      rewrite app_length, L1, L2, Nat.sub_0_r. apply map_ext_in. intros k Hk. apply in_seq in Hk. rewrite H by (unfold nI, nO in *; lia). now apply bitState_enc. }
    assert (LL : length (bitsI st) = length (enc ins (fst p))) by (unfold bitsI; now rewrite map_length, seq_length, L1).
    split.
    - apply (f_equal (firstn (length (bitsI st)))) in E. rewrite firstn_app_l in E by auto. rewrite LL, firstn_app_l in E by auto. exact E.
    - apply (f_equal (skipn (length (bitsI st)))) in E. rewrite skipn_app_l in E by auto. rewrite LL, skipn_app_l in E by auto. exact E.
  Qed.
  Lemma agrees_range p st : agrees p st -> inRange ins (bitsI st) /\ inRange outs (bitsO st).
  Proof.
    intros A. destruct (agrees_bits _ _ A) as [-> ->]. destruct A as [[O1 O2] _]. split; now apply dec_enc.
  Qed.

  Lemma div2_cases i : Nat.even i = true /\ Nat.odd i = false \/ Nat.even i = false /\ Nat.odd i = true.
  Proof. unfold Nat.odd. destruct (Nat.even i); auto. Qed.
  Lemma nth_out k : k < nI + nO -> nth k (outputs L) false = negb (Nat.ltb k nI).
  Proof.
    intros H. rewrite Hout. destruct (Nat.ltb_spec k nI).
    - rewrite app_nth1 by now rewrite repeat_length. now rewrite nth_repeat.
    - rewrite app_nth2 by now rewrite repeat_length. rewrite repeat_length. rewrite (nth_indep _ false true) by (rewrite repeat_length; lia). now rewrite nth_repeat.
  Qed.

  (** Formulas over the bits and over the values. *)
  Lemma formula_same s c f p q st st' : formulaSection s = true -> In f (fs s) ->
    (forall p q, okPos p -> okPos q -> c p q = holds f (valuation (bitState ins outs p) (bitState ins outs q))) ->
    okPos p -> okPos q ->
    (forall k, k < nI + nO -> may_use s (negb (Nat.ltb k nI)) false = true -> st k = bitState ins outs p k) ->
    (forall k, k < nI + nO -> may_use s (negb (Nat.ltb k nI)) true = true -> st' k = bitState ins outs q k) ->
    c p q = holds f (valuation st st').
  Proof.
    intros Hs If Hc Op Oq H1 H2. rewrite Hc by auto. apply (Hdep s); auto. intros i Hi M. rewrite nth_out in M by auto. unfold valuation.
    destruct (div2_cases i) as [[E O]|[E O]]; rewrite E; rewrite O in M; symmetry; auto.
  Qed.
  Lemma section_same s p q st st' : formulaSection s = true -> okPos p -> okPos q ->
    (forall k, k < nI + nO -> may_use s (negb (Nat.ltb k nI)) false = true -> st k = bitState ins outs p k) ->
    (forall k, k < nI + nO -> may_use s (negb (Nat.ltb k nI)) true = true -> st' k = bitState ins outs q k) ->
    allOf m s p q = forallb (fun f => holds f (valuation st st')) (fs1 s).
  Proof.
    intros Hs Op Oq H1 H2. unfold allOf.
    assert (I : forall f, In f (fs1 s) -> In f (fs s)) by (intros f X; rewrite Hfs, in_app_iff; auto).
    pose proof (Hrel s Hs) as R. revert I. induction R as [|c f cs l Hc _ IH]; intros I; [reflexivity|]. cbn.
    rewrite IH by (intros; apply I; now right). f_equal. apply (formula_same s); auto. apply I. now left.
  Qed.

  Lemma whole s st st' : forallb (fun f => holds f (valuation st st')) (fs s) =
    forallb (fun f => holds f (valuation st st')) (fs1 s) && forallb (fun f => holds f (valuation st st')) (fs2 s).
  Proof. rewrite Hfs. apply forallb_app. Qed.

  (** *** Liveness *)
  Lemma live_same s : formulaSection s = true -> fs2 s = [] -> forall (piT : nat -> position) (piB : nat -> state), (forall n, agrees (piT n) (piB n)) ->
    ((forall c, In c (m s) -> infinitelyOften c piT) <->
     (forall p, In p (map (fun f st st' => holds f (valuation st st')) (fs s)) -> inf_often p piB)).
  Proof.
    intros Hs H2 piT piB A.
    assert (I : forall f, In f (fs1 s) -> In f (fs s)) by (intros f X; rewrite Hfs, in_app_iff; auto).
    assert (E : fs s = fs1 s) by (rewrite Hfs, H2; apply app_nil_r). rewrite E. pose proof (Hrel s Hs) as R. clear E.
    assert (K : forall c f, In f (fs s) -> (forall p q, okPos p -> okPos q -> c p q = holds f (valuation (bitState ins outs p) (bitState ins outs q))) ->
      forall n, c (piT n) (piT (S n)) = holds f (valuation (piB n) (piB (S n)))).
    { intros c f If Hc n. destruct (A n) as [O1 A1], (A (S n)) as [O2 A2]. apply (formula_same s); auto. }
    revert I. induction R as [|c f cs l Hc _ IH]; intros I; cbn; [split; intros ? ? []|].
    assert (If : In f (fs s)) by (apply I; now left). specialize (IH ltac:(intros; apply I; now right)). specialize (K c f If Hc).
    split; intros H x [<-|Ix]; try (apply IH; auto; fail).
    - intros n. destruct (H c (or_introl eq_refl) n) as (k & Hk & V). exists k. split; auto. now rewrite <- K.
    - intros n. destruct (H _ (or_introl eq_refl) n) as (k & Hk & V). exists k. split; auto. now rewrite K.
  Qed.

  Lemma out_g k : k < nI + nO -> g_out g k = negb (Nat.ltb k nI).
  Proof. apply nth_out. Qed.
  Lemma out_g_in k : k < nI -> g_out g k = false.
  Proof. intros H. rewrite out_g by lia. destruct (Nat.ltb_spec k nI); auto. lia. Qed.
  Lemma out_g_out k : nI <= k < nI + nO -> g_out g k = true.
  Proof. intros H. rewrite out_g by lia. destruct (Nat.ltb_spec k nI); auto. lia. Qed.
  Lemma bitsI_merge x y : bitsI (merge g x y) = bitsI x.
  Proof. unfold bitsI. apply map_ext_in. intros k Hk. apply in_seq in Hk. unfold merge. now rewrite out_g_in by lia. Qed.
  Lemma bitsO_merge x y : bitsO (merge g x y) = bitsO y.
  Proof. unfold bitsO. apply map_ext_in. intros k Hk. apply in_seq in Hk. unfold merge. now rewrite out_g_out by lia. Qed.

  (** *** From plays over integers to plays over bits *)
  Section DOWN.
    Variable f : intStrategy.
    Hypothesis Hf : fitting outs f.
    Fixpoint thist (xs : list (list value)) : list position :=
      match xs with [] => [] | x :: xs => let h := thist xs in (x, f h x) :: h end.
    Definition valI (st : state) : list value := dec ins (bitsI st).
    Definition down : strategy := fun h x => fun k => nth (k - nI) (enc outs (f (thist (map valI h)) (valI x))) false.
    Variable x' : nat -> state.
    Let x n := valI (x' n).
    Fixpoint upTo (n : nat) : list (list value) := match n with O => [x 0] | S k => x n :: upTo k end.

    Lemma down_hist n : intHistory f x n = thist (upTo n) /\ map valI (history g down x' n) = upTo n.
    Proof.
      induction n as [|n [IH1 IH2]].
      - cbn. unfold valI. rewrite bitsI_merge. auto.
      - cbn [intHistory history upTo map thist]. rewrite IH1, IH2. split; auto. f_equal. unfold valI. now rewrite bitsI_merge.
    Qed.
    Lemma down_out y : Forall2 fits outs y -> bitsO (fun k => nth (k - nI) (enc outs y) false) = enc outs y.
    Proof.
      intros H. destruct (dec_enc _ _ H) as (_ & _ & L1). unfold bitsO.
      pose proof (map_nth_seq (enc outs y) 0) as M. cbn [skipn] in M. rewrite Nat.sub_0_r, L1 in M. etransitivity; [|exact M]. fold nO.
      assert (S : forall n k, map (fun k => nth (k - nI) (enc outs y) false) (seq (nI + k) n) = map (fun k => nth k (enc outs y) false) (seq k n)).
      { clear. induction n as [|n IH]; intros k; [reflexivity|]. cbn [seq map]. f_equal; [f_equal; lia|]. rewrite <- Nat.add_succ_r. apply IH. }
      specialize (S nO 0). now rewrite Nat.add_0_r in S.
    Qed.
    Lemma down_play n : valI (play g down x' n) = fst (intPlay f x n) /\ bitsO (play g down x' n) = enc outs (snd (intPlay f x n)) /\
      Forall2 fits outs (snd (intPlay f x n)) /\ fst (intPlay f x n) = x n.
    Proof.
      unfold play, intPlay. destruct n as [|n].
      - cbn. unfold valI. rewrite bitsI_merge, bitsO_merge. repeat split; auto. rewrite <- down_out by apply Hf. reflexivity.
      - cbn [intHistory history hd]. destruct (down_hist n) as [E1 E2]. unfold valI. rewrite bitsI_merge, bitsO_merge. cbn [fst snd].
        split; [reflexivity|]. split; [|split; auto]. change (down ?h ?y) with (fun k => nth (k - nI) (enc outs (f (thist (map valI h)) (valI y))) false).
        rewrite E2, E1. now apply down_out.
    Qed.
    Lemma down_agrees n : inRange ins (bitsI (play g down x' n)) -> agrees (intPlay f x n) (play g down x' n).
    Proof.
      intros R. destruct (down_play n) as (E1 & E2 & F & _).
      assert (R2 : inRange outs (bitsO (play g down x' n))) by (rewrite E2; now apply dec_enc).
      pose proof (agrees_dec _ R R2) as A. replace (intPlay f x n) with (dec ins (bitsI (play g down x' n)), dec outs (bitsO (play g down x' n))); auto.
      rewrite E2, (proj1 (dec_enc _ _ F)). change (dec ins (bitsI (play g down x' n))) with (valI (play g down x' n)). rewrite E1. now destruct (intPlay f x n).
    Qed.
    Lemma down_objective : intObjective m (intPlay f x) -> objective g (play g down x').
    Proof.
      intros O. set (piB := play g down x') in *. set (piT := intPlay f x) in *.
      unfold objective. cbn [g_initE g_initS g file_game]. rewrite !whole, !andb_true_iff. intros [I1 I2]. apply Hei in I2.
      assert (A0 : agrees (piT 0) (piB 0)) by now apply down_agrees.
      destruct O as (OI & OS & OL).
      { destruct A0 as [O A]. erewrite section_same; [exact I1| | | | |]; auto. }
      split; [split|].
      - destruct A0 as [O A]. erewrite <- section_same; [exact OI| | | | |]; auto.
      - apply Hsi. now apply (agrees_range (piT 0)).
      - assert (STEP : forall n, agrees (piT n) (piB n) -> g_safeE g (piB n) (piB (S n)) = true ->
          agrees (piT (S n)) (piB (S n)) /\ allOf m SEnvTrans (piT n) (piT (S n)) = true).
        { intros n A. cbn [g_safeE g file_game]. rewrite whole, andb_true_iff. intros [T1 T2]. apply Het in T2. destruct T2 as [T2 _].
          assert (A' : agrees (piT (S n)) (piB (S n))) by now apply down_agrees. split; auto.
          destruct A as [O A], A' as [O' A']. erewrite section_same; [exact T1| | | | |]; auto. }
        split.
        + intros n E. assert (AA : forall k, k <= S n -> agrees (piT k) (piB k)).
          { induction k as [|k IH]; intros Hk; auto. apply STEP; [apply IH; lia|apply E; lia]. }
          cbn [g_safeS g file_game]. rewrite whole, andb_true_iff. split.
          * destruct (AA n ltac:(lia)) as [O A], (AA (S n) ltac:(lia)) as [O' A'].
            rewrite <- (section_same SSysTrans (piT n) (piT (S n))); auto.
            apply OS. intros k Hk. apply STEP; [apply AA; lia|apply E; lia].
          * apply Hst. split; [|intros _]; eapply agrees_range; eauto.
        + intros E HA. assert (AA : forall n, agrees (piT n) (piB n)) by (induction n as [|n IH]; auto; apply STEP; auto).
          apply (live_same SSysLive eq_refl (proj2 Hlive) piT piB AA). apply OL.
          * intros n. apply STEP; auto.
          * now apply (live_same SEnvLive eq_refl (proj1 Hlive) piT piB AA).
    Qed.
  End DOWN.

  (** *** From plays over bits to plays over integers *)
  Section UP.
    Variable f' : strategy.
    Definition stI (vs : list value) : state := fun k => nth k (enc ins vs) false.
    Fixpoint bhist (xs : list (list value)) : list state :=
      match xs with [] => [] | x :: xs => let h := bhist xs in merge g (stI x) (f' h (stI x)) :: h end.
    Definition up : intStrategy := fun h v => dec outs (bitsO (f' (bhist (map fst h)) (stI v))).
    Lemma up_fits : fitting outs up.
    Proof. intros h v. apply fits_dec. apply Hproper. Qed.
    Variable x : nat -> list value.
    Hypothesis Hx : fittingInputs ins x.
    Let x' n := stI (x n).
    Lemma up_hist n : history g f' x' n = bhist (map fst (intHistory up x n)).
    Proof. induction n as [|n IH]; cbn [history intHistory map fst bhist]; [reflexivity|]. now rewrite IH. Qed.
    Lemma stI_bits vs : Forall2 fits ins vs -> bitsI (stI vs) = enc ins vs.
    Proof.
      intros H. destruct (dec_enc _ _ H) as (_ & _ & L1). unfold bitsI, stI.
      pose proof (map_nth_seq (enc ins vs) 0) as M. cbn [skipn] in M. rewrite Nat.sub_0_r, L1 in M. exact M.
    Qed.
    Lemma up_play n : intPlay up x n = (x n, dec outs (bitsO (play g f' x' n))) /\ bitsI (play g f' x' n) = enc ins (x n).
    Proof.
      unfold play, intPlay. destruct n as [|n].
      - cbn [intHistory history hd]. rewrite bitsI_merge, bitsO_merge. split; [reflexivity|]. apply stI_bits, Hx.
      - cbn [intHistory history hd]. rewrite bitsI_merge, bitsO_merge. split; [|apply stI_bits, Hx]. unfold up at 1. now rewrite <- up_hist.
    Qed.
    Lemma up_ok n : okPos (intPlay up x n).
    Proof. rewrite (proj1 (up_play n)). split; cbn; [apply Hx|apply fits_dec, Hproper]. Qed.
    (** The inputs agree. *)
    Lemma up_inputs n k : k < nI -> play g f' x' n k = bitState ins outs (intPlay up x n) k.
    Proof.
      intros Hk. rewrite bitState_enc by apply up_ok. destruct (up_play n) as [E1 E2]. rewrite E1. cbn [fst snd].
      destruct (dec_enc _ _ (Hx n)) as (_ & _ & L1). rewrite app_nth1 by (rewrite L1; exact Hk). rewrite <- E2. unfold bitsI.
      rewrite (nth_indep _ false (play g f' x' n 0)) by now rewrite map_length, seq_length. rewrite map_nth. now rewrite seq_nth.
    Qed.
    Lemma up_inRange n : inRange ins (bitsI (play g f' x' n)).
    Proof. rewrite (proj2 (up_play n)). apply dec_enc, Hx. Qed.
    Lemma up_agrees n : inRange outs (bitsO (play g f' x' n)) -> agrees (intPlay up x n) (play g f' x' n).
    Proof.
      intros R. pose proof (agrees_dec _ (up_inRange n) R) as A. destruct (up_play n) as [E1 E2]. rewrite E1.
      rewrite E2, (proj1 (dec_enc _ _ (Hx n))) in A. exact A.
    Qed.
    Lemma up_objective : objective g (play g f' x') -> intObjective m (intPlay up x).
    Proof.
      intros O. set (piB := play g f' x') in *. set (piT := intPlay up x) in *. intros I.
      unfold objective in O. cbn [g_initE g_initS g file_game] in O. rewrite !whole, !andb_true_iff in O.
      destruct O as ((OI1 & OI2) & OS & OL).
      { split; [|apply Hei, up_inRange]. rewrite <- (section_same SEnvInit (piT 0) (piT 0) (piB 0) (piB 0)); [exact I|reflexivity|apply up_ok|apply up_ok| |]; intros k Hk; cbn [may_use].
        - destruct (Nat.ltb_spec k nI); cbn [negb andb]; [|discriminate]. intros _. now apply up_inputs.
        - rewrite andb_false_r. discriminate. }
      apply Hsi in OI2. assert (A0 : agrees (piT 0) (piB 0)) by now apply up_agrees.
      assert (SE : forall n, agrees (piT n) (piB n) -> allOf m SEnvTrans (piT n) (piT (S n)) = true -> g_safeE g (piB n) (piB (S n)) = true).
      { intros n A E. cbn [g_safeE g file_game]. rewrite whole, andb_true_iff. split.
        - rewrite <- (section_same SEnvTrans (piT n) (piT (S n)) (piB n) (piB (S n))); [exact E|reflexivity|apply up_ok|apply up_ok| |]; intros k Hk; cbn [may_use].
          + intros _. now apply A.
          + destruct (Nat.ltb_spec k nI); cbn [negb andb]; [|discriminate]. intros _. now apply up_inputs.
        - apply Het. split; [apply up_inRange|intros _; apply up_inRange]. }
      assert (SS : forall n, agrees (piT n) (piB n) -> g_safeS g (piB n) (piB (S n)) = true ->
        agrees (piT (S n)) (piB (S n)) /\ allOf m SSysTrans (piT n) (piT (S n)) = true).
      { intros n A. cbn [g_safeS g file_game]. rewrite whole, andb_true_iff. intros [T1 T2]. apply Hst in T2. destruct T2 as [T2 _].
        assert (A' : agrees (piT (S n)) (piB (S n))) by now apply up_agrees. split; auto.
        destruct A as [O A], A' as [O' A']. erewrite section_same; [exact T1| | | | |]; auto. }
      split; [|split].
      - destruct A0 as [O A]. erewrite section_same; [exact OI1| | | | |]; auto.
      - intros n E. assert (AA : forall k, k <= n -> agrees (piT k) (piB k) /\ forall j, j < k -> g_safeE g (piB j) (piB (S j)) = true).
        { induction k as [|k IH]; intros Hk; [split; auto; intros; lia|]. destruct (IH ltac:(lia)) as [A B].
          assert (B' : forall j, j <= k -> g_safeE g (piB j) (piB (S j)) = true).
          { intros j Hj. destruct (Nat.eq_dec j k) as [->|]; [apply SE; auto; apply E; lia|apply B; lia]. }
          split; [|intros j Hj; apply B'; lia]. now apply SS; [|apply OS]. }
        destruct (AA n ltac:(lia)) as [A B]. apply SS; auto. apply OS. intros j Hj.
        destruct (Nat.eq_dec j n) as [->|]; [apply SE; auto|apply B; lia].
      - intros E HA.
        assert (AA : forall n, agrees (piT n) (piB n) /\ forall j, j < n -> g_safeE g (piB j) (piB (S j)) = true).
        { induction n as [|n [A B]]; [split; auto; intros; lia|].
          assert (B' : forall j, j <= n -> g_safeE g (piB j) (piB (S j)) = true).
          { intros j Hj. destruct (Nat.eq_dec j n) as [->|]; [apply SE; auto|apply B; lia]. }
          split; [|intros j Hj; apply B'; lia]. now apply SS; [|apply OS]. }
        assert (A1 : forall n, agrees (piT n) (piB n)) by (intros n; apply AA).
        apply (live_same SSysLive eq_refl (proj2 Hlive) piT piB A1). apply OL.
        + intros n. apply SE; auto.
        + now apply (live_same SEnvLive eq_refl (proj1 Hlive) piT piB A1).
    Qed.
  End UP.

  Lemma game_realizable : realizable g -> intRealizable ins outs m.
  Proof.
    intros (f' & H). exists (up f'). split; [apply up_fits|]. intros x Hx. apply up_objective; auto.
  Qed.
  Lemma game_unrealizable : (forall f, exists x, ~ objective g (play g f x)) -> intUnrealizable ins outs m.
  Proof.
    intros H f Hf. destruct (H (down f)) as (x' & N). exists (fun n => valI (x' n)). split.
    - intros n. apply fits_dec, Hproper.
    - intros O. apply N. now apply down_objective.
  Qed.
End TRANSFER.
