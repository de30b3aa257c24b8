(** * The interactive shell: SETPOS and MOVE *)

From Coq Require Import String Ascii NArith ZArith Arith List Bool Lia.
From Verif Require Import BDD Loop Spec VarTypes Synth Sem FixBase GameSound SynthProofs Verdict Solvers SolversProofs
  AutSpec Explicit DetProofs ExplicitProofs ExplicitGame Counter Parser ParserProofs FormulaSpec ShellSpec Shell ShellText ShellProofs ShellSafe ShellMarks.
Import ListNotations.
Local Open Scope list_scope.

Local Arguments isOut : simpl never.

(** ** Reading numbers *)
Lemma before_skip a w rest i : before (String a w ++ rest)%string i -> isspace a = false ->
  good i = true /\ skipWs (chars i) = (String a w ++ rest)%string.
Proof. intros [|] H; (split; [reflexivity|]); cbn; now rewrite H. Qed.

Lemma takeWord_app w rest : allDigits w = true -> takeWord (w ++ newline ++ rest)%string = (w, (newline ++ rest)%string).
Proof.
  induction w as [|a w IH]; intros H; [reflexivity|]. cbn [allDigits] in H. apply andb_true_iff in H. destruct H as [H1 H2].
  cbn [append takeWord]. assert (E : isspace a = false).
  { destruct (isspace a) eqn:E; auto. apply digit_ws in E. rewrite H1 in E. discriminate. }
  rewrite E, IH by auto. reflexivity.
Qed.

Lemma digit_nosign a : isDigit a = true -> isspace a = false /\ (a =? "-")%char = false /\ (a =? "+")%char = false.
Proof.
  intros H. split.
  - destruct (isspace a) eqn:E; auto. apply digit_ws in E. rewrite H in E. discriminate.
  - split; apply Ascii.eqb_neq; intros ->; discriminate.
Qed.

Lemma readUInt_numeral w n rest i : numeral w n -> (n < uintBound)%N -> before (w ++ newline ++ rest)%string i ->
  readUInt i = (Some n, mkStream (newline ++ rest)%string false false).
Proof.
  intros (H1 & H2 & H3) HB Hi. destruct w as [|a w]; [now elim H1|].
  pose proof H2 as HD. cbn [allDigits] in HD. apply andb_true_iff in HD. destruct HD as [HD _].
  destruct (digit_nosign a HD) as (S1 & S2 & S3).
  destruct (before_skip a w (newline ++ rest)%string i Hi S1) as [G K].
  unfold readUInt. rewrite G, K. cbn [negb append]. rewrite S2, S3.
  pose proof (takeDigits_word (String a w ++ newline ++ rest)%string 0 false) as T.
  rewrite takeWord_app in T by auto. cbn [fst snd] in T.
  change (takeDigits 0 false _) with (takeDigits 0 false (String a w ++ newline ++ rest)%string). rewrite T by auto.
  rewrite H3. cbn [orb String.eqb negb newline append]. now apply N.leb_gt in HB as ->.
Qed.

Definition zOf (b : bool) : Z := if b then 1%Z else 0%Z.

Lemma readInt_bit (b : bool) rest i : before (valueLine b ++ rest)%string i ->
  readInt i = (Some (zOf b), mkStream (newline ++ rest)%string false false).
Proof.
  intros Hi. unfold valueLine in Hi. destruct b; inversion Hi; subst; reflexivity.
Qed.

Lemma readValues_text vars : forall l rest i, length l = length vars ->
  before (joinText (map valueLine l) ++ rest)%string i ->
  exists i', readValues vars i = (combine vars (map zOf l), i') /\ before rest i'.
Proof.
  induction vars as [|v vars IH]; intros [|b l] rest i HL Hi; try discriminate.
  - exists i. auto.
  - injection HL as HL. cbn [map joinText] in Hi. rewrite app_assoc_s in Hi. cbn [readValues].
    rewrite (readInt_bit b _ i Hi). cbn [failed].
    destruct (IH l rest (mkStream (newline ++ joinText (map valueLine l) ++ rest)%string false false) HL) as (i' & E & Hi').
    { constructor. }
    rewrite E. exists i'. split; auto.
Qed.

Lemma cubeOfValues_bits vars : forall l, length l = length vars -> cubeOfValues (combine vars (map zOf l)) = bitLits vars l btrue.
Proof.
  unfold cubeOfValues, bitLits. generalize btrue. induction vars as [|v vars IH]; intros f [|b l] H; try discriminate; auto.
  injection H as H. cbn [map combine fold_left fst snd]. rewrite <- IH by auto. now destruct b.
Qed.
Lemma cubeOfDigits_bits vars : forall l, length l = length vars -> cubeOfDigits (combine vars (map zOf l)) = bitLits vars l btrue.
Proof.
  intros l H. rewrite <- cubeOfValues_bits by auto. unfold cubeOfDigits. f_equal. clear. revert l.
  induction vars as [|v vars IH]; intros [|b l]; auto. cbn [map combine filter snd]. rewrite IH. now destruct b.
Qed.

Lemma bitLits_app vs ws l m f : length l = length vs -> bitLits ws m (bitLits vs l f) = bitLits (vs ++ ws) (l ++ m) f.
Proof.
  revert l f. induction vs as [|v vs IH]; intros [|b l] f H; try discriminate; auto.
  injection H as H. cbn [app]. unfold bitLits. cbn [combine fold_left fst snd]. apply IH. exact H.
Qed.

Section MOVE.
  Variable c : ctx.
  Hypothesis Hwf : wf c.
  Let Hk := wf_kinds c Hwf.
  Let HSe := wf_safetyEnv c Hwf.
  Local Notation N := (nvars c).
  Local Notation M := (length (livenessGuarantees c)).
  Local Notation g := (game_of c).
  Let Mpos : 0 < M.
  Proof. pose proof (wf_gua_ne c Hwf). destruct (livenessGuarantees c); [now elim H|cbn; lia]. Qed.

  Variable w : BF.
  Variable data : list (nat * BF).
  Variable L : nat -> list (BF * BF).
  Hypothesis HX : exactW c w.
  Hypothesis Hw : dep (isPreV c) w.
  Hypothesis HL : forall j, j < M -> dataOf j data = map fst (L j) /\
    goodEnt c w (nth j (livenessGuarantees c) btrue) (L j) w.
  Let t := mkTable true w (map (positional c data) (seq 0 M)).

  Lemma varsT_Pre : varsT c Pre = map (fun k => 2 * k) (seq 0 N).
  Proof.
    rewrite (varsT_gen c Hk Pre false (fun _ => true)).
    - replace (filter (fun _ => true) (seq 0 N)) with (seq 0 N) by (generalize (seq 0 N); intros l; induction l; cbn; f_equal; auto).
      apply map_ext. intros; lia.
    - intros k Hk'. rewrite Nat.add_0_r. split.
      + pose proof (type_even c Hk k Hk') as T. apply inherits_post in T. tauto.
      + rewrite (type_odd c Hk). pose proof (type_even c Hk k Hk') as T. apply inherits_post in T. tauto.
  Qed.

  Lemma setPos_point l : length l = N -> bitLits (varsT c Pre) l btrue = ptOf c l.
  Proof.
    intros Hl. apply bf_ext. intros e. apply eq_true_iff_eq.
    rewrite bitLits_spec, eval_true, eval_ptOf, varsT_Pre by (rewrite varsT_Pre, map_length, seq_length; auto).
    rewrite map_map. split.
    - intros [_ E] k Hk'. rewrite <- E. rewrite (nth_indep _ _ (e (2 * 0))) by now rewrite map_length, seq_length.
      rewrite (map_nth (fun k => e (2 * k))). now rewrite seq_nth.
    - intros H. split; auto. apply nth_ext with (d := false) (d' := false); rewrite map_length, seq_length; auto.
      intros k Hk'. rewrite <- H by auto. rewrite (nth_indep _ _ (e (2 * 0))) by now rewrite map_length, seq_length.
      rewrite (map_nth (fun k => e (2 * k))). now rewrite seq_nth.
  Qed.

  Lemma eval_trans f e : eval f e = trans f (fun k => e (2 * k)) (fun k => e (2 * k + 1)).
  Proof. apply eval_ext. intros v. destruct (even_cases v) as [[k ->]|[k ->]]; now rewrite ?tv_even, ?tv_odd. Qed.

  (** A function with a single transition. *)
  Definition single (d : BF) (l u : list bool) : Prop :=
    forall s v, trans d s v = true <-> same N s (ofVec l) /\ same N v (ofVec u).

  Lemma single_meet d l u f : single d l u -> dep (isAnyV c) f ->
    negb (isFalse (band f d)) = trans f (ofVec l) (ofVec u).
  Proof.
    intros HD Af. destruct (trans f (ofVec l) (ofVec u)) eqn:E.
    - apply negb_true_iff, isFalse_false. exists (tv (ofVec l) (ofVec u)). rewrite eval_and. apply andb_true_iff.
      split; [exact E|]. apply HD. split; now intros k _.
    - apply negb_false_iff, isFalse_spec. intros e. rewrite eval_and. destruct (eval d e) eqn:Ed; [|apply andb_false_r].
      rewrite andb_true_r. rewrite eval_trans in Ed |- *. apply HD in Ed. rewrite <- E. apply (trans_ext c Hk); tauto.
  Qed.

  Lemma single_digit d l u k : single d l u -> k < N -> digitOf d (2 * k + 1) = ofVec u k.
  Proof.
    intros HD Hk'. unfold digitOf. rewrite (single_meet d l u); auto.
    - unfold trans. now rewrite eval_var, tv_odd.
    - apply dep_var. unfold isAnyV. rewrite (nvars_spec c Hk). lia.
  Qed.

  Definition satisfiedBy (fs : list BF) (l u : list bool) : list nat :=
    filter (fun i => trans (nth i fs bfalse) (ofVec l) (ofVec u)) (seq 0 (length fs)).

  Lemma meets_single fs d l u : single d l u -> Forall (dep (isAnyV c)) fs -> meets fs d = satisfiedBy fs l u.
  Proof.
    intros HD HF. unfold meets, satisfiedBy. apply filter_ext_lt. intros i Hi. apply in_seq in Hi.
    apply single_meet; auto. rewrite Forall_forall in HF. apply HF. apply nth_In. lia.
  Qed.

  Lemma picked_out f d l x : dep (isAnyV c) f -> length l = N -> picked (postOutputVars c) f d ->
    (forall s v, trans f s v = true -> same N s (ofVec l) /\ same_in g N v x) ->
    exists u, length u = N /\ trans f (ofVec l) (ofVec u) = true /\ single d l u.
  Proof.
    intros Hf Hl (e0 & H0 & HE) HP.
    set (s0 := fun k => e0 (2 * k)). set (t0 := fun k => e0 (2 * k + 1)).
    assert (E0 : trans f s0 t0 = true) by (rewrite <- H0; symmetry; apply eval_trans).
    destruct (HP _ _ E0) as [S0 T0].
    assert (Hst : forall s v, same N s (ofVec l) -> same N v t0 -> trans f s v = true).
    { intros s v Hs Ht. rewrite <- E0. apply (trans_ext c Hk); auto.
      intros k Hk'. rewrite Hs, S0; auto. }
    exists (toVec N t0). split; [apply toVec_length|]. split.
    - apply Hst; [now intros k _|apply same_toVec].
    - intros s v. unfold trans at 1. rewrite HE, andb_true_iff, agreeOn_iff. split.
      + intros [H1 H2]. destruct (HP s v H1) as [P1 P2]. split; auto.
        apply same_trans with t0; [|apply same_sym, same_toVec].
        intros k Hk'. destruct (isOut c k) eqn:O.
        * unfold t0. rewrite <- (H2 (2 * k + 1)); [now rewrite tv_odd|].
          unfold postOutputVars. change (varsOf (varTypes c) [PostOutput]) with (varsT c PostOutput).
          rewrite (varsT_PostOutput c Hk). apply in_map_iff. exists k. split; auto. now apply (in_outputVars c).
        * rewrite P2, T0; auto.
      + intros [H1 H2]. assert (S : same N v t0) by (eapply same_trans; [exact H2|apply same_toVec]).
        split; [now apply Hst|]. intros y Hy. unfold postOutputVars in Hy.
        change (varsOf (varTypes c) [PostOutput]) with (varsT c PostOutput) in Hy.
        rewrite (varsT_PostOutput c Hk) in Hy. apply in_map_iff in Hy. destruct Hy as (k & <- & Hin).
        apply (in_outputVars c) in Hin. rewrite tv_odd. now apply S.
  Qed.

  Lemma dep_bitLits (P : nat -> Prop) vs : (forall v, In v vs -> P v) -> forall bs f0, dep P f0 -> dep P (bitLits vs bs f0).
  Proof.
    induction vs as [|v vs IH]; intros Hv [|b bs] f0 Hf0; auto. unfold bitLits. cbn [combine fold_left fst snd].
    apply IH; [intros; apply Hv; now right|]. apply dep_and; auto.
    assert (P v) by (apply Hv; now left).
    unfold literal. destruct b; [|apply dep_not]; now apply dep_var.
  Qed.

  (** The next position. *)
  Lemma next_position x u : same_in g N (ofVec u) x ->
    swapPrePost c (bitLits (varsT c PostOutput) (map (ofVec u) (outputVars c)) (bitLits (varsT c PostInput) (map x (inputVars c)) btrue)) = ptOf c u.
  Proof.
    intros Hx. set (f := bitLits (varsT c PostOutput) _ _).
    assert (Af : dep (isAnyV c) f).
    { unfold f. apply dep_bitLits; [|apply dep_bitLits; [|apply dep_true]]; intros v Hv.
      - rewrite (varsT_PostOutput c Hk) in Hv. apply in_map_iff in Hv.
        destruct Hv as (k & <- & Hv). apply (in_outputVars c) in Hv. unfold isAnyV. rewrite (nvars_spec c Hk). lia.
      - rewrite (varsT_PostInput c Hk) in Hv. apply in_map_iff in Hv.
        destruct Hv as (k & <- & Hv). apply (in_inputVars c) in Hv. unfold isAnyV. rewrite (nvars_spec c Hk). lia. }
    apply trans_inj. intros s v. apply eq_true_iff_eq. rewrite trans_swap, trans_ptOf by auto. unfold trans, f.
      rewrite (varsT_PostOutput c Hk), (varsT_PostInput c Hk), !bitLits_spec by (now rewrite !map_length).
      rewrite !map_map, eval_true. split.
      + intros [[_ H1] H2] k Hk'. destruct (isOut c k) eqn:O.
        * assert (Hin : In k (outputVars c)) by now apply (in_outputVars c).
          apply (ext_in_map H2) in Hin. now rewrite tv_odd in Hin.
        * assert (Hin : In k (inputVars c)) by now apply (in_inputVars c).
          apply (ext_in_map H1) in Hin. rewrite tv_odd in Hin. rewrite Hin. symmetry. now apply Hx.
      + intros H. split; [split; auto|]; apply map_ext_in; intros k Hin; rewrite tv_odd.
        * apply (in_inputVars c) in Hin. rewrite H by tauto. apply Hx; cbn; tauto.
        * apply (in_outputVars c) in Hin. apply H. tauto.
  Qed.

  (** MOVE from a position, for any input. *)
  Lemma move_spec l j nt x gl r i rest : length l = N -> j < M -> numeral nt (N.of_nat j) -> (N.of_nat j < uintBound)%N ->
    (exists v, trans (safetyEnv c) (ofVec l) v = true) ->
    before (nt ++ newline ++ joinText (map valueLine (map x (inputVars c))) ++ rest)%string i ->
    let warning := negb (trans (safetyEnv c) (ofVec l) x) in
    exists i', before rest i' /\
      ((exists u, length u = N /\ same_in g N (ofVec u) x /\ trans (positional c data j) (ofVec l) (ofVec u) = true /\
         move c t (mkShell (ptOf c l) gl r) i =
           Next (RMove warning (map (ofVec u) (outputVars c)) (satisfiedBy (livenessAssumptions c) l u)
                   (satisfiedBy (livenessGuarantees c) l u) (satisfiedBy (map (positional c data) (seq 0 M)) l u),
                 mkShell (ptOf c u) gl r, i')) \/
       ((forall v, same_in g N v x -> trans (positional c data j) (ofVec l) v = false) /\
         move c t (mkShell (ptOf c l) gl r) i = Next (RIllegal warning (negb warning), mkShell (ptOf c l) gl r, i'))).
  Proof.
    intros Hl Hj Hn HB (v0 & Hv0) Hi warning. unfold move. cbn [sh_pos sh_goal sh_rand].
    assert (E0 : bf_eqb (ptOf c l) bfalse = false).
    { destruct (bf_eqb (ptOf c l) bfalse) eqn:E; auto. apply bf_eqb_eq in E.
      assert (T : pos (ptOf c l) (ofVec l) = true) by (apply pos_ptOf; now intros k _). rewrite E in T. discriminate. }
    rewrite E0, (readUInt_numeral nt _ _ i Hn HB Hi). cbn [failed].
    assert (E1 : (N.of_nat M <=? N.of_nat j)%N = false) by (apply N.leb_gt; lia). rewrite E1.
    assert (E2 : isFalse (band (ptOf c l) (safetyEnv c)) = false).
    { apply isFalse_false. exists (tv (ofVec l) v0). rewrite eval_and. apply andb_true_iff. split; [|exact Hv0].
      apply (trans_ptOf c l (ofVec l) v0). now intros k _. }
    rewrite E2.
    assert (Li : length (map x (inputVars c)) = length (varsT c PostInput)) by now rewrite (varsT_PostInput c Hk), !map_length.
    destruct (readValues_text (varsT c PostInput) (map x (inputVars c)) rest
      (mkStream (newline ++ joinText (map valueLine (map x (inputVars c))) ++ rest)%string false false) Li) as (i' & E3 & Hi');
      [constructor|].
    rewrite E3. rewrite cubeOfValues_bits, cubeOfDigits_bits by auto. fold (inputCube c x).
    assert (HI : forall s v, trans (inputCube c x) s v = true <-> same_in g N v x).
    { intros s v. unfold inputCube. rewrite (bitLits_post c Hk), trans_true. tauto. }
    assert (EW : isFalse (band (band (ptOf c l) (inputCube c x)) (safetyEnv c)) = warning).
    { unfold warning. destruct (trans (safetyEnv c) (ofVec l) x) eqn:E.
      - apply isFalse_false. exists (tv (ofVec l) x). fold (trans (band (band (ptOf c l) (inputCube c x)) (safetyEnv c)) (ofVec l) x).
        rewrite !trans_and, !andb_true_iff, trans_ptOf, HI. split; auto. split; now intros k _.
      - apply isFalse_spec. intros e. rewrite eval_trans. apply not_true_is_false. rewrite !trans_and, !andb_true_iff, trans_ptOf, HI.
        intros [[A1 A2] A3]. rewrite (safeE_same c Hwf _ _ _ A2) in A3. rewrite <- E in *.
        assert (trans (safetyEnv c) (ofVec l) x = true) by (rewrite <- A3; apply (trans_ext c Hk); [now apply isPrePostIn_isAny|now apply same_sym|now intros k _]).
        congruence. }
    rewrite EW. rewrite Nat2N.id. pose proof (strat_nth c w data j Hj) as EN. fold t in EN. rewrite EN.
    set (f := band (band (ptOf c l) (inputCube c x)) (positional c data j)).
    assert (HF : forall s v, trans f s v = true <-> same N s (ofVec l) /\ same_in g N v x /\ trans (positional c data j) s v = true).
    { intros s v. unfold f. rewrite !trans_and, !andb_true_iff, trans_ptOf, HI. tauto. }
    assert (PV : forall v, In v (varsT c PostInput) -> isAnyV c v).
    { intros v Hv. rewrite (varsT_PostInput c Hk) in Hv. apply in_map_iff in Hv.
      destruct Hv as (k & <- & Hv). apply (in_inputVars c) in Hv. unfold isAnyV. rewrite (nvars_spec c Hk). lia. }
    assert (PO : forall v, In v (postOutputVars c) -> isAnyV c v).
    { intros v Hv. unfold postOutputVars in Hv. change (varsOf (varTypes c) [PostOutput]) with (varsT c PostOutput) in Hv.
      rewrite (varsT_PostOutput c Hk) in Hv. apply in_map_iff in Hv.
      destruct Hv as (k & <- & Hv). apply (in_outputVars c) in Hv. unfold isAnyV. rewrite (nvars_spec c Hk). lia. }
    assert (Af : dep (isAnyV c) f).
    { unfold f. repeat apply dep_and; [apply isPre_isAny, pre_ptOf; auto| |now apply (strat_any c Hwf w data L HL)].
      unfold inputCube. apply dep_bitLits; auto. apply dep_true. }
    exists i'. split; auto. destruct (isFalse f) eqn:EF.
    - right. split; auto. intros v Hv. rewrite isFalse_spec in EF. destruct (trans (positional c data j) (ofVec l) v) eqn:E; auto.
      rewrite <- (EF (tv (ofVec l) v)). symmetry. apply (HF (ofVec l) v). split; [now intros k _|auto].
    - left. destruct (picked_out f (determinize f (postOutputVars c)) l x Af Hl (determinize_spec (postOutputVars c) f EF)) as (u & Hu & Hfu & HD).
      { intros s v H. apply HF in H. tauto. }
      apply HF in Hfu. destruct Hfu as (_ & Hx & HT). exists u. split; auto. split; auto. split; auto.
      set (d := determinize f (postOutputVars c)) in *.
      assert (ED : map (digitOf d) (varsT c PostOutput) = map (ofVec u) (outputVars c)).
      { rewrite (varsT_PostOutput c Hk), map_map. apply map_ext_in. intros k Hin. apply (in_outputVars c) in Hin.
        apply (single_digit d l u); tauto. }
      rewrite ED. fold (bitLits (varsT c PostOutput) (map (ofVec u) (outputVars c)) (inputCube c x)).
      unfold inputCube at 1. rewrite (next_position x u Hx).
      rewrite meetsN_fine by (cbn [t_strategies t]; now rewrite map_length, seq_length). cbn [obind].
      cbn [t_strategies t]. rewrite firstn_all2 by now rewrite map_length, seq_length.
      rewrite !(meets_single _ d l u HD); auto.
      + apply Forall_map, Forall_forall. intros k Hin. apply in_seq in Hin. apply (strat_any c Hwf w data L HL). lia.
      + rewrite Forall_forall. intros q Hq. destruct (In_nth _ _ bfalse Hq) as (k & Hk' & <-). apply (gua_any c Hwf).
      + apply (wf_asm c Hwf).
  Qed.
End MOVE.
