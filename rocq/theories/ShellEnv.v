(** * The interactive shell: the strategies of the environment *)

From Coq Require Import String Arith List Bool Lia Wf_nat.
From Verif Require Import BDD Loop Spec VarTypes Synth Sem FixBase SynthProofs SolversProofs AutSpec Explicit DetProofs
  ExplicitProofs CounterSpec Counter CounterDual CounterData CounterExtract CounterGame Shell.
Import ListNotations.
Local Open Scope list_scope.

Local Arguments isOut : simpl never.

(** The entries for assumption [i]. *)
Definition dataOfA (i : nat) (data : list entry) : list BF :=
  map snd (filter (fun e => Nat.eqb (fst (fst e)) i) data).

Lemma dataOfA_app i d d' : dataOfA i (d ++ d') = dataOfA i d ++ dataOfA i d'.
Proof. unfold dataOfA. now rewrite filter_app, map_app. Qed.

Lemma dataOfA_only i j d : (forall i' j', j' <> j -> dataOfC i' j' d = []) -> dataOfA i d = dataOfC i j d.
Proof.
  intros H. unfold dataOfA, dataOfC. f_equal. apply filter_ext_in. intros [[i' j'] F] Hin. cbn [fst snd].
  destruct (Nat.eqb_spec j' j) as [|Hn]; [now rewrite andb_true_r|]. exfalso.
  specialize (H i' j' Hn). unfold dataOfC in H. apply map_eq_nil in H.
  assert (X : In (i', j', F) []); [|destruct X]. rewrite <- H. apply filter_In. split; auto. cbn. now rewrite !Nat.eqb_refl.
Qed.

Section ENV.
  Variable c : ctx.
  Hypothesis Hwf : wf c.
  Let Hk := wf_kinds c Hwf.
  Let HSe := wf_safetyEnv c Hwf.
  Let HSs := wf_safetySys c Hwf.
  Local Notation N := (nvars c).
  Local Notation MA := (length (livenessAssumptions c)).
  Local Notation MG := (length (livenessGuarantees c)).
  Local Notation pre := (dep (isPreV c)).
  Local Notation any := (dep (isAnyV c)).
  Local Notation asm i := (nth i (livenessAssumptions c) bfalse).
  Local Notation gua j := (nth j (livenessGuarantees c) bfalse).
  Local Notation iterZ := (iterZ c).
  Local Notation muY := (muY c).

  (** ** The order of the entries *)
  Lemma goalC_blocks z gs : pre z -> Forall any gs -> forall j next data,
    exists x D, goalLoopC c (bnot z) j gs next data = Some (x, data ++ D) /\
      forall i a, nth_error (livenessAssumptions c) i = Some a ->
        exists Es, dataOfA i D = concat Es /\ Forall2 (fun g E => roundOK c z g a E) gs Es.
  Proof.
    intros Hz Hgs. induction gs as [|g gs IH]; intros j next data; cbn [goalLoopC].
    - exists next, []. rewrite app_nil_r. split; auto. intros i a _. exists []. auto.
    - inversion Hgs as [|? ? Hg Hgs']; subst.
      destruct (nu1C_spec c Hwf j z g data Hz Hg) as (live & D & -> & HD0 & HD).
      destruct (IH Hgs' (S j) (bor next (bnot (muY z g))) (data ++ D)) as (x & D' & -> & HD').
      exists x, (D ++ D'). rewrite <- app_assoc. split; auto.
      intros i a Ha. destruct (HD' i a Ha) as (Es & E1 & E2). exists (dataOfC i j D :: Es).
      rewrite dataOfA_app, E1, (dataOfA_only i j D HD0). split; auto.
  Qed.

  (** Block number [b]: the iteration of the outer loop and the guarantee. *)
  Definition block (b : nat) : BF * BF := (iterZ (b / MG), gua (b mod MG)).
  Definition blocks (K : nat) (data : list entry) : Prop :=
    forall i a, nth_error (livenessAssumptions c) i = Some a ->
    exists Es, dataOfA i data = concat Es /\
      Forall2 (fun b E => roundOK c (fst (block b)) (snd (block b)) a E) (seq 0 (K * MG)) Es.

  Lemma MG_pos : MG <> 0.
  Proof. pose proof (wf_gua_ne c Hwf) as H. now destruct (livenessGuarantees c). Qed.

  Lemma block_at k j : j < MG -> block (k * MG + j) = (iterZ k, gua j).
  Proof.
    intros Hj. pose proof MG_pos as HM. unfold block. f_equal; f_equal.
    - symmetry. apply (Nat.div_unique _ _ _ j); lia.
    - symmetry. apply (Nat.mod_unique _ _ k); lia.
  Qed.

  Lemma Forall2_shift {B} (P : BF -> B -> Prop) k : forall l (Es : list B), Forall2 P l Es ->
    forall n, (forall m, m < length l -> snd (block (n + m)) = nth m l bfalse) ->
    (forall m, m < length l -> fst (block (n + m)) = iterZ k) ->
    Forall2 (fun b E => fst (block b) = iterZ k /\ P (snd (block b)) E) (seq n (length l)) Es.
  Proof.
    induction 1 as [|g E l Es H H' IH]; intros n H1 H2; cbn [length seq]; constructor.
    - specialize (H1 0). specialize (H2 0). cbn [length nth] in *. rewrite Nat.add_0_r in *. rewrite H1, H2 by lia. auto.
    - apply IH; intros m Hm.
      + specialize (H1 (S m)). cbn [length nth] in H1. rewrite <- H1 by lia. f_equal. f_equal. lia.
      + specialize (H2 (S m)). cbn [length] in H2. rewrite <- H2 by lia. f_equal. f_equal. lia.
  Qed.

  Lemma blocks_S K d D : blocks K d ->
    (forall i a, nth_error (livenessAssumptions c) i = Some a ->
      exists Es, dataOfA i D = concat Es /\ Forall2 (fun g E => roundOK c (iterZ K) g a E) (livenessGuarantees c) Es) ->
    blocks (S K) (d ++ D).
  Proof.
    intros HR HD i a Ha.
    destruct (HR i a Ha) as (Es & E1 & E2). destruct (HD i a Ha) as (Es' & E3 & E4).
    exists (Es ++ Es'). rewrite dataOfA_app, E1, E3, concat_app. split; auto.
    replace (S K * MG) with (K * MG + MG) by lia. rewrite seq_app. apply Forall2_app; auto. cbn [Nat.add].
    assert (X : Forall2 (fun b E => fst (block b) = iterZ K /\ roundOK c (iterZ K) (snd (block b)) a E) (seq (K * MG) MG) Es').
    { apply (Forall2_shift (fun g E => roundOK c (iterZ K) g a E) K _ _ E4); intros m Hm; now rewrite block_at. }
    clear - X. induction X as [|b E bs Es' [H1 H2] _ IH]; constructor; auto. now rewrite H1.
  Qed.

  Lemma counter_blocks : exists K data, computeCounter c = Some (bnot (iterZ K), data) /\
    stepZ c (iterZ K) = iterZ K /\ blocks (S K) data.
  Proof.
    unfold computeCounter.
    set (F := fun (v : BF) (d : list entry) => bnot (stepZ c (bnot v))).
    destruct (fp_inc c Hk (mu2BodyC c) F
      (fun v d => match goalLoopC c v 0 (livenessGuarantees c) bfalse d with Some (_, d') => d' | None => [] end)
      (fun v d => exists K, v = bnot (iterZ K) /\ blocks K d) bfalse []) as (v & d & (K & -> & HR) & E & R & _).
    - exists 0. split; [apply bf_ext; intros e; now rewrite eval_not|].
      intros i a _. exists []. split; [reflexivity|]. constructor.
    - intros v d (K & -> & HR).
      destruct (goalC_blocks (iterZ K) (livenessGuarantees c) (pre_iterZ c Hwf K) (wf_gua c Hwf) 0 bfalse d)
        as (x & D & EG & HD).
      assert (EF : F (bnot (iterZ K)) d = bnot (iterZ (S K))) by (unfold F; now rewrite bnot_not).
      assert (EX : x = bnot (iterZ (S K))).
      { pose proof (goal_dual c (bnot (iterZ K)) (livenessGuarantees c) 0 bfalse d []) as GD.
        rewrite EG, bnot_not in GD. replace (bnot bfalse) with btrue in GD by (apply bf_ext; intros e; now rewrite eval_not).
        destruct (goalLoop_spec c Hwf (iterZ K) (livenessGuarantees c)) with (j := 0) (next := btrue) (data := @nil (nat * BF))
          as (d' & EG' & _); auto using pre_iterZ. { apply (wf_gua c Hwf). }
        rewrite EG' in GD. fold (stepZ c (iterZ K)) in GD. change (stepZ c (iterZ K)) with (iterZ (S K)) in GD.
        now rewrite GD, bnot_not. }
      rewrite EF. split; [unfold mu2BodyC; cbn [fst snd]; rewrite EG, EX; reflexivity|].
      split; [apply dep_not; now apply pre_iterZ|]. split; [apply dep_not; now apply pre_iterZ|]. split.
      + intros s. rewrite !pos_not, !negb_true_iff. intros H. destruct (pos (iterZ (S K)) s) eqn:E; auto.
        apply (iterZ_dec c Hwf) in E. congruence.
      + intros _. exists (S K). split; auto. rewrite EG. now apply blocks_S.
    - destruct (goalC_blocks (iterZ K) (livenessGuarantees c) (pre_iterZ c Hwf K) (wf_gua c Hwf) 0 bfalse d)
        as (x & D & EG & HD).
      rewrite EG in R. exists K, (d ++ D). split; [exact R|]. split.
      + unfold F in E. rewrite bnot_not in E. now rewrite <- (bnot_not (stepZ _ _)), E, bnot_not.
      + now apply blocks_S.
  Qed.

  (** ** The strategies *)
  Local Notation stratE data i := (positionalE c (map (fun e : entry => (fst (fst e), snd e)) data) i).

  Lemma positionalE_gen i data : forall dn covered strategy,
    any strategy -> any covered -> Forall (fun F => any F /\ closedF c F) (dataOfA i data) ->
    (forall s t, trans strategy s t = true <-> first_in dn s t) ->
    (forall s t, trans covered s t = true <-> covE dn s) ->
    (forall s, covE dn s -> exists t, first_in dn s t) ->
    let r := snd (fold_left (positionalStepE c i) (map (fun e : entry => (fst (fst e), snd e)) data) (covered, strategy)) in
    any r /\ (forall s t, trans r s t = true <-> first_in (dn ++ dataOfA i data) s t) /\
    (forall s, covE (dn ++ dataOfA i data) s -> exists t, first_in (dn ++ dataOfA i data) s t).
  Proof.
    induction data as [|[[i' j'] F] data IH]; intros dn covered strategy HA HC0 HF HS HC HX r; subst r.
    - cbn. rewrite app_nil_r. auto.
    - cbn [map fold_left fst snd]. unfold positionalStepE at 2 4. cbn [fst snd]. unfold dataOfA in HF |- *. cbn [fst snd filter] in HF |- *.
      destruct (Nat.eqb i' i); [|now apply IH].
      cbn [map snd] in HF |- *. fold (dataOfA i data) in HF |- *. inversion HF as [|? ? [AF CF] HF']; subst.
      replace (dn ++ F :: dataOfA i data) with ((dn ++ [F]) ++ dataOfA i data) by now rewrite <- app_assoc.
      assert (HFA : forall s t, trans (bforall (varCubePostOutput c) F) s t = true <-> trans F s t = true).
      { intros s t. rewrite faPostOut_trans by auto. split.
        - intros H. rewrite <- (H t). apply trans_eq. intros k. unfold mrg. now destruct (isOut c k).
        - intros H y. now apply CF. }
      assert (AFA : any (bforall (varCubePostOutput c) F)) by (eapply dep_forall; [exact AF|auto]).
      assert (HB : forall s t, trans (bexists (varCubePost c) (bforall (varCubePostOutput c) F)) s t = true <-> exists t', trans F s t' = true).
      { intros s t. rewrite exPost_trans by auto. split; intros (t' & H); exists t'; now apply HFA. }
      set (new := band (bexists (varCubePost c) (bforall (varCubePostOutput c) F)) (bnot covered)).
      assert (HNew : forall s t, trans new s t = true <-> (exists t', trans F s t' = true) /\ ~ covE dn s).
      { intros s t. unfold new. rewrite trans_and, trans_not, andb_true_iff, negb_true_iff, HB, <- (HC s t).
        destruct (trans covered s t); intuition congruence. }
      assert (ANew : any new).
      { unfold new. apply dep_and; [|now apply dep_not]. eapply dep_exists; [exact AFA|auto]. }
      apply IH; auto.
      + apply dep_or; auto. now apply dep_and.
      + now apply dep_or.
      + intros s t. rewrite first_in_snoc, trans_or, trans_and, orb_true_iff, andb_true_iff, HS, HNew, HFA. intuition eauto.
      + intros s t. rewrite covE_app, trans_or, orb_true_iff, HC, HNew. split.
        * intros [H|[(t' & H) _]]; auto. right. exists F, t'. split; [now left|auto].
        * intros [H|(F' & t' & [<-|[]] & H)]; auto.
          destruct (trans covered s t) eqn:E; [left; now apply (HC s t)|]. right. split; eauto. rewrite <- (HC s t). congruence.
      + intros s H. destruct (trans covered s s) eqn:E.
        * apply HC, HX in E. destruct E as (t & E). exists t. apply first_in_snoc. auto.
        * assert (E' : ~ covE dn s) by (rewrite <- (HC s s); congruence).
          apply covE_app in H. destruct H as [H|(F' & t' & [<-|[]] & H)]; [contradiction|]. exists t'. apply first_in_snoc. auto.
  Qed.

  Lemma positionalE_spec data i : Forall (fun F => any F /\ closedF c F) (dataOfA i data) ->
    any (stratE data i) /\ (forall s t, trans (stratE data i) s t = true <-> first_in (dataOfA i data) s t) /\
    (forall s, covE (dataOfA i data) s -> exists t, first_in (dataOfA i data) s t).
  Proof.
    intros HF. apply (positionalE_gen i data [] bfalse bfalse); auto using dep_false.
    - intros s t. rewrite trans_false. split; [discriminate|]. now intros ([|] & F & q & E & _).
    - intros s t. rewrite trans_false. split; [discriminate|]. now intros (F & t' & [] & _).
    - now intros s (F & t' & [] & _).
  Qed.

  Variable K : nat.
  Variable data : list entry.
  Hypothesis HK : stepZ c (iterZ K) = iterZ K.
  Hypothesis HR : blocks (S K) data.
  Local Notation D i := (dataOfA i data).
  Local Notation E_ i := (stratE data i).

  Definition okBlocks i Es : Prop := D i = concat Es /\
      Forall2 (fun b E => roundOK c (fst (block b)) (snd (block b)) (asm i) E) (seq 0 (S K * MG)) Es.

  Lemma blocks_at i : i < MA -> exists Es, okBlocks i Es.
  Proof. intros Hi. apply HR. now apply nth_error_nth'. Qed.

  Lemma okBlocks_nth i Es b E : okBlocks i Es -> nth_error Es b = Some E ->
    b < S K * MG /\ roundOK c (fst (block b)) (snd (block b)) (asm i) E.
  Proof.
    intros [_ H] HE. assert (L : b < S K * MG).
    { assert (b < length Es) by (apply nth_error_Some; congruence).
      assert (X : length (seq 0 (S K * MG)) = length Es) by (clear - H; induction H; cbn; auto).
      rewrite seq_length in X. lia. }
    split; auto.
    assert (X : forall n m Es b, Forall2 (fun b E => roundOK c (fst (block b)) (snd (block b)) (asm i) E) (seq n m) Es ->
      nth_error Es b = Some E -> roundOK c (fst (block (n + b))) (snd (block (n + b))) (asm i) E).
    { clear. intros n m. revert n. induction m as [|m IH]; intros n Es b H HE; inversion H; subst; [now destruct b|].
      destruct b as [|b]; cbn in HE.
      - injection HE as <-. now rewrite Nat.add_0_r.
      - replace (n + S b) with (S n + b) by lia. now apply (IH (S n) l'). }
    apply (X 0 _ Es b H HE).
  Qed.

  Lemma okBlocks_some i Es b : okBlocks i Es -> b < S K * MG -> exists E, nth_error Es b = Some E.
  Proof.
    intros [_ H] Hb. destruct (nth_error Es b) as [E|] eqn:HE; eauto. exfalso. apply nth_error_None in HE.
    assert (X : length (seq 0 (S K * MG)) = length Es) by (clear - H; induction H; cbn; auto).
    rewrite seq_length in X. lia.
  Qed.

  Lemma DA_good i : i < MA -> Forall (fun F => any F /\ closedF c F) (D i).
  Proof.
    intros Hi. destruct (blocks_at i Hi) as (Es & HO). destruct HO as [E1 E2] eqn:HO'. rewrite E1. clear HO'.
    apply Forall_forall. intros F Hin. apply in_concat in Hin. destruct Hin as (E & HE & HF).
    apply In_nth_error in HE. destruct HE as (k & HE). apply in_split in HF. destruct HF as (p & q & HF).
    destruct (okBlocks_nth i Es k E HO HE) as [_ [H1 _]]. now apply (H1 p F q).
  Qed.

  Lemma any_E i : i < MA -> any (E_ i).
  Proof. intros Hi. apply (positionalE_spec data i (DA_good i Hi)). Qed.
  Lemma E_first i s t : i < MA -> trans (E_ i) s t = true <-> first_in (D i) s t.
  Proof. intros Hi. apply (positionalE_spec data i (DA_good i Hi)). Qed.

  Lemma E_closed i s t y : i < MA -> trans (E_ i) s t = true -> trans (E_ i) s (mrg c t y) = true.
  Proof.
    intros Hi. rewrite !E_first by auto. intros (p & F & q & H1 & H2 & H3). exists p, F, q. split; auto. split; auto.
    pose proof (DA_good i Hi) as H. rewrite H1, Forall_forall in H. apply (H F); auto. apply in_app_iff. cbn. auto.
  Qed.

  (** The first entry with a transition from [s] belongs to block [b] and has number [n]. *)
  Definition atB (i : nat) (s t : state) (b n : nat) : Prop := exists Es E p F q,
    okBlocks i Es /\ nth_error Es b = Some E /\ E = p ++ F :: q /\ n = length (concat (firstn b Es) ++ p) /\
    trans F s t = true /\ ~ covE (concat (firstn b Es) ++ p) s.

  Lemma E_at i s t : i < MA -> trans (E_ i) s t = true -> exists b n, atB i s t b n.
  Proof.
    intros Hi HT. apply E_first in HT; auto. destruct HT as (P & F & Q & E5 & HT & HC).
    destruct (blocks_at i Hi) as (Es & HO). pose proof (proj1 HO) as E1. rewrite E1 in E5.
    destruct (concat_split Es P F Q E5) as (k & E & p & q & H1 & H2 & ->).
    exists k, (length (concat (firstn k Es) ++ p)), Es, E, p, F, q. auto 10.
  Qed.

  Lemma atB_lt i s t b n P Q : atB i s t b n -> D i = P ++ Q -> covE P s -> n < length P.
  Proof.
    intros (Es & E & p & F & q & HO & E2 & E3 & -> & HT & HC) EP (F' & t' & Hin & HF).
    pose proof (firstn_round Es b E p F q E2 E3) as E6. rewrite <- (proj1 HO), EP in E6.
    set (R := concat (firstn b Es) ++ p) in *. set (T := q ++ concat (skipn (S b) Es)) in *. clearbody R T.
    destruct (Nat.lt_ge_cases (length R) (length P)) as [|L']; auto. exfalso. apply HC.
    exists F', t'. split; auto. clear - E6 L' Hin. revert R E6 L'. induction P as [|a P IH]; intros R E6 L'; [destruct Hin|].
    destruct R as [|x R]; cbn in *; [lia|]. injection E6 as -> E6. destruct Hin as [->|Hin]; [now left|right].
    apply (IH Hin R E6). lia.
  Qed.

  Lemma atB_le i s t b n b' : atB i s t b n -> b' < S K * MG -> pos (muY (fst (block b')) (snd (block b'))) s = false -> b <= b'.
  Proof.
    intros (Es & E & p & F & q & HO & E2 & E3 & -> & HT & HC) Hb HM.
    destruct (Nat.le_gt_cases b b') as [|L]; auto. exfalso. apply HC. apply covE_app. left.
    destruct (okBlocks_some i Es b' HO Hb) as (E' & HE'). destruct (okBlocks_nth i Es b' E' HO HE') as [_ [_ H]].
    destruct (firstn_incl Es (S b') b) as (r & ->); [lia|]. rewrite concat_app, covE_app. left.
    rewrite (concat_firstn_S _ _ _ HE'). apply covE_app. auto.
  Qed.

  (** Every position that is losing for the system is covered. *)
  Lemma E_move i s : i < MA -> pos (iterZ K) s = false -> exists t, trans (E_ i) s t = true.
  Proof.
    intros Hi Hs. rewrite <- HK in Hs. destruct (stepZ_false c (iterZ K) s (pre_iterZ c Hwf K) Hs) as (j & Hj & HM).
    destruct (blocks_at i Hi) as (Es & HO). assert (Hb : K * MG + j < S K * MG) by (cbn; lia).
    destruct (okBlocks_some i Es _ HO Hb) as (E & HE). destruct (okBlocks_nth i Es _ E HO HE) as [_ [_ H]].
    rewrite block_at in H by auto. cbn [fst snd] in H. specialize (H s HM).
    assert (HC : covE (D i) s).
    { rewrite (proj1 HO). destruct H as (F & t & Hin & HF). exists F, t. split; auto. apply in_concat. exists E. split; auto. eapply nth_error_In; eauto. }
    destruct (positionalE_spec data i (DA_good i Hi)) as (_ & _ & X). destruct (X s HC) as (t & Ht). exists t. now apply E_first.
  Qed.

  Lemma atB_safe i s t b n : atB i s t b n -> trans (safetyEnv c) s t = true.
  Proof.
    intros (Es & E & p & F & q & HO & E2 & E3 & -> & HT & HC).
    destruct (okBlocks_nth i Es b E HO E2) as [_ [H1 _]]. destruct (H1 p F q E3) as [_ H2]. destruct (H2 s t HT t) as [H3 _].
    rewrite <- H3. apply trans_eq. intros x. symmetry. apply mrg_id.
  Qed.

  Lemma atB_step i s t b n : atB i s t b n -> trans (safetySys c) s t = true ->
    b < S K * MG /\ (trans (snd (block b)) s t = true -> pos (fst (block b)) t = false) /\
    pos (muY (fst (block b)) (snd (block b))) t = false /\
    (trans (asm i) s t = true \/ exists P Q, D i = P ++ Q /\ length P = n /\ covE P t).
  Proof.
    intros (Es & E & p & F & q & HO & E2 & E3 & -> & HT & HC) HS.
    destruct (okBlocks_nth i Es b E HO E2) as [Hb [H1 _]]. destruct (H1 p F q E3) as [_ H2]. destruct (H2 s t HT t) as [_ H3].
    assert (M : forall f, trans f s (mrg c t t) = trans f s t) by (intros f; apply trans_eq, mrg_id).
    assert (Mp : forall f, pos f (mrg c t t) = pos f t) by (intros f; apply pos_eq, mrg_id).
    rewrite !M, !Mp in H3. destruct (H3 HS) as (H4 & H5 & H6). split; [auto|]. split; [auto|]. split; auto.
    destruct H6 as [H6|(F' & t' & Hin & HF)]; auto. right.
    exists (concat (firstn b Es) ++ p). eexists. split; [rewrite (proj1 HO); apply (firstn_round Es b E p F q E2 E3)|].
    split; auto. apply covE_app. right. exists F', t'. split; auto. rewrite <- HF. apply trans_eq2. intros x. symmetry. apply mrg_id.
  Qed.

  Lemma block_cases b : b < S K * MG -> exists k j, k <= K /\ j < MG /\ b = k * MG + j /\ block b = (iterZ k, gua j).
  Proof.
    intros Hb. pose proof MG_pos as HM. exists (b / MG), (b mod MG).
    assert (H1 : b mod MG < MG) by now apply Nat.mod_upper_bound.
    assert (H2 : b / MG < S K) by (apply Nat.div_lt_upper_bound; lia).
    split; [lia|]. split; auto. split; [|reflexivity]. rewrite (Nat.mul_comm (b / MG)). now apply Nat.div_mod.
  Qed.

  (** Permitted moves of the system do not leave the losing positions. *)
  Lemma E_losing i s t b n : atB i s t b n -> trans (safetySys c) s t = true -> pos (iterZ K) t = false.
  Proof.
    intros HF HS. destruct (atB_step i s t b n HF HS) as (Hb & _ & HM & _).
    destruct (block_cases b Hb) as (k & j & Hkk & Hj & _ & EB). rewrite EB in HM. cbn [fst snd] in HM.
    destruct (pos (iterZ K) t) eqn:E; auto. exfalso. rewrite <- HK in E. pose proof (proj1 (stepZ_spec c _ _) E) as E'.
    specialize (E' (gua j) (In_gua c j Hj)).
    assert (pos (muY (iterZ k) (gua j)) t = true); [|congruence].
    revert E'. apply (muY_mono c Hwf); auto using any_gua, iterZ_le, pre_iterZ.
  Qed.

  (** The block does not increase, and decreases if its guarantee is satisfied. *)
  Lemma atB_next i s t b n i' t' b' n' : atB i s t b n -> trans (safetySys c) s t = true -> atB i' t t' b' n' ->
    b' <= b /\ (trans (snd (block b)) s t = true -> b' < b).
  Proof.
    intros HA HS HA'. destruct (atB_step i s t b n HA HS) as (Hb & HG & HM & _). split.
    - now apply (atB_le i' t t' b' n').
    - intros H. specialize (HG H). destruct (block_cases b Hb) as (k & j & Hkk & Hj & -> & EB). rewrite EB in HG. cbn [fst] in HG.
      destruct k as [|k]; [change (pos btrue t = false) in HG; rewrite pos_true in HG; discriminate|].
      destruct (stepZ_false c (iterZ k) t) as (j0 & Hj0 & HM0); auto; [apply pre_iterZ; auto|].
      assert (Hb0 : k * MG + j0 < S K * MG) by nia.
      pose proof (atB_le i' t t' b' n' (k * MG + j0) HA' Hb0) as L. rewrite block_at in L by auto. specialize (L HM0). nia.
  Qed.

  (** ** Plays *)
  Section PLAY.
    Variables (s : nat -> state) (r : nat -> nat).
    Hypothesis Hr : forall n, r n < MA.
    Hypothesis Hmove : forall n, trans (E_ (r n)) (s n) (s (S n)) = true.
    Hypothesis Hsafe : forall n, trans (safetySys c) (s n) (s (S n)) = true.

    Lemma play_at n : exists b m, atB (r n) (s n) (s (S n)) b m.
    Proof. apply E_at; auto. Qed.

    Lemma play_later n d b m : atB (r n) (s n) (s (S n)) b m ->
      exists b' m', atB (r (n + d)) (s (n + d)) (s (S (n + d))) b' m' /\ b' <= b.
    Proof.
      intros HA. induction d as [|d IH].
      - exists b, m. rewrite Nat.add_0_r. auto.
      - destruct IH as (b1 & m1 & H1 & L1). destruct (play_at (n + S d)) as (b2 & m2 & H2). exists b2, m2. split; auto.
        replace (n + S d) with (S (n + d)) in * by lia.
        destruct (atB_next _ _ _ _ _ _ _ _ _ H1 (Hsafe _) H2). lia.
    Qed.

    (** Some guarantee is satisfied only finitely often. *)
    Lemma play_guarantee : ~ forall j, j < MG -> inf_often (trans (gua j)) s.
    Proof.
      intros HI.
      assert (G : forall B n b m, b < B -> atB (r n) (s n) (s (S n)) b m -> False).
      { intros B. induction B as [|B IH]; intros n b m Hb HA; [lia|].
        destruct (atB_step _ _ _ _ _ HA (Hsafe n)) as (Hb' & _). destruct (block_cases b Hb') as (k & j & _ & Hj & _ & EB).
        destruct (HI j Hj n) as (n' & Hn & HG).
        destruct (play_later n (n' - n) b m HA) as (b1 & m1 & H1 & L1). replace (n + (n' - n)) with n' in * by lia.
        destruct (Nat.eq_dec b1 b) as [->|Hne]; [|apply (IH n' b1 m1); auto; lia].
        destruct (play_at (S n')) as (b2 & m2 & H2). destruct (atB_next _ _ _ _ _ _ _ _ _ H1 (Hsafe _) H2) as [_ H3].
        rewrite EB in H3. specialize (H3 HG). apply (IH (S n') b2 m2); auto. lia. }
      destruct (play_at 0) as (b & m & HA). apply (G (S b) 0 b m); auto.
    Qed.

    (** The assumption that is waited for is satisfied after a while. *)
    Hypothesis Hstay : forall n, trans (asm (r n)) (s n) (s (S n)) = false -> r (S n) = r n.
    Lemma play_assumption n : exists m, n <= m /\ r m = r n /\ trans (asm (r n)) (s m) (s (S m)) = true.
    Proof.
      assert (G : forall B n b m, m < B -> atB (r n) (s n) (s (S n)) b m ->
        exists m, n <= m /\ r m = r n /\ trans (asm (r n)) (s m) (s (S m)) = true).
      { clear n. intros B. induction B as [|B IH]; intros n b m Hm HA; [lia|].
        destruct (trans (asm (r n)) (s n) (s (S n))) eqn:ET; [exists n; auto|].
        destruct (atB_step _ _ _ _ _ HA (Hsafe n)) as (_ & _ & _ & [H|(P & Q & E1 & E2 & HC)]); [congruence|].
        destruct (play_at (S n)) as (b' & m' & HA'). pose proof (Hstay n ET) as ER. pose proof HA' as HA2. rewrite ER in HA2.
        pose proof (atB_lt _ _ _ _ _ P Q HA2 E1 HC) as L.
        destruct (IH (S n) b' m' ltac:(lia) HA') as (x & H1 & H2 & H3). exists x. rewrite ER in *. split; [lia|auto]. }
      destruct (play_at n) as (b & m & HA). apply (G (S m) n b m); auto.
    Qed.
  End PLAY.
End ENV.
