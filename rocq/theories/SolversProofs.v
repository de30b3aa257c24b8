(** * The variants compute the same sets *)

From Coq Require Import Arith List Bool Lia.
From Verif Require Import BDD Loop Spec VarTypes Synth Sem FixBase GameSound GameComplete SynthProofs Solvers.
Import ListNotations.

(** Two loops in lock-step. *)
Lemma run_sim {S1 R1 S2 R2} (b1 : S1 -> step S1 R1) (b2 : S2 -> step S2 R2)
    (R : S1 -> S2 -> Prop) (Q : R1 -> R2 -> Prop) :
  (forall s1 s2, R s1 s2 -> match b1 s1, b2 s2 with
     | Cont a, Cont b => R a b | Done a, Done b => Q a b | Abort, Abort => True | _, _ => False end) ->
  forall n s1 s2, R s1 s2 ->
  match run b1 n s1, run b2 n s2 with Some a, Some b => Q a b | None, None => True | _, _ => False end.
Proof.
  intros H n s1 s2 Hs.
  assert (G : match loop b1 n s1, loop b2 n s2 with
     | Cont a, Cont b => R a b | Done a, Done b => Q a b | Abort, Abort => True | _, _ => False end).
  { revert s1 s2 Hs. induction n as [|n IH]; intros s1 s2 Hs; cbn [loop]; [now apply H|].
    specialize (IH s1 s2 Hs) as E. destruct (loop b1 n s1), (loop b2 n s2); try contradiction; first [exact E | now apply IH]. }
  unfold run. destruct (loop b1 n s1), (loop b2 n s2); try contradiction; auto.
Qed.

Section SOLVERS.
  Variable c : ctx.
  Hypothesis Hwf : wf c.
  Let Hk := wf_kinds c Hwf.
  Let HSe := wf_safetyEnv c Hwf.
  Let HSs := wf_safetySys c Hwf.
  Let HA := wf_asm c Hwf.
  Let HG := wf_gua c Hwf.
  Local Notation pre := (dep (isPreV c)).
  Local Notation any := (dep (isAnyV c)).
  Local Notation nuX := (nuX c).
  Local Notation stepX := (stepX c).
  Local Notation liveOf := (liveOf c).
  Local Notation muY := (muY c).
  Local Notation iterZ := (iterZ c).
  Local Notation asms := (livenessAssumptions c).
  Local Notation goals := (livenessGuarantees c).

  Local Lemma pre_any f : pre f -> any f.
  Proof. apply isPre_isAny. Qed.
  Hint Resolve pre_any dep_true dep_false dep_and dep_or dep_not dep_imp : core.
  Hint Resolve any_swap any_liveOf pre_nuX pre_muY pre_iterZ any_asm any_gua pre_stepX : core.

  (** ** Recycling *)

  (** Good values to start the inner fixed point with. *)
  Definition startOK (live a st : BF) : Prop := pre st /\ sub (stepX live a st) st /\ sub (nuX live a) st.

  Lemma nu0From_spec live a st : any live -> any a -> startOK live a st ->
    run (nu0Body c live a) (fpFuel c) (st, btrue) = Some (nuX live a, pathsX c live a (nuX live a)).
  Proof.
    intros Hl Ha (S1 & S2 & S3).
    destruct (fp_dec c Hk (nu0Body c live a) (fun v _ => stepX live a v) (fun v _ => pathsX c live a v)
       (fun v _ => startOK live a v) st btrue) as (v & d & (V1 & V2 & V3) & E & R & _).
    - now split.
    - intros v d (V1 & V2 & V3). split; [reflexivity|]. split; [auto 8|]. split; [auto 8|]. split; [auto 8|].
      intros _. split; [auto 8|]. split.
      + apply stepX_mono; auto using tsub_refl.
      + rewrite <- (nuX_fix c Hwf live a) by auto 8. apply stepX_mono; auto using tsub_refl.
    - rewrite R. assert (v = nuX live a) as ->; auto 8.
      apply (sub_antisym c); auto 8. apply nuX_greatest; auto 8. rewrite E. apply sub_refl.
  Qed.

  (** The sets computed in round k of the outer loop stay inside of its value. *)
  Lemma inside k g g' y : In g goals -> In g' goals -> pre y -> sub y (iterZ (S k)) ->
    tsub (liveOf (iterZ (S k)) g y) (liveOf (iterZ k) g' (muY (iterZ k) g')).
  Proof.
    intros Hg Hg' Hy Hs s t. rewrite !liveOf_spec by auto 8. intros H. right.
    assert (Z : pos (iterZ (S k)) t = true) by (destruct H as [[_ H]|H]; auto 8).
    change (pos (stepZ c (iterZ k)) t = true) in Z. rewrite stepZ_spec in Z. auto.
  Qed.

  Lemma nuX_inside k g a y : In g goals -> In a asms -> pre y -> sub y (iterZ k) ->
    sub (nuX (liveOf (iterZ k) g y) a) (iterZ k).
  Proof.
    intros Hg Ha Hy Hs. destruct k as [|k]; [apply sub_true|]. intros s H.
    change (pos (stepZ c (iterZ k)) s = true). apply stepZ_spec. intros g' Hg'.
    rewrite <- (muY_fix c Hwf) by auto 8. apply stepY_spec. right. exists a. split; auto 8.
    revert H. apply nuX_mono; auto 8. now apply inside.
  Qed.

  Lemma stepX_inside k g a y v : In g goals -> In a asms -> pre y -> sub y (iterZ k) ->
    pre v -> sub v (iterZ k) -> sub (stepX (liveOf (iterZ k) g y) a v) (iterZ k).
  Proof.
    intros Hg Ha Hy Hs Hv Hvs. destruct k as [|k]; [apply sub_true|]. intros s H.
    change (pos (stepZ c (iterZ k)) s = true). apply stepZ_spec. intros g' Hg'.
    rewrite <- (muY_fix c Hwf) by auto 8. apply stepY_spec. right. exists a. split; auto 8.
    rewrite <- (nuX_fix c Hwf) by auto 8. revert H. unfold SynthProofs.stepX.
    apply (cox_mono c Hk HSe); [apply dep_pathsX; auto 9|apply dep_pathsX; auto 9|].
    intros s' t'. rewrite !pathsX_spec by auto 8. intros [H Hsafe]. split; auto 8. left.
    destruct H as [H|[H _]].
    - now apply (inside k g g' y).
    - apply liveOf_spec; auto 8. right. apply Hvs in H.
      change (pos (stepZ c (iterZ k)) t' = true) in H. rewrite stepZ_spec in H. auto.
  Qed.

  Lemma startOK_outer k g a y : In g goals -> In a asms -> pre y -> sub y (iterZ k) ->
    startOK (liveOf (iterZ k) g y) a (iterZ k).
  Proof.
    intros Hg Ha Hy Hs. split; [auto 8|]. split.
    - apply stepX_inside; auto 8. apply sub_refl.
    - now apply nuX_inside.
  Qed.

  Lemma startOK_recycled k g a : In g goals -> In a asms ->
    startOK (liveOf (iterZ (S k)) g bfalse) a
      (band (nuX (liveOf (iterZ k) g (muY (iterZ k) g)) a) (iterZ (S k))).
  Proof.
    intros Hg Ha. pose proof (iterZ_dec c Hwf k) as HD.
    assert (T : tsub (liveOf (iterZ (S k)) g bfalse) (liveOf (iterZ k) g (muY (iterZ k) g))).
    { intros s t. rewrite !liveOf_spec by auto 8. rewrite pos_false. intros [[H1 H2]|H]; [auto 8|discriminate]. }
    split; [auto 8|]. split; apply sub_and.
    - rewrite <- (nuX_fix c Hwf (liveOf (iterZ k) g (muY (iterZ k) g)) a) at 2 by auto 8.
      apply stepX_mono; auto 8. intros s. apply sub_and_l.
    - apply stepX_inside; auto 8 using sub_false. intros s. apply sub_and_r.
    - apply nuX_mono; auto 8.
    - apply nuX_inside; auto 8 using sub_false.
  Qed.

  Lemma asmLoopR_spec j fm fo z live as0 : any live -> incl as0 asms ->
    forall i0 good m data,
    (forall i a, nth_error as0 i = Some a -> exists st,
       recycledStart fm fo m j (i0 + i) z = Some st /\ startOK live a st) ->
    exists m' data', asmLoop c j live as0 good data = Some (orNuX c live as0 good, data') /\
      asmLoopR c fm fo z j live i0 as0 good m data = Some (orNuX c live as0 good, (m', data')) /\
      (forall j' i, j' <> j -> m' j' i = m j' i) /\
      (forall i, i < i0 -> m' j i = m j i) /\
      (forall i a, nth_error as0 i = Some a -> m' j (i0 + i) = Some (nuX live a)).
  Proof.
    intros Hl. induction as0 as [|a as0 IH]; intros Hi i0 good m data Hst.
    - exists m, data. cbn. repeat split; auto 8. intros [|]; discriminate.
    - assert (Ha : In a asms) by (apply Hi; now left).
      destruct (Hst 0 a eq_refl) as (st & Es & Ok). rewrite Nat.add_0_r in Es.
      cbn [asmLoop asmLoopR]. rewrite Es, (nu0From_spec live a st) by auto 8.
      destruct (nu0Loop_spec c Hwf live a) as (-> & _); auto 8.
      destruct (IH ltac:(intros b Hb; apply Hi; now right) (S i0) (bor good (nuX live a)) (matrixSet m j i0 (nuX live a))
         (data ++ [(j, pathsX c live a (nuX live a))])) as (m' & data' & E1 & E2 & M1 & M2 & M3).
      { intros i b Hb. destruct (Hst (S i) b Hb) as (st' & E' & Ok'). exists st'. split; auto 8.
        rewrite <- E'. unfold recycledStart. destruct (fm && negb fo); auto 8.
        replace (S i0 + i) with (i0 + S i) by lia. unfold matrixSet. rewrite Nat.eqb_refl. cbn [andb].
        destruct (Nat.eqb_spec (i0 + S i) i0); [lia|reflexivity]. }
      exists m', data'. split; [exact E1|]. split; [exact E2|]. split; [|split].
      + intros j' i Hj. rewrite M1 by auto 8. unfold matrixSet. destruct (Nat.eqb_spec j' j); [contradiction|reflexivity].
      + intros i Hi'. rewrite M2 by lia. unfold matrixSet. rewrite Nat.eqb_refl.
        destruct (Nat.eqb_spec i i0); [lia|reflexivity].
      + intros [|i] b Hb.
        * injection Hb as <-. rewrite Nat.add_0_r, M2 by lia. unfold matrixSet. now rewrite !Nat.eqb_refl.
        * replace (i0 + S i) with (S i0 + i) by lia. now apply M3.
  Qed.

  (** The rows of the matrix after goal [g] has been processed. *)
  Definition rowOK (m : matrix) (j : nat) (z g y : BF) : Prop :=
    forall i a, nth_error asms i = Some a -> m j i = Some (nuX (liveOf z g y) a).

  Lemma mu1LoopR_spec j k fo g m data : In g goals -> fo = Nat.eqb k 0 ->
    (forall k', k = S k' -> rowOK m j (iterZ k') g (muY (iterZ k') g)) ->
    exists live m' data',
      mu1Loop c j (band g (swapPrePost c (iterZ k))) data = Some (muY (iterZ k) g, (live, data')) /\
      run (mu1BodyR c fo (iterZ k) j) (fpFuel c)
        (bfalse, (band g (swapPrePost c (iterZ k)), (true, (m, data)))) =
        Some (muY (iterZ k) g, (live, (false, (m', data')))) /\
      rowOK m' j (iterZ k) g (muY (iterZ k) g) /\
      (forall j' i, j' <> j -> m' j' i = m j' i).
  Proof.
    intros Hg Hfo Hm. set (z := iterZ k). assert (Hz : pre z) by (unfold z; auto 8).
    set (base := band g (swapPrePost c z)).
    set (R := fun (st : midState) (st' : BF * (BF * list (nat * BF))) =>
      let '(y, (live, (fm, (mm, dd)))) := st in
      st' = (y, (live, dd)) /\ (exists n, y = iterY c z g n) /\ sub y z /\
      bor live (swapPrePost c y) = liveOf z g y /\
      (forall j' i, j' <> j -> mm j' i = m j' i) /\
      (fm = true -> y = bfalse /\ forall i, mm j i = m j i)).
    set (Q := fun (st : midState) (st' : BF * (BF * list (nat * BF))) =>
      let '(y, (live, (fm, (mm, dd)))) := st in
      st' = (y, (live, dd)) /\ fm = false /\ rowOK mm j z g y /\ (forall j' i, j' <> j -> mm j' i = m j' i)).
    assert (Body : forall s1 s2, R s1 s2 -> match mu1BodyR c fo z j s1, mu1Body c j s2 with
       | Cont a, Cont b => R a b | Done a, Done b => Q a b | Abort, Abort => True | _, _ => False end).
    { intros [y [live [fm [mm dd]]]] s2 (-> & (n & ->) & Hs & El & M1 & M2).
      assert (Py : pre (iterY c z g n)) by (apply pre_iterY; auto 8).
      unfold mu1BodyR, mu1Body. rewrite El.
      destruct (asmLoopR_spec j fm fo z (liveOf z g (iterY c z g n)) asms) with (i0 := 0) (good := iterY c z g n)
        (m := mm) (data := dd) as (m' & data' & E1 & E2 & N1 & _ & N3); auto using incl_refl.
      { intros i a Ha. assert (Hin : In a asms) by now apply nth_error_In in Ha.
        unfold recycledStart. cbn [plus]. destruct (fm && negb fo) eqn:Ef.
        - apply andb_true_iff in Ef. destruct Ef as [-> Ef]. destruct (M2 eq_refl) as [Ey M3].
          rewrite Ey in *. rewrite M3.
          destruct k as [|k']; [subst fo; discriminate|]. rewrite (Hm k' eq_refl i a Ha).
          eexists. split; [reflexivity|]. now apply startOK_recycled.
        - eexists. split; [reflexivity|]. now apply startOK_outer. }
      rewrite E1, E2. fold (stepY c z g (iterY c z g n)). unfold fpUpdate.
      destruct (bf_eqb _ _) eqn:Ee.
      - split; [reflexivity|]. split; [reflexivity|]. split.
        + intros i a Ha. apply (N3 i a Ha).
        + intros j' i Hj. rewrite N1; auto 8.
      - split; [reflexivity|]. split; [now exists (S n)|]. split.
        { intros s. rewrite stepY_spec. intros [H|(a & Ha & H)]; auto 8. revert H. now apply nuX_inside. }
        split; [|split; [|discriminate]].
        + apply trans_inj. intros s t. unfold SynthProofs.liveOf. autorewrite with sem.
          destruct (trans g s t && trans (swapPrePost c z) s t); auto 8. cbn.
          rewrite !trans_swap_pos by auto using pre_stepY.
          destruct (pos (iterY c z g n) t) eqn:E'; auto 8.
          pose proof (stepY_inc c z g (iterY c z g n) t E') as ->. reflexivity.
        + intros j' i Hj. rewrite N1; auto 8. }
    destruct (mu1Loop_spec c Hwf j z g data) as (y & live & L & E & HY & _); auto 8.
    assert (y = muY z g) as -> by (apply (isMuY_unique c Hwf z g); auto; apply muY_spec; auto).
    pose proof (run_sim _ _ R Q Body (fpFuel c) (bfalse, (base, (true, (m, data)))) (bfalse, (base, data))) as Sim.
    unfold mu1Loop in E. fold base in E. rewrite E in Sim.
    destruct (run (mu1BodyR c fo z j) (fpFuel c) (bfalse, (base, (true, (m, data))))) as [[y' [l' [fm' [m' dd']]]]|].
    - destruct Sim as (E' & -> & HR & M).
      + split; [reflexivity|]. split; [now exists 0|]. split; [apply sub_false|]. split; [reflexivity|]. auto.
      + injection E' as <- <- <-. exists live, m', (data ++ map (pair j) (map fst L)). auto.
    - elim Sim. split; [reflexivity|]. split; [now exists 0|]. split; [apply sub_false|]. split; [reflexivity|]. auto.
  Qed.

  Lemma goalLoopR_spec k fo gs : incl gs goals -> fo = Nat.eqb k 0 -> forall j next m data,
    (forall k', k = S k' -> forall i g, nth_error gs i = Some g -> rowOK m (j + i) (iterZ k') g (muY (iterZ k') g)) ->
    exists next' m' data', goalLoop c (iterZ k) j gs next data = Some (next', data') /\
      goalLoopR c fo (iterZ k) j gs next m data = Some (next', (m', data')) /\
      (forall j' i, j' < j -> m' j' i = m j' i) /\
      (forall i g, nth_error gs i = Some g -> rowOK m' (j + i) (iterZ k) g (muY (iterZ k) g)).
  Proof.
    intros Hgs Hfo. induction gs as [|g gs IH]; intros j next m data Hm.
    - exists next, m, data. cbn. repeat split; auto 8. intros [|]; discriminate.
    - cbn [goalLoop goalLoopR].
      destruct (mu1LoopR_spec j k fo g m data) as (live & m1 & data1 & E1 & E2 & R1 & M1); auto 8.
      { apply Hgs. now left. }
      { intros k' Ek. specialize (Hm k' Ek 0 g eq_refl). now rewrite Nat.add_0_r in Hm. }
      rewrite E1, E2.
      destruct (IH ltac:(intros b Hb; apply Hgs; now right) (S j) (band next (muY (iterZ k) g)) m1 data1)
        as (next' & m' & data' & E1' & E2' & M2 & R2).
      { intros k' Ek i g' Hg' i' a Ha. rewrite M1 by lia. specialize (Hm k' Ek (S i) g' Hg').
        replace (S j + i) with (j + S i) by lia. now apply Hm. }
      exists next', m', data'. split; [exact E1'|]. split; [exact E2'|]. split.
      + intros j' i Hj. rewrite M2 by lia. apply M1. lia.
      + intros [|i] g' Hg'.
        * injection Hg' as <-. rewrite Nat.add_0_r. intros i a Ha. rewrite M2 by lia. now apply R1.
        * replace (j + S i) with (S j + i) by lia. now apply R2.
  Qed.

  (** The recycling variant computes exactly the same sets. *)
  Lemma recycling_same : computeRecycling c = computeWinningPositions c.
  Proof.
    set (R := fun (st : outState) (st' : BF * list (nat * BF)) =>
      let '(z, (fo, (m, dd))) := st in
      st' = (z, dd) /\ exists k, z = iterZ k /\ fo = Nat.eqb k 0 /\
        forall k', k = S k' -> forall i g, nth_error goals i = Some g -> rowOK m i (iterZ k') g (muY (iterZ k') g)).
    set (Q := fun (st : outState) (st' : BF * list (nat * BF)) =>
      let '(z, (fo, (m, dd))) := st in st' = (z, dd)).
    assert (Body : forall s1 s2, R s1 s2 -> match nu2BodyR c s1, nu2Body c s2 with
       | Cont a, Cont b => R a b | Done a, Done b => Q a b | Abort, Abort => True | _, _ => False end).
    { intros [z [fo [m dd]]] s2 (-> & k & -> & Hfo & Hm). unfold nu2BodyR, nu2Body. cbn [fst].
      destruct (goalLoopR_spec k fo goals (incl_refl _) Hfo 0 btrue m []) as (next & m' & data' & E1 & E2 & _ & R2).
      { intros k' Ek i g Hg. now apply Hm. }
      rewrite E1, E2.
      assert (next = iterZ (S k)) as ->.
      { destruct (SynthProofs.goalLoop_spec c Hwf (iterZ k) goals) with (j := 0) (next := btrue) (data := @nil (nat * BF))
          as (d' & E & _); auto 8. rewrite E in E1. injection E1 as E1 _. now rewrite <- E1. }
      unfold fpUpdate. destruct (bf_eqb (iterZ k) (iterZ (S k))) eqn:Ee.
      - reflexivity.
      - split; [reflexivity|]. exists (S k). split; [reflexivity|]. split; [reflexivity|].
        intros k' Ek i g Hg. injection Ek as <-. apply (R2 i g Hg). }
    unfold computeRecycling, computeWinningPositions.
    pose proof (run_sim _ _ R Q Body (fpFuel c) (btrue, (true, (fun _ _ => None, []))) (btrue, [])) as Sim.
    assert (H0 : R (btrue, (true, (fun _ _ => None, []))) (btrue, [])).
    { split; [reflexivity|]. exists 0. split; [reflexivity|]. split; [reflexivity|]. discriminate. }
    specialize (Sim H0).
    destruct (run (nu2BodyR c) _ _) as [[z [fo [m dd]]]|], (run (nu2Body c) _ _) as [st'|]; try contradiction; auto.
    now rewrite Sim.
  Qed.

  (** ** Bias for action *)

  (** Every position of [y] has an immediate transition into the live set. *)
  Definition quick (z g y : BF) : Prop := sub y (cox c (band (liveOf z g y) (safetySys c))).

  Lemma some_asm : exists A, In A asms.
  Proof.
    pose proof (wf_asm_ne c Hwf) as H. clear - H. destruct (livenessAssumptions c) as [|A l]; [now elim H|].
    exists A. now left.
  Qed.

  Lemma biasLoop_spec j z g y data L : pre z -> any g -> pre y -> quick z g y -> sub y (muY z g) ->
    goodEnt c z g L y ->
    exists b L', run (biasBody c j (liveOf z g y)) (fpFuel c) (y, data) = Some (b, data ++ map (pair j) (map fst L')) /\
      pre b /\ sub y b /\ sub b (muY z g) /\ goodEnt c z g (L ++ L') b /\
      sub b (cox c (band (bor (liveOf z g y) (swapPrePost c b)) (safetySys c))).
  Proof.
    intros Hz Hg Hy HQ Hm HL. set (live := liveOf z g y). assert (Hlive : any live) by (unfold live; auto 8).
    set (P := fun b => band (bor live (swapPrePost c b)) (safetySys c)).
    assert (HP : forall b, pre b -> any (P b)) by (intros; unfold P; auto 6).
    assert (PS : forall b s t, pre b -> trans (P b) s t = true <->
       ((trans g s t = true /\ pos z t = true) \/ pos y t = true \/ pos b t = true) /\ trans (safetySys c) s t = true).
    { intros b s t Hb. unfold P. autorewrite with sem. rewrite andb_true_iff, orb_true_iff, trans_swap_pos by auto 8.
      unfold live. rewrite liveOf_spec by auto 8. tauto. }
    set (Inv := fun (b : BF) (d : list (nat * BF)) => pre b /\ sub y b /\ sub b (muY z g) /\ sub b (cox c (P b)) /\
       exists L', d = data ++ map (pair j) (map fst L') /\ goodEnt c z g (L ++ L') b).
    assert (Add : forall b L', pre b -> sub y b -> sub b (cox c (P b)) -> goodEnt c z g (L ++ L') b ->
       exists A, goodEnt c z g (L ++ L' ++ [(P b, A)]) (cox c (P b))).
    { intros b L' Hb Hs Hc HE. destruct some_asm as (A & HAi).
      exists A. rewrite app_assoc.
      replace (cox c (P b)) with (bor b (cox c (P b))).
      2:{ apply (sub_antisym c); auto using dep_cox. apply sub_or; auto using sub_refl. apply sub_or_r. }
      apply (goodEnt_add c Hwf); auto 8.
      - intros s t Ht. apply PS in Ht; auto 8. destruct Ht as [Ht Hsf]. split; auto 8. destruct Ht as [?|[?|?]]; auto 8. }
    assert (Up : forall b, pre b -> sub y b -> sub b (muY z g) -> sub (cox c (P b)) (muY z g)).
    { intros b Hb Hs Hbm s H. rewrite <- (muY_fix c Hwf) by auto 8. apply stepY_spec. right.
      destruct some_asm as (A & HAi).
      exists A. split; [exact HAi|]. rewrite <- (nuX_fix c Hwf) by auto 8. revert H. unfold SynthProofs.stepX.
      apply (cox_mono c Hk HSe); [auto 8|apply dep_pathsX; auto 9|].
      intros s' t' Ht. apply PS in Ht; auto 8. destruct Ht as [Ht Hsf]. apply pathsX_spec; auto 8. split; auto 8.
      left. apply liveOf_spec; auto 8. destruct Ht as [?|[?|?]]; auto 8. }
    destruct (fp_inc c Hk (biasBody c j live) (fun b _ => cox c (P b)) (fun b d => d ++ [(j, P b)]) Inv y data)
      as (b & d & (B1 & B2 & B3 & B4 & L' & Ed & HE) & E & R & _).
    - split; [auto|]. split; [apply sub_refl|]. split; [auto|]. split.
      + eapply sub_trans; [exact HQ|]. apply (cox_mono c Hk HSe); [unfold live in *; auto|auto|].
        intros s' t'. rewrite PS by auto. autorewrite with sem. rewrite andb_true_iff, liveOf_spec by auto. tauto.
      + exists []. cbn. rewrite !app_nil_r. auto.
    - intros b d (B1 & B2 & B3 & B4 & L' & Ed & HE). split; [reflexivity|].
      split; [auto 8|]. split; [auto using dep_cox|]. split; [auto 8|]. intros _.
      destruct (Add b L' B1 B2 B4 HE) as (A & HA').
      split; [auto using dep_cox|]. split; [eapply sub_trans; eauto|]. split; [auto 8|]. split.
      + apply (cox_mono c Hk HSe); auto using dep_cox. intros s t. rewrite !PS by auto using dep_cox.
        intros [[?|[?|H]] ?]; auto 6.
      + exists (L' ++ [(P b, A)]). split; auto 8. rewrite Ed, !map_app, <- app_assoc. reflexivity.
    - destruct (Add b L' B1 B2 B4 HE) as (A & HA'). rewrite E in HA'.
      exists b, (L' ++ [(P b, A)]). rewrite R, Ed, !map_app, <- app_assoc. auto 8.
  Qed.

  Lemma mu1LoopB_spec j z g data : pre z -> any g ->
    exists live L, run (mu1BodyB c j) (fpFuel c) (bfalse, (band g (swapPrePost c z), data)) =
        Some (muY z g, (live, data ++ map (pair j) (map fst L))) /\
      goodEnt c z g L (muY z g) /\ fullEnt c L (muY z g).
  Proof.
    intros Hz Hg. set (base := band g (swapPrePost c z)).
    assert (Hbase : any base) by (unfold base; auto 8).
    set (Inv := fun (y : BF) (d : BF * list (nat * BF)) =>
       pre y /\ bor (fst d) (swapPrePost c y) = liveOf z g y /\ quick z g y /\ sub y (muY z g) /\
       exists L, snd d = data ++ map (pair j) (map fst L) /\ goodEnt c z g L y).
    assert (Body : forall y d, Inv y d -> exists good L', pre good /\ sub y good /\ sub good (muY z g) /\
       quick z g good /\ sub (stepY c z g y) good /\ fullEnt c L' y /\ goodEnt c z g L' good /\
       mu1BodyB c j (y, d) = fpUpdate y good (liveOf z g y, data ++ map (pair j) (map fst L'))).
    { intros y [live dat] (Py & El & HQ & Hm & L & Ed & HL). cbn [fst snd] in *.
      destruct (biasLoop_spec j z g y dat L Hz Hg Py HQ Hm HL) as (b & Lb & R & Pb & Syb & Sbm & HLb & Qb).
      destruct (asmLoop_spec c Hwf j z g y asms Hz Hg Py (incl_refl _) b (dat ++ map (pair j) (map fst Lb)) (L ++ Lb) Syb HLb)
        as (La & EA & HLa & HF).
      set (good := orNuX c (liveOf z g y) asms b) in *.
      assert (GS : forall s, pos good s = true <-> pos b s = true \/ exists a, In a asms /\ pos (nuX (liveOf z g y) a) s = true)
        by (intros s; apply orNuX_spec).
      assert (Pg : pre good).
      { apply pre_orNuX; auto 8. }
      assert (Sg : sub y good) by (intros s H; apply GS; left; now apply Syb).
      exists good, ((L ++ Lb) ++ La). split; [auto 8|]. split; [auto 8|]. split; [|split; [|split; [|split; [|split]]]].
      - intros s H. apply GS in H. destruct H as [H|(a & Ha & H)]; [now apply Sbm|].
        rewrite <- (muY_fix c Hwf) by auto 8. apply stepY_spec. right. exists a. split; auto 8. revert H.
        apply nuX_mono; auto 8. apply liveOf_mono; auto using sub_refl.
      - intros s H. apply GS in H. destruct H as [H|(a & Ha & H)].
        + apply Qb in H. revert H. apply (cox_mono c Hk HSe); [auto 9|auto 9|].
          intros s' t'. autorewrite with sem. rewrite !andb_true_iff, orb_true_iff, trans_swap_pos, !liveOf_spec by auto 8.
          intros [[[?|?]|?] ?]; split; auto 8. right. apply GS. now left.
        + assert (H' : forall s, pos (nuX (liveOf z g y) a) s = true -> pos good s = true)
            by (intros; apply GS; right; now exists a).
          rewrite <- (nuX_fix c Hwf) in H by auto 8. revert H. unfold SynthProofs.stepX.
          apply (cox_mono c Hk HSe); [apply dep_pathsX; auto 9|auto 9|].
          intros s' t'. rewrite pathsX_spec by auto 8. autorewrite with sem. rewrite andb_true_iff, !liveOf_spec by auto 8.
          intros [[[?|?]|[? _]] ?]; auto 8.
      - intros s. rewrite stepY_spec. intros [H|H]; auto 8. apply GS. now right.
      - intros s t H1 H2. destruct (HF (wf_asm_ne c Hwf) s t H1 H2) as (F & A & Hin & H).
        exists F, A. split; auto 8. apply in_or_app. now right.
      - exact HLa.
      - unfold mu1BodyB. rewrite El, R, EA, Ed, !map_app, <- !app_assoc. reflexivity. }
    set (F := fun y d => match mu1BodyB c j (y, d) with Cont (g', _) => g' | _ => y end).
    assert (HFe : forall y d, Inv y d -> exists L', 
       pre (F y d) /\ sub y (F y d) /\ sub (F y d) (muY z g) /\ quick z g (F y d) /\
       sub (stepY c z g y) (F y d) /\ fullEnt c L' y /\ goodEnt c z g L' (F y d) /\
       mu1BodyB c j (y, d) = fpUpdate y (F y d) (liveOf z g y, data ++ map (pair j) (map fst L'))).
    { intros y d HI. destruct (Body y d HI) as (good & L' & B). exists L'.
      replace (F y d) with good; [exact B|]. destruct B as (_ & _ & _ & _ & _ & _ & _ & B).
      unfold F. rewrite B. unfold fpUpdate. destruct (bf_eqb y good) eqn:Ee; auto 8.
      symmetry. now apply bf_eqb_eq. }
    set (Dn := fun y d => match mu1BodyB c j (y, d) with Cont (_, d') => d' | Done (_, d') => d' | Abort => d end).
    destruct (fp_inc c Hk (mu1BodyB c j) F Dn Inv bfalse (base, data)) as (y & d & HI & E & R & _).
    - split; [auto 8|]. split; [reflexivity|]. split; [intros s; now rewrite pos_false|].
      split; [apply sub_false|]. exists []. cbn. rewrite app_nil_r. split; auto 8. split; [|split].
      + intros [|] ? ? ? E; discriminate.
      + intros s. now rewrite pos_false.
      + now intros F' A [].
    - intros y d HI. destruct (HFe y d HI) as (L' & B1 & B2 & B3 & B4 & B5 & B6 & B7 & B8).
      assert (ED : Dn y d = (liveOf z g y, data ++ map (pair j) (map fst L'))).
      { unfold Dn. rewrite B8. unfold fpUpdate. now destruct (bf_eqb y (F y d)). }
      rewrite ED. split; [exact B8|]. split; [apply HI|]. split; [auto 8|]. split; [auto 8|]. intros _.
      split; [auto 8|]. split; [|split; [auto 8|split; [auto 8|exists L'; auto]]]. cbn [fst].
      destruct HI as (Py & _). apply trans_inj. intros s t. unfold SynthProofs.liveOf. autorewrite with sem.
      destruct (trans g s t && trans (swapPrePost c z) s t); auto 8. cbn. rewrite !trans_swap_pos by auto 8.
      destruct (pos y t) eqn:E'; auto 8. now rewrite (B2 t E').
    - destruct (HFe y d HI) as (L' & B1 & B2 & B3 & B4 & B5 & B6 & B7 & B8).
      assert (ED : Dn y d = (liveOf z g y, data ++ map (pair j) (map fst L'))).
      { unfold Dn. rewrite B8. unfold fpUpdate. now destruct (bf_eqb y (F y d)). }
      rewrite E in *. rewrite ED in R.
      assert (y = muY z g) as ->.
      { apply (sub_antisym c); auto 8. now apply muY_least. }
      exists (liveOf z g (muY z g)), L'. auto.
  Qed.

  Lemma goalLoopB_spec z gs : pre z -> forall j next data, Forall any gs ->
    exists data', goalLoopB c z j gs next data =
        Some (fold_left (fun acc g => band acc (muY z g)) gs next, data ++ data') /\
      (forall i, i < j -> dataOf i data' = []) /\
      (forall i, i < length gs -> exists L, dataOf (j + i) data' = map fst L /\
           goodEnt c z (nth i gs btrue) L (muY z (nth i gs btrue)) /\ fullEnt c L (muY z (nth i gs btrue))).
  Proof.
    intros Hz. induction gs as [|g gs IH]; intros j next data Hgs.
    - exists []. cbn. rewrite app_nil_r. repeat split; auto 8. intros i Hi. lia.
    - inversion Hgs as [|? ? Hg Hgs']; subst. cbn [goalLoopB].
      destruct (mu1LoopB_spec j z g data Hz Hg) as (live & L & -> & HL).
      destruct (IH (S j) (band next (muY z g)) (data ++ map (pair j) (map fst L)) Hgs')
        as (data' & E & H1 & H2).
      exists (map (pair j) (map fst L) ++ data'). rewrite E, <- app_assoc.
      split; [reflexivity|]. split.
      + intros i Hi. rewrite dataOf_app, dataOf_pair, H1 by lia.
        destruct (Nat.eqb_spec j i); [lia|reflexivity].
      + intros [|i] Hi.
        * exists L. rewrite Nat.add_0_r, dataOf_app, dataOf_pair, Nat.eqb_refl, H1, app_nil_r by lia. auto.
        * destruct (H2 i ltac:(cbn in Hi; lia)) as (L' & EL & HL').
          exists L'. rewrite dataOf_app, dataOf_pair.
          replace (j + S i) with (S j + i) by lia. destruct (Nat.eqb_spec j (S j + i)); [lia|].
          cbn [nth app]. auto.
  Qed.

  Lemma bias_spec : exists w data, computeBias c = Some (w, data) /\ solved c w data.
  Proof.
    unfold computeBias.
    destruct (fp_dec c Hk (nu2BodyB c) (fun z _ => stepZ c z)
      (fun z _ => match goalLoopB c z 0 goals btrue [] with Some (_, d) => d | None => [] end)
      (fun z _ => exists K, z = iterZ K) btrue []) as (w & d & (K & ->) & E & R & _).
    - now exists 0.
    - intros z d (K & ->).
      destruct (goalLoopB_spec (iterZ K) goals (pre_iterZ c Hwf K) 0 btrue [] HG) as (d' & EG & _).
      split; [|split; [auto|split; [apply (pre_iterZ c Hwf (S K))|split; [apply (iterZ_dec c Hwf)|intros _; now exists (S K)]]]].
      unfold nu2BodyB. cbn [fst]. rewrite EG. reflexivity.
    - destruct (goalLoopB_spec (iterZ K) goals (pre_iterZ c Hwf K) 0 btrue [] HG) as (d' & EG & _ & HD).
      rewrite EG in R. exists (iterZ K), ([] ++ d'). split; [exact R|]. split; [exact E|]. split; [eauto|].
      intros j Hj. apply (HD j Hj).
  Qed.

  (** All computations succeed, with the same winning positions. *)
  Lemma solve_spec a : exists w data, solve a c = Some (w, data) /\ solved c w data.
  Proof.
    destruct a; cbn [solve].
    - apply (compute_spec c Hwf).
    - rewrite recycling_same. apply (compute_spec c Hwf).
    - apply bias_spec.
  Qed.

  Lemma solve_same a b w d w' d' : solve a c = Some (w, d) -> solve b c = Some (w', d') -> w = w'.
  Proof.
    intros Ha Hb. destruct (solve_spec a) as (? & ? & Ea & Sa). destruct (solve_spec b) as (? & ? & Eb & Sb).
    rewrite Ea in Ha. rewrite Eb in Hb. injection Ha as <- <-. injection Hb as <- <-. eapply solved_unique; eauto.
  Qed.
End SOLVERS.

(** The verdict does not depend on the computation. *)
Lemma verdict_same a robotics c : wf c ->
  verdictWith a robotics c = if robotics then checkRealizabilityRobotics c else checkRealizability c.
Proof.
  intros Hwf. unfold verdictWith, checkRealizabilityRobotics, checkRealizability.
  destruct (solve_spec c Hwf a) as (w & d & Ea & _). destruct (solve_spec c Hwf Basic) as (w' & d' & Eb & _).
  pose proof (solve_same c Hwf a Basic w d w' d' Ea Eb) as ->. cbn [solve] in Eb. rewrite Ea, Eb. now destruct robotics.
Qed.
