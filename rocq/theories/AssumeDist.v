(** * Analysis of the assumptions: reactive distances *)

From Coq Require Import Arith List Bool Lia.
From Verif Require Import BDD Loop Spec AssumeSpec VarTypes Synth Sem FixBase GameSound GameComplete SynthProofs SolversProofs Verdict
  AnalyzeProofs Assume.
Import ListNotations.
Local Open Scope list_scope.

Local Lemma runInv {S R} (body : S -> step S R) (Inv : S -> Prop) (Q : R -> Prop) n s r :
  run body n s = Some r -> Inv s ->
  (forall s, Inv s -> match body s with Cont s' => Inv s' | Done r => Q r | Abort => True end) -> Q r.
Proof.
  intros E H0 Hs. apply run_Runs in E. destruct (Runs_last body Inv s r E H0) as (t & Ht & Et).
  - intros a b Ha Eb. specialize (Hs a Ha). now rewrite Eb in Hs.
  - specialize (Hs t Ht). now rewrite Et in Hs.
Qed.

Section LEVELS.
  Variable c : ctx.
  Hypothesis Hwf : wf c.
  Let Hk := wf_kinds c Hwf.
  Local Notation pre := (dep (isPreV c)).
  Local Notation any := (dep (isAnyV c)).

  Lemma asmLoopD_orNuX live : any live -> forall asms good all, Forall any asms ->
    exists all', asmLoopD c live asms good all = Some (orNuX c live asms good, all').
  Proof.
    intros Hl. induction asms as [|a asms IH]; intros good all HA; cbn [asmLoopD].
    - eexists. reflexivity.
    - inversion HA; subst. destruct (nu0Loop_spec c Hwf live a) as (-> & _); auto.
      destruct (IH (bor good (nuX c live a)) (bor all (pathsX c live a (nuX c live a)))) as (all' & ->); auto.
      exists all'. reflexivity.
  Qed.

  (** The stored sets for a goal. *)
  Definition stored (z g : BF) (m : nat) : list BF := map (fun k => iterY c z g (S k)) (seq 0 m).
  Lemma stored_S z g m : stored z g (S m) = stored z g m ++ [iterY c z g (S m)].
  Proof. unfold stored. now rewrite seq_S, map_app. Qed.

  Lemma mu1D_stored z g : pre z -> any g -> forall y l d s,
    run (mu1BodyD c) (fpFuel c) (bfalse, (band g (swapPrePost c z), ([], []))) = Some (y, (l, (d, s))) ->
    isMuY c z g y /\ exists m, y = iterY c z g m /\ d = stored z g (S m).
  Proof.
    intros Hz Hg y l d s E.
    set (base := band g (swapPrePost c z)) in *.
    assert (Sz : any (swapPrePost c z)) by (apply any_swap; auto; now apply isPre_isAny).
    assert (Hbase : any base) by (apply dep_and; auto).
    set (Inv := fun st : distState => exists m, fst st = iterY c z g m /\ fst (snd (snd st)) = stored z g m /\
           tsub base (fst (snd st)) /\ tsub (fst (snd st)) (bor base (swapPrePost c (fst st)))).
    refine (runInv (mu1BodyD c) Inv (fun r => isMuY c z g (fst r) /\ exists m, fst r = iterY c z g m /\
       fst (snd (snd r)) = stored z g (S m)) _ _ _ E _ _).
    - exists 0. cbn [fst snd]. split; [reflexivity|]. split; [reflexivity|]. split; [apply tsub_refl|].
      intros a b H. autorewrite with sem. now rewrite H.
    - intros [y1 [l1 [d1 s1]]] (m & E1 & E2 & H1 & H2). cbn [fst snd] in *. subst y1 d1.
      assert (Py : pre (iterY c z g m)) by (apply pre_iterY; auto).
      assert (HL : bor l1 (swapPrePost c (iterY c z g m)) = liveOf c z g (iterY c z g m)).
      { apply trans_inj. intros a b. unfold liveOf. fold base. autorewrite with sem. specialize (H1 a b). specialize (H2 a b).
        autorewrite with sem in H2.
        destruct (trans l1 a b), (trans base a b), (trans (swapPrePost c (iterY c z g m)) a b); cbn in *; auto;
        try (specialize (H2 eq_refl); discriminate); try (specialize (H1 eq_refl); discriminate). }
      unfold mu1BodyD. rewrite HL.
      destruct (asmLoopD_orNuX (liveOf c z g (iterY c z g m))) with (asms := livenessAssumptions c)
        (good := iterY c z g m) (all := bfalse) as (all' & ->).
      { apply any_liveOf; auto; now apply isPre_isAny. }
      { apply (wf_asm c Hwf). }
      change (orNuX c (liveOf c z g (iterY c z g m)) (livenessAssumptions c) (iterY c z g m)) with (iterY c z g (S m)).
      unfold fpUpdate. destruct (bf_eqb_spec (iterY c z g m) (iterY c z g (S m))) as [Heq|Hne]; cbn [fst snd].
      + split; [split; [symmetry; exact Heq|now exists (S m)]|]. exists m. split; [now symmetry|]. symmetry. apply stored_S.
      + exists (S m). split; [reflexivity|]. split; [symmetry; apply stored_S|]. cbn [fst snd]. split.
        * intros a b H. unfold liveOf. fold base. autorewrite with sem. now rewrite H.
        * intros a b. unfold liveOf. fold base. autorewrite with sem. rewrite !orb_true_iff.
          intros [H|H]; auto. right. assert (pre (iterY c z g (S m))) by (apply pre_iterY; auto).
          rewrite trans_swap_pos in * by auto. revert H. apply (stepY_inc c).
  Qed.

  Lemma goalLoopD_next z : pre z -> forall goals next dists strats next' d s, Forall any goals -> pre next ->
    goalLoopD c z goals next dists strats = Some (next', (d, s)) -> pre next'.
  Proof.
    intros Hz. induction goals as [|g goals IH]; intros next dists strats next' d s HG Hn E; cbn [goalLoopD] in E.
    - now injection E as <- <- <-.
    - inversion HG; subst. destruct (run (mu1BodyD c) _ _) as [[y [l [dist strat]]]|] eqn:EM; [|discriminate].
      apply mu1D_stored in EM; auto. destruct EM as (HM & _). apply IH in E; auto. apply dep_and; auto.
      apply (isMuY_pre c Hwf z g); auto.
  Qed.
  Lemma goalLoopD_stored z : pre z -> forall goals next dists strats next' d s, Forall any goals ->
    goalLoopD c z goals next dists strats = Some (next', (d, s)) ->
    exists ms, d = dists ++ map (fun e => stored z (fst e) (S (snd e))) (combine goals ms) /\
      Forall2 (fun g m => isMuY c z g (iterY c z g m)) goals ms.
  Proof.
    intros Hz. induction goals as [|g goals IH]; intros next dists strats next' d s HG E; cbn [goalLoopD] in E.
    - injection E as <- <- <-. exists []. rewrite app_nil_r. split; auto.
    - inversion HG; subst. destruct (run (mu1BodyD c) _ _) as [[y [l [dist strat]]]|] eqn:EM; [|discriminate].
      apply mu1D_stored in EM; auto. destruct EM as (HM & m & -> & ->).
      destruct (IH _ _ _ _ _ _ H2 E) as (ms & -> & HF). exists (m :: ms). rewrite <- app_assoc. split; [reflexivity|].
      constructor; auto.
  Qed.

  Lemma computeDistances_stored w d s : computeDistances c = Some (w, (d, s)) -> pre w /\
    exists ms, d = map (fun e => stored w (fst e) (S (snd e))) (combine (livenessGuarantees c) ms) /\
      Forall2 (fun g m => isMuY c w g (iterY c w g m)) (livenessGuarantees c) ms.
  Proof.
    unfold computeDistances. intros E.
    refine (runInv (nu2BodyD c) (fun st => pre (fst st))
      (fun r => pre (fst r) /\ exists ms, fst (snd r) = map (fun e => stored (fst r) (fst e) (S (snd e))) (combine (livenessGuarantees c) ms) /\
      Forall2 (fun g m => isMuY c (fst r) g (iterY c (fst r) g m)) (livenessGuarantees c) ms) _ _ _ E (dep_true _) _).
    intros [z d0] Hz. cbn [fst] in Hz. unfold nu2BodyD. cbn [fst].
    destruct (goalLoopD _ _ _ _ _ _) as [[next [d1 s1]]|] eqn:EG; auto.
    pose proof (goalLoopD_next z Hz _ _ _ _ _ _ _ (wf_gua c Hwf) (dep_true _) EG) as Pn.
    apply goalLoopD_stored in EG; [|auto|apply (wf_gua c Hwf)]. destruct EG as (ms & -> & HF).
    unfold fpUpdate. destruct (bf_eqb_spec z next) as [->|_]; cbn [fst snd]; auto.
    split; auto. exists ms. auto.
  Qed.

  (** The levels of the middle fixed point, by the specification. *)
  Section LEVEL.
    Variables (w g : BF).
    Hypothesis HX : exactW c w.
    Hypothesis Hg : any g.
    Local Notation G := (game_of c).
    Let Hw : pre w := proj1 HX.

    Lemma avoiding_nuX live a (good : state -> state -> Prop) s : any live -> any a ->
      (forall s t, trans live s t = true <-> good s t) ->
      pos (nuX c live a) s = true <-> avoiding G (trans a) good s.
    Proof.
      intros Hl Ha HL. split.
      - intros H. exists (fun s => pos (nuX c live a) s = true). split; auto. clear s H.
        intros s H x. rewrite <- nuX_fix in H by auto. unfold stepX in H.
        assert (P : pre (nuX c live a)) by (apply pre_nuX; auto).
        rewrite (cox_spec c Hk (wf_safetyEnv c Hwf)) in H by (apply dep_pathsX; [auto|exact (wf_safetySys c Hwf)|exact Hl|exact Ha|now apply isPre_isAny]). destruct (H x) as (y & Hy). exists y.
        change (merge G x y) with (mrg c x y). intros HS. apply Hy in HS. apply pathsX_spec in HS; auto.
        destruct HS as [HS1 HS2]. split; auto. rewrite <- HL. tauto.
      - intros (X & Hs & HXs). rewrite nuX_iter by auto.
        generalize (S (2 ^ nvars c)). intros m. revert s Hs. induction m as [|m IH]; intros s Hs; [apply pos_true|].
        change (pos (stepX c live a (iterX c live a m)) s = true). unfold stepX.
        assert (P : pre (iterX c live a m)) by (apply pre_iterX; auto).
        rewrite (cox_spec c Hk (wf_safetyEnv c Hwf)) by (apply dep_pathsX; [auto|exact (wf_safetySys c Hwf)|exact Hl|exact Ha|now apply isPre_isAny]). intros x. destruct (HXs s Hs x) as (y & Hy). exists y.
        intros HS. apply Hy in HS. apply pathsX_spec; auto. destruct HS as [HS1 HS2]. split; auto.
        rewrite HL. destruct HS2 as [HS2|[HS2 HS3]]; auto.
    Qed.

    Lemma avoiding_mono p (good good' : state -> state -> Prop) s : (forall s t, good s t -> good' s t) ->
      avoiding G p good s -> avoiding G p good' s.
    Proof.
      intros H (X & Hs & HXs). exists X. split; auto. intros s1 H1 x. destruct (HXs s1 H1 x) as (y & Hy). exists y.
      intros HS. destruct (Hy HS) as [E1 E2]. split; auto. destruct E2 as [E2|E2]; auto.
    Qed.
    Lemma within_S goal k : forall s, within G goal k s -> within G goal (S k) s.
    Proof.
      induction k as [|k IH]; intros s H; [contradiction|]. destruct H as (p & Hp & H). exists p. split; auto.
      revert H. apply avoiding_mono. intros s1 t [H|H]; auto.
    Qed.

    Lemma level_spec k : forall s, pos (iterY c w g k) s = true <-> within G (trans g) k s.
    Proof.
      induction k as [|k IH]; intros s.
      - change (pos bfalse s = true <-> False). rewrite pos_false. split; [discriminate|contradiction].
      - assert (P : pre (iterY c w g k)) by (apply pre_iterY; auto).
        change (pos (stepY c w g (iterY c w g k)) s = true <-> within G (trans g) (S k) s).
        rewrite stepY_spec, IH. cbn [within].
        assert (EQ : forall a, In a (livenessAssumptions c) ->
          (pos (nuX c (liveOf c w g (iterY c w g k)) a) s = true <->
           avoiding G (trans a) (fun s t => (trans g s t = true /\ winning G t) \/ within G (trans g) k t) s)).
        { intros a Ha. apply avoiding_nuX; auto.
          - apply any_liveOf; auto; now apply isPre_isAny.
          - now apply (any_asm c Hwf).
          - intros s1 t. rewrite liveOf_spec by auto. rewrite IH, (exact_winning c w HX). tauto. }
        split.
        + intros [H|(a & Ha & H)].
          * apply within_S in H. exact H.
          * exists (trans a). split; [now apply in_map|]. now apply EQ.
        + intros (p & Hp & H). apply in_map_iff in Hp. destruct Hp as (a & <- & Ha). right. exists a. split; auto. now apply EQ.
    Qed.
  End LEVEL.
End LEVELS.
