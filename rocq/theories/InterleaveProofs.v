(** * Correctness of the fixed-point computation of --analyzeInterleaving

    For the outputs [B] set before the input is read, and the cubes of their variables and the
    other outputs.  The structure is that of SynthProofs.v. *)

From Coq Require Import Arith List Bool Lia.
From Verif Require Import BDD Loop Spec VarTypes Synth Sem FixBase GameSound SynthProofs InterleaveSpec InterleaveGame InterleaveSpoil.
Import ListNotations.

(** Quantification over some of the next values. *)
Lemma ex_cube l (q : nat -> bool) f s t : (forall v, In v l <-> exists k, v = 2 * k + 1 /\ q k = true) ->
  trans (bexists l f) s t = true <-> exists t', (forall k, q k = false -> t' k = t k) /\ trans f s t' = true.
Proof.
  intros Hl. unfold trans. rewrite eval_exists. split.
  - intros (e & Ha & He). exists (fun k => e (2 * k + 1)). split.
    + intros k Hq. rewrite <- Ha; [apply tv_odd|]. rewrite Hl. intros (k' & E & E'). assert (k = k') by lia. congruence.
    + rewrite <- He. apply eval_ext. intros v. destruct (even_cases v) as [[k ->]|[k ->]]; rewrite ?tv_even, ?tv_odd; auto.
      rewrite <- Ha; [now rewrite tv_even|]. rewrite Hl. intros (m & E & _). lia.
  - intros (t' & Ht & H). exists (tv s t'). split; auto.
    intros v Hv. destruct (even_cases v) as [[k ->]|[k ->]]; rewrite ?tv_even, ?tv_odd; auto.
    destruct (q k) eqn:E; [|symmetry; auto]. elim Hv. apply Hl. eauto.
Qed.
Lemma fa_cube l (q : nat -> bool) f s t : (forall v, In v l <-> exists k, v = 2 * k + 1 /\ q k = true) ->
  trans (bforall l f) s t = true <-> forall t', (forall k, q k = false -> t' k = t k) -> trans f s t' = true.
Proof.
  intros Hl. unfold trans. rewrite eval_forall. split.
  - intros H t' Ht. apply H. intros v Hv. destruct (even_cases v) as [[k ->]|[k ->]]; rewrite ?tv_even, ?tv_odd; auto.
    destruct (q k) eqn:E; [|symmetry; auto]. elim Hv. apply Hl. eauto.
  - intros H e Ha. rewrite <- (H (fun k => e (2 * k + 1))).
    + apply eval_ext. intros v. destruct (even_cases v) as [[k ->]|[k ->]]; rewrite ?tv_even, ?tv_odd; auto.
      rewrite <- Ha; [now rewrite tv_even|]. rewrite Hl. intros (m & E & _). lia.
    + intros k Hq. rewrite <- Ha; [apply tv_odd|]. rewrite Hl. intros (k' & E & E'). assert (k = k') by lia. congruence.
Qed.

Section CORE.
  Variable c : ctx.
  Hypothesis Hwf : wf c.
  Variable B : nat -> bool.
  Hypothesis HB : forall k, B k = true -> isOut c k = true.
  Variables cubeB cubeA : list nat.
  Hypothesis HcB : forall v, In v cubeB <-> exists k, v = 2 * k + 1 /\ B k = true.
  Hypothesis HcA : forall v, In v cubeA <-> exists k, v = 2 * k + 1 /\ isOut c k && negb (B k) = true.
  Let Hk := wf_kinds c Hwf.
  Let HSe := wf_safetyEnv c Hwf.
  Let HSs := wf_safetySys c Hwf.
  Local Notation pre := (dep (isPreV c)).
  Local Notation any := (dep (isAnyV c)).

  Local Lemma pre_any f : pre f -> any f.
  Proof. apply isPre_isAny. Qed.
  Hint Resolve pre_any dep_true dep_false dep_and dep_or dep_not dep_imp : core.
  Local Lemma any_swap' f : any f -> any (swapPrePost c f).
  Proof. now apply dep_swapPrePost. Qed.
  Hint Resolve any_swap' : core.

  Definition coxB (T : BF) : BF :=
    bexists cubeB (bforall (varCubePostInput c) (bexists cubeA (bimp (safetyEnv c) T))).

  Lemma inI v : In v (varCubePostInput c) <-> exists k, v = 2 * k + 1 /\ (k <? nvars c) && negb (isOut c k) = true.
  Proof.
    rewrite (in_PostInput c Hk). split; intros (k & E).
    - exists k. destruct E as (-> & L & O). split; auto. rewrite O. apply Nat.ltb_lt in L. now rewrite L.
    - exists k. destruct E as (-> & E). apply andb_true_iff in E. destruct E as [L O]. apply Nat.ltb_lt in L. apply negb_true_iff in O. auto.
  Qed.

  (** Meaning of the enforceable predecessor. *)
  Lemma coxB_spec T s : any T ->
    (pos (coxB T) s = true <->
     exists b, forall x, exists y, agreeB B y b /\
       (trans (safetyEnv c) s (mrg c x y) = true -> trans T s (mrg c x y) = true)).
  Proof.
    intros D. unfold coxB, pos. fold (trans (bexists cubeB (bforall (varCubePostInput c) (bexists cubeA (bimp (safetyEnv c) T)))) s s).
    assert (DI : any (bimp (safetyEnv c) T)) by (apply dep_imp; auto; apply (dep_Se c HSe)).
    rewrite (ex_cube cubeB B) by auto. split.
    - intros (t1 & H1 & H2). exists t1. intros x. rewrite (fa_cube _ _ _ _ _ inI) in H2.
      set (t2 := fun k => if (k <? nvars c) && negb (isOut c k) then x k else t1 k).
      specialize (H2 t2). rewrite (ex_cube cubeA _ _ _ _ HcA) in H2. destruct H2 as (t3 & H3 & H4).
      + intros k E. unfold t2. now rewrite E.
      + exists t3. split.
        * intros k E. rewrite H3; [|rewrite E; apply andb_false_r]. unfold t2. now rewrite (HB k E), andb_false_r.
        * assert (E : forall f, any f -> trans f s (mrg c x t3) = trans f s t3).
          { intros f Df. apply (trans_ext c Hk); auto. intros k L. unfold mrg. destruct (isOut c k) eqn:O; auto.
            rewrite H3 by now rewrite O. unfold t2. rewrite O. apply Nat.ltb_lt in L. now rewrite L. }
          rewrite !E by (auto; apply (dep_Se c HSe)). rewrite trans_imp in H4. intros E'. now rewrite E' in H4.
    - intros (b & Hb). exists (fun k => if B k then b k else s k). split; [intros k E; now rewrite E|].
      apply (fa_cube _ _ _ _ _ inI). intros t2 H2. apply (ex_cube cubeA _ _ _ _ HcA).
      destruct (Hb t2) as (y & Hy1 & Hy2). exists (fun k => if isOut c k && negb (B k) then y k else t2 k).
      split; [intros k E; now rewrite E|].
      assert (E : forall f, any f -> trans f s (fun k => if isOut c k && negb (B k) then y k else t2 k) = trans f s (mrg c t2 y)).
      { intros f Df. apply (trans_ext c Hk); auto. intros k L. unfold mrg. destruct (isOut c k) eqn:O; auto.
        destruct (B k) eqn:E; auto. cbn. rewrite H2 by now rewrite O, andb_false_r. rewrite E. symmetry. now apply Hy1. }
      rewrite trans_imp, !E by (auto; apply (dep_Se c HSe)). destruct (trans (safetyEnv c) s (mrg c t2 y)); cbn; auto.
  Qed.

  Lemma pre_coxB T : any T -> pre (coxB T).
  Proof.
    intros D. unfold coxB. eapply dep_exists with (P := fun v => isAnyV c v /\ ~ In v cubeA /\ ~ In v (varCubePostInput c)).
    - eapply dep_forall with (P := fun v => isAnyV c v /\ ~ In v cubeA); [|tauto].
      eapply dep_exists with (P := isAnyV c); [|auto]. apply dep_imp; auto. apply (dep_Se c HSe).
    - intros v (H1 & H2 & H3) H4. split; [exact H1|]. destruct (even_cases v) as [[k ->]|[k ->]]; [apply even_double|exfalso].
      unfold isAnyV in H1. rewrite (nvars_spec c Hk) in H1.
      destruct (isOut c k) eqn:O.
      + destruct (B k) eqn:E; [apply H4, HcB; eauto|apply H2, HcA; exists k; now rewrite O, E].
      + apply H3, inI. exists k. rewrite O. split; auto. apply andb_true_iff. split; auto. apply Nat.ltb_lt. lia.
  Qed.

  Lemma coxB_mono T T' : any T -> any T' -> tsub T T' -> sub (coxB T) (coxB T').
  Proof.
    intros D D' H s. rewrite !coxB_spec by auto. intros (b & Hb). exists b. intros x.
    destruct (Hb x) as (y & Hy & Hy'). exists y. auto.
  Qed.

  (** Solvers. *)
  Definition agreeV (b y : state) : bool := forallb (fun k => implb (B k) (Bool.eqb (y k) (b k))) (seq 0 (nvars c)).
  Definition answerOf (T : tset) (s b x : state) : option (list bool) :=
    find (fun l => agreeV b (ofVec l) && implb (trans (safetyEnv c) s (mrg c x (ofVec l))) (T s (mrg c x (ofVec l)))) (vectors (nvars c)).
  Definition spoilOf (T : tset) (s b : state) : option (list bool) :=
    find (fun l => match answerOf T s b (ofVec l) with None => true | Some _ => false end) (vectors (nvars c)).

  Lemma B_lt k : B k = true -> k < nvars c.
  Proof.
    intros E. apply HB in E. destruct (Nat.lt_ge_cases k (nvars c)) as [L|L]; auto. rewrite (isOut_big c Hk) in E by auto. discriminate.
  Qed.
  Lemma agreeV_spec b y : agreeV b y = true <-> agreeB B y b.
  Proof.
    unfold agreeV. rewrite forallb_forall. split.
    - intros H k E. specialize (H k). rewrite E in H. cbn in H. apply eqb_prop. apply H. apply in_seq. pose proof (B_lt k E). lia.
    - intros H k _. destruct (B k) eqn:E; auto. cbn. rewrite (H k E). apply eqb_reflx.
  Qed.

  Definition good1 (T : BF) (s b x y : state) : Prop :=
    agreeB B y b /\ (trans (safetyEnv c) s (mrg c x y) = true -> trans T s (mrg c x y) = true).

  Lemma good1_ext T s b b' x x' y y' : any T -> (forall k, k < nvars c -> b k = b' k) -> (forall k, k < nvars c -> x k = x' k) ->
    (forall k, k < nvars c -> y k = y' k) -> good1 T s b x y -> good1 T s b' x' y'.
  Proof.
    intros D E1 E2 E3 [H1 H2]. split.
    - intros k E. pose proof (B_lt k E). rewrite <- E1, <- E3 by auto. now apply H1.
    - assert (E : forall f, any f -> trans f s (mrg c x' y') = trans f s (mrg c x y)).
      { intros f Df. apply (trans_ext c Hk); auto. intros k L. unfold mrg. rewrite E2, E3 by auto. reflexivity. }
      rewrite !E by (auto; apply (dep_Se c HSe)). exact H2.
  Qed.

  Lemma answerOf_spec T s b x : any T ->
    match answerOf (trans T) s b x with
    | Some l => good1 T s b x (ofVec l)
    | None => forall y, ~ good1 T s b x y
    end.
  Proof.
    intros D. unfold answerOf. destruct (find _ _) as [l|] eqn:F.
    - apply find_some in F. destruct F as [_ F]. apply andb_true_iff in F. destruct F as [F1 F2]. apply agreeV_spec in F1.
      split; auto. intros E. now rewrite E in F2.
    - intros y Hy. pose proof (find_none _ _ F _ (toVec_in (nvars c) y)) as N. cbv beta in N.
      apply (good1_ext T s b b x x y (ofVec (toVec (nvars c) y))) in Hy; auto.
      + destruct Hy as [H1 H2]. apply agreeV_spec in H1. rewrite H1 in N. cbn in N.
        destruct (trans (safetyEnv c) s (mrg c x (ofVec (toVec (nvars c) y)))); [rewrite H2 in N by auto|]; discriminate.
      + intros k L. symmetry. now apply ofVec_toVec.
  Qed.

  Lemma spoilOf_spec T s b : any T ->
    match spoilOf (trans T) s b with
    | Some l => forall y, ~ good1 T s b (ofVec l) y
    | None => forall x, exists y, good1 T s b x y
    end.
  Proof.
    intros D. unfold spoilOf. destruct (find _ _) as [l|] eqn:F.
    - apply find_some in F. destruct F as [_ F]. pose proof (answerOf_spec T s b (ofVec l) D) as A. now destruct (answerOf _ s b _).
    - intros x. pose proof (find_none _ _ F _ (toVec_in (nvars c) x)) as N. cbv beta in N.
      pose proof (answerOf_spec T s b (ofVec (toVec (nvars c) x)) D) as A. destruct (answerOf _ s b _) as [l|]; [|discriminate].
      exists (ofVec l). eapply good1_ext; [auto| | | |exact A]; auto. intros k L. now apply ofVec_toVec.
  Qed.

  Definition solB' (T : tset) (s : state) : option state :=
    match find (fun l => match spoilOf T s (ofVec l) with None => true | Some _ => false end) (vectors (nvars c)) with
    | Some l => Some (ofVec l)
    | None => None
    end.
  Definition solY' (T : tset) (s b x : state) : state :=
    match answerOf T s b x with Some l => ofVec l | None => x end.

  Lemma answers_good T s b : answers (game_of c) B (trans T) s b <-> forall x, exists y, good1 T s b x y.
  Proof.
    unfold answers. split; intros H x.
    - destruct (g_safeE (game_of c) s (merge (game_of c) x x)) eqn:E.
      + destruct (H x E) as (y & H1 & H2). exists y. split; auto.
      + exists b. split; [now intros k _|]. intros E'. change (trans (safetyEnv c) s (mrg c x x) = false) in E.
        assert (trans (safetyEnv c) s (mrg c x x) = true); [|congruence]. rewrite <- E'. apply (safeE_in c HSe).
    - intros E. destruct (H x) as (y & H1 & H2). exists y. split; auto. apply H2. cbn in E. rewrite <- E. apply (safeE_in c HSe).
  Qed.

  Lemma solB_spec T s : any T ->
    match solB' (trans T) s with
    | Some b => answers (game_of c) B (trans T) s b
    | None => forall b, ~ answers (game_of c) B (trans T) s b
    end.
  Proof.
    intros D. unfold solB'. destruct (find _ _) as [l|] eqn:F.
    - apply find_some in F. destruct F as [_ F]. apply answers_good. pose proof (spoilOf_spec T s (ofVec l) D) as A. now destruct (spoilOf _ s _).
    - intros b Hb. rewrite answers_good in Hb. pose proof (find_none _ _ F _ (toVec_in (nvars c) b)) as N. cbv beta in N.
      pose proof (spoilOf_spec T s (ofVec (toVec (nvars c) b)) D) as A. destruct (spoilOf _ s _) as [l|]; [|discriminate].
      destruct (Hb (ofVec l)) as (y & Hy). apply (A y). eapply good1_ext; [auto| | | |exact Hy]; auto.
      intros k L. symmetry. now apply ofVec_toVec.
  Qed.

  Lemma solY_spec T s b x : any T -> answers (game_of c) B (trans T) s b ->
    g_safeE (game_of c) s (merge (game_of c) x x) = true ->
    agreeB B (solY' (trans T) s b x) b /\ trans T s (merge (game_of c) x (solY' (trans T) s b x)) = true.
  Proof.
    intros D Hb Hx. rewrite answers_good in Hb. destruct (Hb x) as (y & Hy). unfold solY'.
    pose proof (answerOf_spec T s b x D) as A. destruct (answerOf _ s b x) as [l|]; [|elim (A y); auto].
    destruct A as [A1 A2]. split; auto. apply A2. cbn in Hx. rewrite <- Hx. apply (safeE_in c HSe).
  Qed.

  (** The spoiling input. *)
  Definition envPickB (T : BF) (s b : state) : state :=
    match spoilOf (trans T) s b with Some l => ofVec l | None => s end.
  Lemma envPickB_spec T s : any T -> pos (coxB T) s = false ->
    forall b y, (forall k, B k = true -> y k = b k) ->
      trans (safetyEnv c) s (mrg c (envPickB T s b) y) = true /\
      trans T s (mrg c (envPickB T s b) y) = false.
  Proof.
    intros D H b y Hy. unfold envPickB. pose proof (spoilOf_spec T s b D) as A. destruct (spoilOf _ s b) as [l|].
    - specialize (A y). destruct (trans (safetyEnv c) s (mrg c (ofVec l) y)) eqn:E1, (trans T s (mrg c (ofVec l) y)) eqn:E2; auto;
        elim A; split; auto; congruence.
    - assert (X : pos (coxB T) s = true); [|congruence]. apply coxB_spec; auto. exists b. exact A.
  Qed.

  (** ** Inner greatest fixed point *)
  Definition stepX (live a x : BF) : BF := coxB (pathsX c live a x).

  Lemma pre_stepX live a x : any live -> any a -> pre x -> pre (stepX live a x).
  Proof. intros. apply pre_coxB; auto. apply dep_pathsX; auto. Qed.

  Lemma stepX_mono live live' a x x' : any live -> any live' -> any a -> pre x -> pre x' ->
    tsub live live' -> sub x x' -> sub (stepX live a x) (stepX live' a x').
  Proof.
    intros. apply coxB_mono; auto; try (apply dep_pathsX; auto). now apply pathsX_mono.
  Qed.

  Definition iterX (live a : BF) (m : nat) : BF := Nat.iter m (stepX live a) btrue.

  Lemma pre_iterX live a m : any live -> any a -> pre (iterX live a m).
  Proof. intros. induction m; cbn; auto. now apply pre_stepX. Qed.

  Lemma iterX_dec live a m : any live -> any a -> sub (iterX live a (S m)) (iterX live a m).
  Proof.
    intros Hl Ha. induction m as [|m IH]; [apply sub_true|].
    apply (stepX_mono live live a (iterX live a (S m)) (iterX live a m)); auto using pre_iterX, tsub_refl.
  Qed.

  Definition nuX (live a : BF) : BF := iterX live a (S (2 ^ nvars c)).
  Arguments nuX : simpl never.

  Lemma nuX_fix live a : any live -> any a -> stepX live a (nuX live a) = nuX live a.
  Proof.
    intros Hl Ha. apply (iter_stable c Hk (stepX live a) btrue (dep_true _)
                  (fun v => pre_stepX live a v Hl Ha) (fun m => iterX_dec live a m Hl Ha)).
  Qed.

  Lemma pre_nuX live a : any live -> any a -> pre (nuX live a).
  Proof.
    intros Hl Ha. now apply pre_iterX.
  Qed.
  Hint Resolve pre_nuX : core.

  Lemma nuX_greatest live a v : any live -> any a -> pre v ->
    sub v (stepX live a v) -> sub v (nuX live a).
  Proof.
    intros Hl Ha Hv H. unfold nuX. generalize (S (2 ^ nvars c)) as K.
    induction K as [|K IH]; [apply sub_true|].
    eapply sub_trans; [exact H|]. apply stepX_mono; auto; [now apply pre_iterX|apply tsub_refl].
  Qed.

  Lemma nuX_mono live live' a : any live -> any live' -> any a -> tsub live live' ->
    sub (nuX live a) (nuX live' a).
  Proof.
    intros Hl Hl' Ha H. apply nuX_greatest; auto.
    rewrite <- (nuX_fix live a Hl Ha) at 1. apply stepX_mono; auto. apply sub_refl.
  Qed.

  (** ** Middle least fixed point *)
  Definition liveOf (z g y : BF) : BF := bor (band g (swapPrePost c z)) (swapPrePost c y).

  Lemma any_liveOf z g y : any z -> any g -> any y -> any (liveOf z g y).
  Proof. intros. unfold liveOf. auto. Qed.
  Hint Resolve any_liveOf : core.

  Lemma liveOf_spec z g y s t : pre z -> pre y ->
    trans (liveOf z g y) s t = true <->
    (trans g s t = true /\ pos z t = true) \/ pos y t = true.
  Proof.
    intros Hz Hy. unfold liveOf. autorewrite with sem. rewrite !trans_swap_pos by auto.
    rewrite orb_true_iff, andb_true_iff. tauto.
  Qed.

  Lemma liveOf_mono z z' g y y' : pre z -> pre z' -> pre y -> pre y' -> sub z z' -> sub y y' ->
    tsub (liveOf z g y) (liveOf z' g y').
  Proof.
    intros ? ? ? ? Hz Hy s t. rewrite !liveOf_spec by auto. intros [[Hl1 Hl2]|Hl]; auto.
  Qed.

  Definition orNuX (live : BF) (asms : list BF) (good : BF) : BF :=
    fold_left (fun acc a => bor acc (nuX live a)) asms good.

  Lemma orNuX_spec live asms : forall good s,
    pos (orNuX live asms good) s = true <->
    pos good s = true \/ exists a, In a asms /\ pos (nuX live a) s = true.
  Proof.
    induction asms as [|a asms IH]; intros good s; cbn.
    - split; [auto|]. now intros [H|(a & [] & _)].
    - unfold orNuX in IH |- *. cbn [fold_left]. rewrite IH, pos_or, orb_true_iff. split.
      + intros [[H|H]|(b & Hb & H)]; eauto.
      + intros [H|(b & [<-|Hb] & H)]; eauto.
  Qed.

  Lemma pre_orNuX live asms : forall good, any live -> Forall any asms -> pre good ->
    pre (orNuX live asms good).
  Proof.
    induction asms as [|a asms IH]; intros good Hl Ha Hg; cbn; auto.
    inversion Ha; subst. apply IH; auto.
  Qed.

  Definition stepY (z g y : BF) : BF := orNuX (liveOf z g y) (livenessAssumptions c) y.

  Let HA := wf_asm c Hwf.
  Let HG := wf_gua c Hwf.

  Lemma any_asm a : In a (livenessAssumptions c) -> any a.
  Proof. intros H. rewrite Forall_forall in HA. auto. Qed.
  Lemma any_gua g : In g (livenessGuarantees c) -> any g.
  Proof. intros H. rewrite Forall_forall in HG. auto. Qed.

  Lemma pre_stepY z g y : pre z -> any g -> pre y -> pre (stepY z g y).
  Proof. intros. apply pre_orNuX; auto. Qed.
  Hint Resolve pre_stepY : core.

  Lemma stepY_spec z g y s :
    pos (stepY z g y) s = true <->
    pos y s = true \/ exists a, In a (livenessAssumptions c) /\ pos (nuX (liveOf z g y) a) s = true.
  Proof. apply orNuX_spec. Qed.

  Lemma stepY_inc z g y : sub y (stepY z g y).
  Proof. intros s H. apply stepY_spec. auto. Qed.

  Lemma stepY_mono z z' g y y' : pre z -> pre z' -> any g -> pre y -> pre y' -> sub z z' -> sub y y' ->
    sub (stepY z g y) (stepY z' g y').
  Proof.
    intros Hz Hz' Hg Hy Hy' H1 H2 s. rewrite !stepY_spec. intros [H|(a & Ha & H)]; auto.
    right. exists a. split; auto. revert H. apply nuX_mono; auto using any_asm.
    apply liveOf_mono; auto.
  Qed.

  Definition iterY (z g : BF) (m : nat) : BF := Nat.iter m (stepY z g) bfalse.
  Lemma pre_iterY z g m : pre z -> any g -> pre (iterY z g m).
  Proof. intros. induction m; cbn; auto. Qed.
  Hint Resolve pre_iterY : core.

  Definition isMuY (z g y : BF) : Prop := stepY z g y = y /\ exists m, y = iterY z g m.

  Lemma iterY_least z g y m : pre z -> any g -> pre y -> sub (stepY z g y) y -> sub (iterY z g m) y.
  Proof.
    intros Hz Hg Hy H. induction m as [|m IH]; [apply sub_false|].
    eapply sub_trans; [|exact H].
    apply (stepY_mono z z g (iterY z g m) y); auto using sub_refl.
  Qed.

  Lemma isMuY_pre z g y : pre z -> any g -> isMuY z g y -> pre y.
  Proof. intros Hz Hg (_ & m & ->). auto. Qed.

  Lemma isMuY_least z g y v : pre z -> any g -> isMuY z g y -> pre v -> sub (stepY z g v) v -> sub y v.
  Proof. intros Hz Hg (_ & m & ->) Hv H. apply iterY_least; auto. Qed.

  Lemma isMuY_unique z g y y' : pre z -> any g -> isMuY z g y -> isMuY z g y' -> y = y'.
  Proof.
    intros Hz Hg H H'. pose proof (isMuY_pre _ _ _ Hz Hg H). pose proof (isMuY_pre _ _ _ Hz Hg H').
    apply (sub_antisym c); auto.
    - apply (isMuY_least z g y y'); auto. rewrite (proj1 H'). apply sub_refl.
    - apply (isMuY_least z g y' y); auto. rewrite (proj1 H). apply sub_refl.
  Qed.

  (** *** The recorded transition sets *)

  Definition covBF (L : list (BF * BF)) (s : state) : Prop :=
    cov (game_of c) B (map (fun e => trans (fst e)) L) s.

  (** The sets recorded for the goal [g] (with [z] the outer value) are well
      ranked and cover [y]. *)
  Definition goodEnt (z g : BF) (L : list (BF * BF)) (y : BF) : Prop :=
    (forall p F A q, L = p ++ (F, A) :: q -> forall s t, trans F s t = true ->
       trans (safetySys c) s t = true /\
       ((trans g s t = true /\ pos z t = true) \/
        (covBF p t /\ pos y t = true) \/
        (trans A s t = false /\ covBF (p ++ [(F, A)]) t /\ pos y t = true))) /\
    (forall s, pos y s = true -> covBF L s) /\
    (forall F A, In (F, A) L -> In A (livenessAssumptions c) /\ any F).

  Lemma covBF_incl L L' s : incl L L' -> covBF L s -> covBF L' s.
  Proof. intros H. apply cov_incl. now apply incl_map. Qed.

  Lemma cox_cov L F A T s : any T -> pos (coxB T) s = true -> tsub T F -> In (F, A) L -> covBF L s.
  Proof.
    intros HT H HTF Hin. rewrite coxB_spec in H by auto. destruct H as (b & Hb).
    exists (trans F), b. split.
    - apply in_map_iff. exists (F, A). auto.
    - intros x Hx. destruct (Hb x) as (y & H1 & H2). exists y. split; auto.
      apply HTF. apply H2. rewrite <- Hx. apply (safeE_in c HSe).
  Qed.

  Lemma goodEnt_weaken z g L y y' : sub y y' -> goodEnt z g L y ->
    (forall s, pos y' s = true -> covBF L s) -> goodEnt z g L y'.
  Proof.
    intros Hs (H1 & H2 & H3) H4. repeat split; auto.
    - destruct (H1 p F A q H s t H0) as [E _]. exact E.
    - destruct (H1 p F A q H s t H0) as [_ [E|[[E1 E2]|(E1 & E2 & E3)]]]; auto 6.
    - apply (H3 F A). auto.
    - apply (H3 F A). auto.
  Qed.

  (** Adding one set. *)
  Lemma goodEnt_add z g L y F A x : goodEnt z g L y -> any F -> In A (livenessAssumptions c) ->
    (forall s, pos x s = true -> pos (coxB F) s = true) ->
    (forall s t, trans F s t = true -> trans (safetySys c) s t = true /\
        ((trans g s t = true /\ pos z t = true) \/ pos y t = true \/
         (pos x t = true /\ trans A s t = false))) ->
    goodEnt z g (L ++ [(F, A)]) (bor y x).
  Proof.
    intros (H1 & H2 & H3) HF HAi Hx HT.
    assert (C : forall s, pos (bor y x) s = true -> covBF (L ++ [(F, A)]) s).
    { intros s. rewrite pos_or, orb_true_iff. intros [H|H].
      - eapply covBF_incl; [|apply H2; exact H]. apply incl_appl, incl_refl.
      - eapply (cox_cov _ F A F); auto; [apply tsub_refl|]. apply in_or_app. right. now left. }
    split; [|split]; auto.
    - intros p F' A' q E s t Ht.
      destruct (list_eq_dec (fun a b => match bf_eq_dec (fst a) (fst b), bf_eq_dec (snd a) (snd b) with
                   | left e1, left e2 => left (ltac:(destruct a, b; cbn in *; congruence) : a = b)
                   | right n, _ => right (fun e => n (f_equal fst e))
                   | _, right n => right (fun e => n (f_equal snd e)) end) q []) as [->|Hq].
      + apply app_inj_tail in E. destruct E as [<- E]. injection E as <- <-.
        destruct (HT s t Ht) as [E1 [E2|[E2|[E2 E3]]]]; split; auto.
        * right. left. split; auto. rewrite pos_or, E2. reflexivity.
        * right. right. rewrite pos_or, E2, orb_true_r. repeat split; auto.
          apply C. rewrite pos_or, E2. apply orb_true_r.
      + destruct (exists_last Hq) as (q' & e & ->).
        rewrite app_comm_cons, app_assoc in E. apply app_inj_tail in E. destruct E as [E _].
        destruct (H1 p F' A' q' E s t Ht) as [E1 [E2|[[E2 E3]|(E2 & E3 & E4)]]]; split; auto.
        * right. left. split; auto. rewrite pos_or, E3. reflexivity.
        * right. right. repeat split; auto. rewrite pos_or, E4. reflexivity.
    - intros F' A' Hin. apply in_app_iff in Hin. destruct Hin as [Hin|[E|[]]].
      + apply (H3 F' A' Hin).
      + injection E as <- <-. auto.
  Qed.

  Lemma ent_asms z g mu1 asms : pre z -> any g -> pre mu1 -> incl asms (livenessAssumptions c) ->
    forall good L, sub mu1 good -> goodEnt z g L good ->
    exists L', goodEnt z g (L ++ L') (orNuX (liveOf z g mu1) asms good).
  Proof.
    intros Hz Hg Hm. induction asms as [|a asms IH]; intros Hi good L Hs HL.
    - exists []. rewrite app_nil_r. exact HL.
    - assert (Ha : In a (livenessAssumptions c)) by (apply Hi; now left).
      pose proof (any_asm a Ha) as Aa.
      assert (Al : any (liveOf z g mu1)) by auto.
      pose proof (nuX_fix (liveOf z g mu1) a Al Aa) as Efix.
      set (x := nuX (liveOf z g mu1) a) in *.
      assert (Px : pre x) by (apply pre_nuX; auto).
      set (F := pathsX c (liveOf z g mu1) a x).
      destruct (IH ltac:(intros b Hb; apply Hi; now right) (bor good x) (L ++ [(F, a)])) as (L' & HL').
      + eapply sub_trans; [exact Hs|apply sub_or_l].
      + apply goodEnt_add; auto.
        * apply dep_pathsX; auto.
        * intros s H. unfold F. fold (stepX (liveOf z g mu1) a x). now rewrite Efix.
        * intros s t. unfold F. rewrite pathsX_spec, liveOf_spec by auto.
          intros [[[H|H]|[H H']] Hsafe]; split; auto.
      + exists ((F, a) :: L'). unfold orNuX. cbn [fold_left]. rewrite <- app_assoc in HL'. exact HL'.
  Qed.

  Lemma iterY_good z g m : pre z -> any g -> exists L, goodEnt z g L (iterY z g m).
  Proof.
    intros Hz Hg. induction m as [|m (L & HL)].
    - exists []. split; [|split].
      + intros [|] ? ? ? E; discriminate.
      + intros s. now rewrite pos_false.
      + now intros F A [].
    - destruct (ent_asms z g (iterY z g m) (livenessAssumptions c) Hz Hg (pre_iterY z g m Hz Hg) (incl_refl _)
        (iterY z g m) L (sub_refl _) HL) as (L' & HL'). exists (L ++ L'). exact HL'.
  Qed.

  Lemma iterY_inc z g m : pre z -> any g -> sub (iterY z g m) (iterY z g (S m)).
  Proof. intros Hz Hg. apply stepY_inc. Qed.

  (** Increasing iterations are stable after 2^n+1 rounds. *)
  Lemma iter_stable_inc (F : BF -> BF) v0 :
    pre v0 -> (forall v, pre v -> pre (F v)) ->
    (forall m, sub (Nat.iter m F v0) (Nat.iter (S m) F v0)) ->
    F (Nat.iter (S (2 ^ nvars c)) F v0) = Nat.iter (S (2 ^ nvars c)) F v0.
  Proof.
    intros D0 DF Hd.
    assert (Dm : forall m, pre (Nat.iter m F v0)) by (induction m; cbn; auto).
    assert (G : forall m, F (Nat.iter m F v0) = Nat.iter m F v0 \/ m <= card c (Nat.iter m F v0)).
    { induction m as [|m IH].
      - right. lia.
      - cbn [Nat.iter nat_rect]. destruct IH as [IH|IH].
        + left. unfold Nat.iter in IH. now rewrite !IH.
        + destruct (bf_eq_dec (F (Nat.iter m F v0)) (Nat.iter m F v0)) as [E|N].
          * left. unfold Nat.iter in E. now rewrite !E.
          * right. assert (card c (Nat.iter m F v0) < card c (Nat.iter (S m) F v0)).
            { apply card_lt; [exact Hk|apply Dm|apply (Dm (S m))|exact (Hd m)|intros E; apply N; symmetry; exact E]. }
            change (Nat.iter (S m) F v0) with (F (Nat.iter m F v0)) in *. unfold Nat.iter in *. cbn [nat_rect]. lia. }
    destruct (G (S (2 ^ nvars c))) as [H|H]; auto. pose proof (card_bound c (Nat.iter (S (2 ^ nvars c)) F v0)). lia.
  Qed.

  (** The middle fixed point as a function. *)
  Definition muY (z g : BF) : BF := iterY z g (S (2 ^ nvars c)).
  Arguments muY : simpl never.

  Lemma muY_spec z g : pre z -> any g -> isMuY z g (muY z g).
  Proof.
    intros Hz Hg. split; [|now exists (S (2 ^ nvars c))].
    apply (iter_stable_inc (stepY z g) bfalse); auto. intros m. now apply iterY_inc.
  Qed.
  Lemma pre_muY z g : pre z -> any g -> pre (muY z g).
  Proof. intros. eapply isMuY_pre; eauto. now apply muY_spec. Qed.
  Hint Resolve pre_muY : core.
  Lemma muY_fix z g : pre z -> any g -> stepY z g (muY z g) = muY z g.
  Proof. intros. now apply muY_spec. Qed.
  Lemma muY_least z g v : pre z -> any g -> pre v -> sub (stepY z g v) v -> sub (muY z g) v.
  Proof. intros Hz Hg Hv H. apply (isMuY_least z g); auto. now apply muY_spec. Qed.
  Lemma muY_mono z z' g : pre z -> pre z' -> any g -> sub z z' -> sub (muY z g) (muY z' g).
  Proof.
    intros Hz Hz' Hg H. apply muY_least; auto.
    rewrite <- (muY_fix z' g) at 2 by auto. apply stepY_mono; auto using sub_refl.
  Qed.

  (** ** Outer greatest fixed point *)
  Definition stepZ (z : BF) : BF :=
    fold_left (fun acc g => band acc (muY z g)) (livenessGuarantees c) btrue.

  Lemma fold_band_spec z gs : forall acc s,
    pos (fold_left (fun acc g => band acc (muY z g)) gs acc) s = true <->
    pos acc s = true /\ forall g, In g gs -> pos (muY z g) s = true.
  Proof.
    induction gs as [|g gs IH]; intros acc s; cbn [fold_left].
    - split; [intros H; split; auto; now intros g []|tauto].
    - rewrite IH, pos_and, andb_true_iff. split.
      + intros [[H1 H2] H3]. split; auto. intros g' [<-|H]; auto.
      + intros [H1 H2]. repeat split; auto; intros; apply H2; [now left|now right].
  Qed.

  Lemma pre_fold_band z gs : pre z -> Forall any gs -> forall acc, pre acc ->
    pre (fold_left (fun acc g => band acc (muY z g)) gs acc).
  Proof.
    intros Hz Hg. induction Hg as [|g gs Hg Hgs IH]; intros acc Ha; cbn [fold_left]; auto.
  Qed.

  Lemma pre_stepZ z : pre z -> pre (stepZ z).
  Proof. intros. apply pre_fold_band; auto. Qed.
  Hint Resolve pre_stepZ : core.

  Lemma stepZ_spec z s : pos (stepZ z) s = true <->
    forall g, In g (livenessGuarantees c) -> pos (muY z g) s = true.
  Proof. unfold stepZ. rewrite fold_band_spec. rewrite pos_true. tauto. Qed.

  Lemma stepZ_mono z z' : pre z -> pre z' -> sub z z' -> sub (stepZ z) (stepZ z').
  Proof.
    intros Hz Hz' H s. rewrite !stepZ_spec. intros Hs g Hg. specialize (Hs g Hg). revert Hs.
    apply muY_mono; auto. now apply any_gua.
  Qed.

  Definition iterZ (m : nat) : BF := Nat.iter m stepZ btrue.
  Lemma pre_iterZ m : pre (iterZ m).
  Proof. induction m; cbn; auto. Qed.
  Hint Resolve pre_iterZ : core.
  Lemma iterZ_dec m : sub (iterZ (S m)) (iterZ m).
  Proof. induction m as [|m IH]; [apply sub_true|]. apply stepZ_mono; auto. Qed.

  Definition nuZ : BF := iterZ (S (2 ^ nvars c)).
  Arguments nuZ : simpl never.
  Lemma pre_nuZ : pre nuZ.
  Proof. apply pre_iterZ. Qed.
  Hint Resolve pre_nuZ : core.
  Lemma nuZ_fix : stepZ nuZ = nuZ.
  Proof. apply (iter_stable c Hk stepZ btrue); auto. intros m. apply iterZ_dec. Qed.

  (** At the outer fixed point all middle fixed points coincide with it. *)
  Lemma muY_eq g : In g (livenessGuarantees c) -> muY nuZ g = nuZ.
  Proof.
    intros Hg. pose proof nuZ_fix as Hfix. set (w := nuZ) in *. assert (Hw : pre w) by apply pre_nuZ.
    assert (Sub : forall g', In g' (livenessGuarantees c) -> sub w (muY w g')).
    { intros g' Hg' s Hs. rewrite <- Hfix in Hs. rewrite stepZ_spec in Hs. auto. }
    assert (Le : forall g', In g' (livenessGuarantees c) -> sub (muY w g) (muY w g')).
    { intros g' Hg'. pose proof (any_gua _ Hg). pose proof (any_gua _ Hg').
      apply muY_least; auto. intros s. rewrite stepY_spec. intros [H'|(a & Ha & H')]; auto.
      rewrite <- muY_fix by auto. apply stepY_spec. right. exists a. split; auto.
      revert H'. apply nuX_mono; auto using any_asm.
      intros s' t'. rewrite !liveOf_spec by auto. intros [[_ H']|H']; auto. right.
      now apply (Sub g' Hg'). }
    apply (sub_antisym c); auto.
    - apply pre_muY; auto. now apply any_gua.
    - intros s Hs. rewrite <- Hfix. apply stepZ_spec. intros g' Hg'. now apply Le.
  Qed.

  (** ** Soundness *)

  Lemma goodEnt_ranked g L w : goodEnt w g L w ->
    InterleaveGame.ranked (game_of c) B (fun s => pos w s = true) (trans g) (lift L).
  Proof.
    intros (H1 & H2 & H3). split; [|split].
    - intros p F A q E s t Ht. destruct (lift_split L p F A q E) as (p' & F' & A' & q' & EL & <- & <- & <- & <-).
      destruct (H1 p' F' A' q' EL s t Ht) as [E1 [[E2 E3]|[[E2 E3]|(E2 & E3 & E4)]]]; split; auto; split; auto.
      + right. left. rewrite map_fst_lift. exact E2.
      + right. right. split; auto.
        assert (EQ : lift (p' ++ [(F', A')]) = lift p' ++ [(trans F', trans A')])
          by (unfold lift; now rewrite map_app).
        unfold covBF in E3. rewrite <- map_fst_lift, EQ in E3. exact E3.
    - intros s Hs. rewrite map_fst_lift. now apply H2.
    - intros F A Hin. unfold lift in Hin. apply in_map_iff in Hin. destruct Hin as ([F' A'] & E & Hin).
      injection E as <- <-. destruct (H3 F' A' Hin) as [E1 E2]. split.
      + cbn. now apply in_map.
      + apply trans_extensional.
  Qed.

  Lemma ents : exists L : nat -> list (BF * BF), forall j, j < length (livenessGuarantees c) ->
    goodEnt nuZ (nth j (livenessGuarantees c) btrue) (L j) nuZ.
  Proof.
    assert (G : forall n, n <= length (livenessGuarantees c) -> exists L : nat -> list (BF * BF), forall j, j < n ->
       goodEnt nuZ (nth j (livenessGuarantees c) btrue) (L j) nuZ).
    { induction n as [|n IH]; intros Hn.
      - exists (fun _ => []). lia.
      - destruct IH as (L & HL); [lia|].
        assert (Hin : In (nth n (livenessGuarantees c) btrue) (livenessGuarantees c)) by (apply nth_In; lia).
        destruct (iterY_good nuZ (nth n (livenessGuarantees c) btrue) (S (2 ^ nvars c)) pre_nuZ (any_gua _ Hin)) as (Ln & HE).
        fold (muY nuZ (nth n (livenessGuarantees c) btrue)) in HE. rewrite (muY_eq _ Hin) in HE.
        exists (fun j => if Nat.eqb j n then Ln else L j). intros j Hj.
        destruct (Nat.eqb_spec j n) as [->|]; auto. apply HL. lia. }
    apply G. auto.
  Qed.

  Lemma found : exists f : (state -> state) -> strategy, (forall start, before B (f start)) /\
    (forall start x, f start [] x = start x) /\
    forall start s, pos nuZ s = true -> forall x, safe_and_live (game_of c) (play_from (game_of c) (f start) s x).
  Proof.
    destruct ents as (L & HL). exists (stratB B (map trans (livenessGuarantees c)) (fun j => lift (L j)) solB' solY').
    assert (Any : forall j F A, j < length (map trans (livenessGuarantees c)) -> In (F, A) (lift (L j)) -> exists T, F = trans T /\ any T).
    { intros j F A Hj Hin. rewrite map_length in Hj. unfold lift in Hin. apply in_map_iff in Hin. destruct Hin as ([F' A'] & E & Hin).
      injection E as <- <-. exists F'. split; auto. destruct (HL j Hj) as (_ & _ & H3). now apply (H3 F' A'). }
    split; [intros; apply stratB_before|]. split; [reflexivity|]. intros start s Hs.
    apply (stratB_wins (game_of c) B (fun s => pos nuZ s = true)); auto.
    - intros E. apply map_eq_nil in E. now apply (wf_gua_ne c Hwf).
    - intros j Hj. rewrite map_length in Hj.
      assert (E : @nth tset j (map trans (livenessGuarantees c)) (fun _ _ => true) = trans (nth j (livenessGuarantees c) btrue)).
      { rewrite <- (map_nth trans). apply nth_indep. now rewrite map_length. }
      cbv beta. rewrite E. now apply goodEnt_ranked, HL.
    - intros. apply (safeE_in c HSe).
    - intros j F A Hj Hin s'. destruct (Any j F A Hj Hin) as (T & -> & HT). now apply solB_spec.
    - intros j F A Hj Hin s' b x Hb Hx. destruct (Any j F A Hj Hin) as (T & -> & HT). now apply solY_spec.
  Qed.

  (** ** Completeness *)

  Lemma lost K s : pos (iterZ K) s = false ->
    forall f, before B f -> exists x, ~ safe_and_live (game_of c) (play_from (game_of c) f s x).
  Proof.
    intros Hs f Hf.
    set (gj := fun j => nth j (livenessGuarantees c) btrue).
    set (ai := fun i => nth i (livenessAssumptions c) btrue).
    assert (Hgj : forall j, j < length (livenessGuarantees c) -> In (gj j) (livenessGuarantees c))
      by (intros; now apply nth_In).
    assert (Hai : forall j, j < length (livenessAssumptions c) -> In (ai j) (livenessAssumptions c))
      by (intros; now apply nth_In).
    set (lv := fun k j => liveOf (iterZ k) (gj j) (muY (iterZ k) (gj j))).
    assert (Alv : forall k j, j < length (livenessGuarantees c) -> any (lv k j)).
    { intros k j Hj. pose proof (any_gua _ (Hgj j Hj)). apply any_liveOf; auto. }
    eapply (InterleaveSpoil.spoil (game_of c) (length (livenessAssumptions c)) (length (livenessGuarantees c))
      (fun i => trans (ai i)) (fun j => trans (gj j)))
      with (Z := fun k s => pos (iterZ k) s)
           (Y := fun k j s => pos (muY (iterZ k) (gj j)) s)
           (X := fun k j i m s => pos (iterX (lv k j) (ai i) m) s)
           (M := fun _ _ _ => S (2 ^ nvars c))
           (B := B) (pick := fun k j i m s b => envPickB (pathsX c (lv k j) (ai i) (iterX (lv k j) (ai i) m)) s b)
           (K := K); auto.
    - intros p Hp. cbn in Hp. apply in_map_iff in Hp. destruct Hp as (a & <- & Ha).
      destruct (In_nth _ _ btrue Ha) as (i & Hi & <-). exists i. auto.
    - intros j Hj. exists (trans (gj j)). split; auto. cbn. apply in_map. auto.
    - pose proof (wf_asm_ne c Hwf) as N. apply Nat.neq_0_lt_0. intros E. now apply length_zero_iff_nil in E.
    - intros k s' H.
      destruct (existsb (fun j => negb (pos (muY (iterZ k) (gj j)) s')) (seq 0 (length (livenessGuarantees c)))) eqn:E.
      + apply existsb_exists in E. destruct E as (j & Hj & E). apply in_seq in Hj.
        apply negb_true_iff in E. exists j. split; auto. lia.
      + exfalso. assert (pos (iterZ (S k)) s' = true); [|congruence].
        change (pos (stepZ (iterZ k)) s' = true). apply stepZ_spec. intros g Hg.
        destruct (In_nth _ _ btrue Hg) as (j & Hj & <-).
        destruct (pos (muY (iterZ k) (nth j (livenessGuarantees c) btrue)) s') eqn:E'; auto.
        assert (existsb (fun j => negb (pos (muY (iterZ k) (gj j)) s')) (seq 0 (length (livenessGuarantees c))) = true);
          [|congruence].
        apply existsb_exists. exists j. split; [apply in_seq; lia|]. unfold gj. now rewrite E'.
    - intros k j i s' Hj Hi H. fold (nuX (lv k j) (ai i)).
      destruct (pos (nuX (lv k j) (ai i)) s') eqn:E; auto.
      assert (pos (muY (iterZ k) (gj j)) s' = true); [|congruence].
      rewrite <- muY_fix by auto using any_gua. apply stepY_spec. right. exists (ai i). split; auto.
    - intros k j i m s' Hj Hi H b y Hb t. subst t.
      assert (Px : pre (iterX (lv k j) (ai i) m)) by (apply pre_iterX; auto using any_asm).
      assert (AP : any (pathsX c (lv k j) (ai i) (iterX (lv k j) (ai i) m)))
        by (apply dep_pathsX; auto using any_asm).
      pose proof (envPickB_spec _ s' AP H b y Hb) as [E1 E2]. rewrite mrg_merge in E1, E2.
      split; [exact E1|]. intros Hsafe. cbn in Hsafe.
      set (t := merge (game_of c) _ y) in *.
      assert (Py : pre (muY (iterZ k) (gj j))) by (apply pre_muY; auto using any_gua).
      assert (NL : trans (lv k j) s' t = false).
      { destruct (trans (lv k j) s' t) eqn:E; auto.
        assert (trans (pathsX c (lv k j) (ai i) (iterX (lv k j) (ai i) m)) s' t = true); [|congruence].
        apply pathsX_spec; auto. }
      repeat split.
      + intros Hg. destruct (pos (iterZ k) t) eqn:E; auto.
        assert (trans (lv k j) s' t = true); [|congruence]. apply liveOf_spec; auto.
      + destruct (pos (muY (iterZ k) (gj j)) t) eqn:E; auto.
        assert (trans (lv k j) s' t = true); [|congruence]. apply liveOf_spec; auto.
      + destruct (trans (ai i) s' t) eqn:EA; auto. right.
        destruct (pos (iterX (lv k j) (ai i) m) t) eqn:E; auto.
        assert (trans (pathsX c (lv k j) (ai i) (iterX (lv k j) (ai i) m)) s' t = true); [|congruence].
        apply pathsX_spec; auto.
  Qed.
End CORE.
