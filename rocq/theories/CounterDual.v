(** * The counterstrategy computation is the dual of the synthesis algorithm *)

From Coq Require Import Arith List Bool Lia.
From Verif Require Import BDD Loop Spec VarTypes Synth Sem FixBase SynthProofs Verdict Solvers SolversProofs Explicit CounterSpec Counter.
Import ListNotations.

(** ** Complements *)
Lemma bnot_exists vs f : bnot (bexists vs f) = bforall vs (bnot f).
Proof.
  apply bf_ext. intros e. rewrite eval_not. destruct (eval (bforall vs (bnot f)) e) eqn:E.
  - apply negb_true_iff. destruct (eval (bexists vs f) e) eqn:E'; auto.
    apply eval_exists in E'. destruct E' as (e' & A & H).
    rewrite eval_forall in E. specialize (E e' A). rewrite eval_not, H in E. discriminate.
  - apply negb_false_iff. destruct (eval (bexists vs f) e) eqn:E'; auto.
    exfalso. assert (X : eval (bforall vs (bnot f)) e = true); [|congruence].
    apply eval_forall. intros e' A. rewrite eval_not. apply negb_true_iff.
    destruct (eval f e') eqn:H; auto. assert (eval (bexists vs f) e = true); [|congruence].
    apply eval_exists. eauto.
Qed.

Lemma bnot_not f : bnot (bnot f) = f.
Proof. apply bf_ext. intros e. now rewrite !eval_not, negb_involutive. Qed.

Lemma bnot_forall vs f : bnot (bforall vs f) = bexists vs (bnot f).
Proof. rewrite <- (bnot_not (bexists vs (bnot f))), bnot_exists, bnot_not. reflexivity. Qed.

Lemma swap_not c f : swapPrePost c (bnot f) = bnot (swapPrePost c f).
Proof. apply bf_ext. intros e. unfold swapPrePost. now rewrite eval_swap, !eval_not, eval_swap. Qed.

Lemma bf_eqb_not f g : bf_eqb (bnot f) (bnot g) = bf_eqb f g.
Proof.
  destruct (bf_eqb f g) eqn:E.
  - apply bf_eqb_eq in E. subst g. now apply bf_eqb_eq.
  - destruct (bf_eqb (bnot f) (bnot g)) eqn:E'; auto. apply bf_eqb_eq in E'.
    rewrite <- (bnot_not f), E', bnot_not in E. rewrite <- E. symmetry. now apply bf_eqb_eq.
Qed.

(** The positions from which the environment can enforce the transitions, as a
    complement. *)
Lemma pathsC_dual c live a x :
  bexists (varCubePostInput c) (pathsC c live a x) = bnot (stepX c (bnot live) a (bnot x)).
Proof.
  unfold stepX, cox, pathsC, pathsX. rewrite bnot_forall, bnot_exists. do 2 f_equal.
  apply bf_ext. intros e.
  rewrite swap_not. repeat rewrite ?eval_not, ?eval_and, ?eval_or, ?eval_imp.
  destruct (eval (safetyEnv c) e), (eval (safetySys c) e), (eval live e), (eval (swapPrePost c x) e), (eval a e); reflexivity.
Qed.

Lemma fpUpdate_dual {D D'} f g (d : D) (d' : D') :
  match fpUpdate f g d, fpUpdate (bnot f) (bnot g) d' with
  | Cont a, Cont b => fst b = bnot (fst a) /\ snd a = d /\ snd b = d'
  | Done a, Done b => fst b = bnot (fst a) /\ snd a = d /\ snd b = d'
  | _, _ => False
  end.
Proof. unfold fpUpdate. rewrite bf_eqb_not. destruct (bf_eqb f g); cbn; auto. Qed.

(** Both computations do the same number of rounds in every loop, and all values
    are complements of each other. *)
Lemma mu0_dual c i j live a data :
  match mu0LoopC c i j live a data, nu0Loop c (bnot live) a with
  | Some (x, _), Some (y, _) => y = bnot x
  | None, None => True
  | _, _ => False
  end.
Proof.
  unfold mu0LoopC, nu0Loop.
  pose proof (run_sim (mu0BodyC c i j live a) (nu0Body c (bnot live) a)
    (fun s1 s2 => fst s2 = bnot (fst s1)) (fun s1 s2 => fst s2 = bnot (fst s1))) as Sim.
  specialize (fun H => Sim H (fpFuel c) (bfalse, data) (btrue, btrue)).
  destruct (run (mu0BodyC _ _ _ _ _) _ _) as [[x d]|], (run (nu0Body _ _ _) _ _) as [[y p]|]; auto;
    apply Sim; try (apply bf_ext; intros e; now rewrite eval_not).
  all: intros [m d1] [n p1]; cbn [fst]; intros ->; unfold mu0BodyC, nu0Body; cbn [fst snd];
    rewrite (pathsC_dual c live a m); fold (stepX c (bnot live) a (bnot m));
    generalize (stepX c (bnot live) a (bnot m)); intros q;
    pose proof (fpUpdate_dual m (bnot q) (d1 ++ [(i, j, pathsC c live a m)])
      (pathsX c (bnot live) a (bnot m))) as F; rewrite bnot_not in F;
    destruct (fpUpdate m _ _), (fpUpdate (bnot m) _ _); try contradiction; tauto.
Qed.

Lemma asm_dual c j live asms : forall i good data data',
  match asmLoopC c j live i asms good data, asmLoop c j (bnot live) asms (bnot good) data' with
  | Some (x, _), Some (y, _) => y = bnot x
  | None, None => True
  | _, _ => False
  end.
Proof.
  induction asms as [|a asms IH]; intros i good data data'; cbn [asmLoopC asmLoop]; auto.
  pose proof (mu0_dual c i j live a data) as H.
  destruct (mu0LoopC _ _ _ _ _ _) as [[x d]|], (nu0Loop _ _ _) as [[y p]|]; try contradiction; auto.
  subst y. replace (bor (bnot good) (bnot x)) with (bnot (band good x)); [apply IH|].
  apply bf_ext. intros e. repeat rewrite ?eval_not, ?eval_and, ?eval_or. now destruct (eval good e).
Qed.

Lemma nu1_dual c j live data data' :
  match nu1LoopC c j live data, mu1Loop c j (bnot live) data' with
  | Some (x, (l, _)), Some (y, (l', _)) => y = bnot x /\ l' = bnot l
  | None, None => True
  | _, _ => False
  end.
Proof.
  unfold nu1LoopC, mu1Loop.
  pose proof (run_sim (nu1BodyC c j data) (mu1Body c j)
    (fun s1 s2 => fst s2 = bnot (fst s1) /\ fst (snd s2) = bnot (fst (snd s1)))
    (fun s1 s2 => fst s2 = bnot (fst s1) /\ fst (snd s2) = bnot (fst (snd s1)))) as Sim.
  specialize (fun H => Sim H (fpFuel c) (btrue, (live, data)) (bfalse, (bnot live, data'))).
  destruct (run (nu1BodyC _ _ _) _ _) as [[x [l d]]|], (run (mu1Body _ _) _ _) as [[y [l' d']]|]; auto;
    apply Sim; try (cbn [fst snd]; split; [|reflexivity]; apply bf_ext; intros e; now rewrite eval_not).
  all: intros [m [l1 d1]] [n [l2 d2]]; cbn [fst snd]; intros [-> ->]; unfold nu1BodyC, mu1Body;
    rewrite swap_not;
    replace (bor (bnot l1) (bnot (swapPrePost c m))) with (bnot (band l1 (swapPrePost c m)))
      by (apply bf_ext; intros e; repeat rewrite ?eval_not, ?eval_and, ?eval_or; now destruct (eval l1 e));
    pose proof (asm_dual c j (band l1 (swapPrePost c m)) (livenessAssumptions c) 0 m data d2) as HA;
    destruct (asmLoopC _ _ _ _ _ _ _) as [[g dd]|], (asmLoop _ _ _ _ _ _) as [[g' dd']|]; try contradiction; auto;
    subst g';
    pose proof (fpUpdate_dual m g (band l1 (swapPrePost c m), dd) (bnot (band l1 (swapPrePost c m)), dd')) as F;
    destruct (fpUpdate m _ _), (fpUpdate (bnot m) _ _); try contradiction;
    destruct F as (F1 & F2 & F3); rewrite F2, F3; cbn [fst]; auto.
Qed.

Lemma goal_dual c mu2 gs : forall j next data data',
  match goalLoopC c mu2 j gs next data, goalLoop c (bnot mu2) j gs (bnot next) data' with
  | Some (x, _), Some (y, _) => y = bnot x
  | None, None => True
  | _, _ => False
  end.
Proof.
  induction gs as [|g gs IH]; intros j next data data'; cbn [goalLoopC goalLoop]; auto.
  rewrite swap_not. replace (band g (bnot (swapPrePost c mu2))) with (bnot (bor (bnot g) (swapPrePost c mu2)))
    by (apply bf_ext; intros e; repeat rewrite ?eval_not, ?eval_and, ?eval_or; now destruct (eval g e)).
  pose proof (nu1_dual c j (bor (bnot g) (swapPrePost c mu2)) data data') as H.
  destruct (nu1LoopC _ _ _ _) as [[x [l d]]|], (mu1Loop _ _ _ _) as [[y [l' d']]|]; try contradiction; auto.
  destruct H as [-> _]. replace (band (bnot next) (bnot x)) with (bnot (bor next x)); [apply IH|].
  apply bf_ext. intros e. repeat rewrite ?eval_not, ?eval_and, ?eval_or. now destruct (eval next e).
Qed.

Lemma counter_dual c :
  match computeCounter c, computeWinningPositions c with
  | Some (x, _), Some (y, _) => y = bnot x
  | None, None => True
  | _, _ => False
  end.
Proof.
  unfold computeCounter, computeWinningPositions.
  pose proof (run_sim (mu2BodyC c) (nu2Body c)
    (fun s1 s2 => fst s2 = bnot (fst s1)) (fun s1 s2 => fst s2 = bnot (fst s1))) as Sim.
  specialize (fun H => Sim H (fpFuel c) (bfalse, []) (btrue, [])).
  destruct (run (mu2BodyC _) _ _) as [[x d]|], (run (nu2Body _) _ _) as [[y p]|]; auto;
    apply Sim; try (apply bf_ext; intros e; now rewrite eval_not).
  all: intros [m d1] [n p1]; cbn [fst]; intros ->; unfold mu2BodyC, nu2Body; cbn [fst snd];
    replace btrue with (bnot bfalse) by (apply bf_ext; intros e; now rewrite eval_not);
    pose proof (goal_dual c m (livenessGuarantees c) 0 bfalse d1 []) as HG;
    destruct (goalLoopC _ _ _ _ _ _) as [[g dd]|], (goalLoop _ _ _ _ _ _) as [[g' dd']|]; try contradiction; auto;
    subst g';
    pose proof (fpUpdate_dual m g dd dd') as F;
    destruct (fpUpdate m _ _), (fpUpdate (bnot m) _ _); try contradiction; tauto.
Qed.

(** ** The verdict *)
Lemma isTrue_not f : isTrue (bnot f) = isFalse f.
Proof.
  destruct (isFalse f) eqn:E.
  - rewrite isFalse_spec in E. apply isTrue_spec. intros e. now rewrite eval_not, E.
  - apply isFalse_false in E. destruct E as (e & H). destruct (isTrue (bnot f)) eqn:E'; auto.
    rewrite isTrue_spec in E'. specialize (E' e). rewrite eval_not, H in E'. discriminate.
Qed.

Lemma verdict_dual f : verdictOfC f = verdictOf (bnot f).
Proof.
  assert (C : forall f, isConstant f = isTrue f || isFalse f).
  { intros g. unfold isConstant, isTrue, isFalse. now destruct (bft g) as [[]|]. }
  unfold verdictOfC, verdictOf. rewrite !C.
  rewrite isTrue_not. replace (isFalse (bnot f)) with (isTrue f) by now rewrite <- isTrue_not, bnot_not.
  destruct (isTrue f) eqn:T, (isFalse f) eqn:F; cbn; auto.
  rewrite isTrue_spec in T. rewrite isFalse_spec in F. specialize (T (fun _ => false)). rewrite F in T. discriminate.
Qed.

Lemma check_dual robotics c w :
  bnot (counterCheck robotics c w) =
  if robotics then initialCheckRobotics c (bnot w) else initialCheck c (bnot w).
Proof.
  unfold counterCheck, initialCheck, initialCheckRobotics. destruct robotics.
  - rewrite !bnot_exists. do 2 f_equal. apply bf_ext. intros e.
    repeat rewrite ?eval_not, ?eval_and, ?eval_imp. now destruct (eval (initEnv c) e), (eval (initSys c) e).
  - rewrite bnot_exists. f_equal.
    assert (E : bexists (varCubePreOutput c) (band (bnot w) (initSys c)) =
                bnot (bforall (varCubePreOutput c) (bimp (initSys c) w))).
    { rewrite bnot_forall. f_equal. apply bf_ext. intros e. repeat rewrite ?eval_not, ?eval_and, ?eval_imp.
      now destruct (eval (initSys c) e), (eval w e). }
    rewrite E. apply bf_ext. intros e. repeat rewrite ?eval_not, ?eval_and, ?eval_imp.
    now destruct (eval (initEnv c) e).
Qed.

Lemma checkCounter_same robotics c :
  checkCounter robotics c = if robotics then checkRealizabilityRobotics c else checkRealizability c.
Proof.
  unfold checkCounter, checkRealizability, checkRealizabilityRobotics.
  pose proof (counter_dual c) as H.
  destruct (computeCounter c) as [[x d]|], (computeWinningPositions c) as [[y d']|]; try contradiction.
  - subst y. rewrite verdict_dual, check_dual. now destruct robotics.
  - now destruct robotics.
Qed.
