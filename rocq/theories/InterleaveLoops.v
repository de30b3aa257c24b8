(** * The loops of --analyzeInterleaving compute the fixed points *)

From Coq Require Import Arith List Bool Lia.
From Verif Require Import BDD Loop Spec VarTypes Synth Sem FixBase GameSound SynthProofs Verdict Interleave InterleaveSpec InterleaveProofs.
Import ListNotations.

(** ** The types during the analysis *)

Definition tyOf (c : ctx) (B : nat -> bool) (v : nat) : VariableType :=
  if isOut c (Nat.div2 v) then
    if Nat.even v then if B (Nat.div2 v) then PreOutputBefore else PreOutputAfter
    else if B (Nat.div2 v) then PostOutputBefore else PostOutputAfter
  else nth v (varTypes c) NoneVariableType.
Definition typesB (c : ctx) (B : nat -> bool) : list VariableType := map (tyOf c B) (seq 0 (length (varTypes c))).

Lemma length_typesB c B : length (typesB c B) = length (varTypes c).
Proof. unfold typesB. now rewrite map_length, seq_length. Qed.

Section TYPES.
  Variable c : ctx.
  Hypothesis Hwf : wf c.
  Let Hk := wf_kinds c Hwf.

  Lemma nth_typesB B v : nth v (typesB c B) NoneVariableType = tyOf c B v.
  Proof.
    destruct (Nat.lt_ge_cases v (length (varTypes c))) as [L|L].
    - unfold typesB. rewrite nth_indep with (d' := tyOf c B 0) by now rewrite map_length, seq_length.
      rewrite map_nth, seq_nth by auto. reflexivity.
    - rewrite nth_overflow by now rewrite length_typesB. unfold tyOf. rewrite (isOut_big c Hk).
      + now rewrite nth_overflow.
      + rewrite (nvars_spec c Hk) in L. destruct (even_cases v) as [[k ->]|[k ->]]; rewrite ?Nat.div2_double, ?div2_double1; lia.
  Qed.

  Lemma tyOf_even B k : tyOf c B (2 * k) = if isOut c k then if B k then PreOutputBefore else PreOutputAfter else nth (2 * k) (varTypes c) NoneVariableType.
  Proof. unfold tyOf. rewrite Nat.div2_double, even_double. reflexivity. Qed.
  Lemma tyOf_odd B k : tyOf c B (2 * k + 1) = if isOut c k then if B k then PostOutputBefore else PostOutputAfter else nth (2 * k + 1) (varTypes c) NoneVariableType.
  Proof. unfold tyOf. rewrite div2_double1, even_double1. reflexivity. Qed.

  Lemma out_kind k : isOut c k = true -> isPreKind (nth (2 * k) (varTypes c) NoneVariableType) = true.
  Proof.
    intros O. apply (type_even c Hk). destruct (Nat.lt_ge_cases k (nvars c)) as [L|L]; auto.
    rewrite (isOut_big c Hk) in O by auto. discriminate.
  Qed.

  Lemma inherits_tyOf B v T : In T [PreInput; PostInput; PreOutput; PostOutput] ->
    inherits (tyOf c B v) T = inherits (nth v (varTypes c) NoneVariableType) T.
  Proof.
    intros HT. destruct (even_cases v) as [[k ->]|[k ->]]; rewrite ?tyOf_even, ?tyOf_odd; destruct (isOut c k) eqn:O; auto.
    - pose proof (out_kind k O) as K. apply inherits_post in K. unfold isOut in O. rewrite O in K.
      destruct K as (_ & _ & _ & _ & K1 & K2 & _ & _ & _ & _ & K3).
      destruct HT as [<-|[<-|[<-|[<-|[]]]]]; destruct (B k); rewrite ?K1, ?K2, ?K3, ?O; reflexivity.
    - pose proof (out_kind k O) as K. apply inherits_post in K. unfold isOut in O. rewrite O in K. rewrite (type_odd c Hk).
      destruct K as (K0 & K1 & K2 & K3 & _ & _ & _ & _ & _ & _ & K4). rewrite K4 in K0.
      destruct HT as [<-|[<-|[<-|[<-|[]]]]]; destruct (B k); rewrite ?K0, ?K1, ?K2, ?K3; reflexivity.
  Qed.

  Lemma varsOf_typesB B tys : incl tys [PreInput; PostInput; PreOutput; PostOutput] -> varsOf (typesB c B) tys = varsOf (varTypes c) tys.
  Proof.
    intros H. unfold varsOf. rewrite length_typesB. induction tys as [|T tys IH]; cbn [flat_map]; auto. f_equal.
    - apply filter_ext. intros v. rewrite nth_typesB. apply inherits_tyOf. apply H. now left.
    - apply IH. intros t Ht. apply H. now right.
  Qed.

  Lemma inherits_before B v : inherits (tyOf c B v) PostOutputBefore = true -> exists k, v = 2 * k + 1 /\ isOut c k = true /\ B k = true \/
    isOut c (Nat.div2 v) = false.
  Proof.
    destruct (even_cases v) as [[k ->]|[k ->]]; rewrite ?tyOf_even, ?tyOf_odd, ?Nat.div2_double, ?div2_double1; destruct (isOut c k) eqn:O.
    - destruct (B k); discriminate.
    - exists k. auto.
    - destruct (B k) eqn:E; [|discriminate]. exists k. auto.
    - exists k. auto.
  Qed.

  Lemma in_kind k : k < nvars c -> isOut c k = false -> forall T, In T [PreOutputBefore; PostOutputBefore; PostOutputAfter; PreOutputAfter] ->
    inherits (nth (2 * k) (varTypes c) NoneVariableType) T = false /\ inherits (nth (2 * k + 1) (varTypes c) NoneVariableType) T = false.
  Proof.
    intros L O T HT. pose proof (type_even c Hk k L) as K. rewrite (type_odd c Hk). unfold isOut in O.
    destruct (nth (2 * k) (varTypes c) NoneVariableType); try discriminate; destruct HT as [<-|[<-|[<-|[<-|[]]]]]; split; reflexivity.
  Qed.

  Lemma in_cubeB B v : (forall k, B k = true -> isOut c k = true) ->
    In v (varsOf (typesB c B) [PostOutputBefore]) <-> exists k, v = 2 * k + 1 /\ B k = true.
  Proof.
    intros HB. rewrite in_varsOf, length_typesB, (nvars_spec c Hk). split.
    - intros (L & ty & [<-|[]] & H). rewrite nth_typesB in H.
      destruct (even_cases v) as [[k ->]|[k ->]]; rewrite ?tyOf_even, ?tyOf_odd in H; destruct (isOut c k) eqn:O.
      + destruct (B k); discriminate.
      + destruct (in_kind k ltac:(lia) O PostOutputBefore) as [E _]; [cbn; auto|congruence].
      + destruct (B k) eqn:E; [eauto|discriminate].
      + destruct (in_kind k ltac:(lia) O PostOutputBefore) as [_ E]; [cbn; auto|congruence].
    - intros (k & -> & E). pose proof (HB k E) as O. split.
      + destruct (Nat.lt_ge_cases k (nvars c)) as [L|L]; [lia|]. rewrite (isOut_big c Hk) in O by auto. discriminate.
      + exists PostOutputBefore. split; [now left|]. rewrite nth_typesB, tyOf_odd, O, E. reflexivity.
  Qed.
  Lemma in_cubeA B v :
    In v (varsOf (typesB c B) [PostOutputAfter]) <-> exists k, v = 2 * k + 1 /\ isOut c k && negb (B k) = true.
  Proof.
    rewrite in_varsOf, length_typesB, (nvars_spec c Hk). split.
    - intros (L & ty & [<-|[]] & H). rewrite nth_typesB in H.
      destruct (even_cases v) as [[k ->]|[k ->]]; rewrite ?tyOf_even, ?tyOf_odd in H; destruct (isOut c k) eqn:O.
      + destruct (B k); discriminate.
      + destruct (in_kind k ltac:(lia) O PostOutputAfter) as [E _]; [cbn; auto|congruence].
      + destruct (B k) eqn:E; [discriminate|]. exists k. rewrite O, E. auto.
      + destruct (in_kind k ltac:(lia) O PostOutputAfter) as [_ E]; [cbn; auto|congruence].
    - intros (k & -> & E). apply andb_true_iff in E. destruct E as [O E]. apply negb_true_iff in E. split.
      + destruct (Nat.lt_ge_cases k (nvars c)) as [L|L]; [lia|]. rewrite (isOut_big c Hk) in O by auto. discriminate.
      + exists PostOutputAfter. split; [now left|]. rewrite nth_typesB, tyOf_odd, O, E. reflexivity.
  Qed.
End TYPES.

(** ** The loops *)

Section LOOPS.
  Variable c : ctx.
  Hypothesis Hwf : wf c.
  Variable B : nat -> bool.
  Hypothesis HB : forall k, B k = true -> isOut c k = true.
  Let Hk := wf_kinds c Hwf.
  Local Notation pre := (dep (isPreV c)).
  Local Notation any := (dep (isAnyV c)).
  Local Notation c' := (withTypes c (typesB c B)).
  Local Notation cB := (varsOf (typesB c B) [PostOutputBefore]).
  Local Notation cA := (varsOf (typesB c B) [PostOutputAfter]).
  Let HcB := fun v => in_cubeB c Hwf B v HB.
  Let HcA := fun v => in_cubeA c Hwf B v.
  Hint Resolve isPre_isAny dep_true dep_false dep_and dep_or dep_not dep_imp : core.
  Local Lemma any_swap'' f : any f -> any (swapPrePost c f).
  Proof. now apply dep_swapPrePost. Qed.
  Hint Resolve any_swap'' : core.

  Lemma swap_same f : swapPrePost c' f = swapPrePost c f.
  Proof.
    unfold swapPrePost, varVectorPre, varVectorPost. cbn [varTypes withTypes].
    rewrite !varsOf_typesB by (auto; intros t [<-|[<-|[]]]; cbn; auto). reflexivity.
  Qed.
  Lemma fuel_same : fpFuel c' = fpFuel c.
  Proof. unfold fpFuel. cbn. now rewrite length_typesB. Qed.

  Lemma step_same live a x : coxBA c' (bor live (band (swapPrePost c' x) (bnot a))) = stepX c cB cA live a x.
  Proof.
    unfold coxBA, stepX, coxB, varCubePostOutputB, varCubePostOutputA, varCubePostInput, pathsX. rewrite swap_same. cbn [varTypes withTypes safetyEnv safetySys].
    rewrite (varsOf_typesB c Hwf B [PostInput]) by (intros t [<-|[]]; cbn; auto).
    f_equal. f_equal. f_equal. f_equal. apply bf_ext. intros e. rewrite !eval_and. apply andb_comm.
  Qed.

  Lemma nu0_same live a : any live -> any a -> nu0LoopI c' live a = Some (nuX c cB cA live a).
  Proof.
    intros Hl Ha. unfold nu0LoopI. rewrite fuel_same.
    destruct (fp_dec c Hk (nu0BodyI c' live a) (fun v _ => stepX c cB cA live a v)
                (fun v _ => tt) (fun v _ => exists K, v = iterX c cB cA live a K) btrue tt) as (v & d & (K & ->) & E & R & _).
    - now exists 0.
    - intros v d (K & ->). unfold nu0BodyI. cbn [fst]. rewrite step_same. repeat split.
      + apply (pre_iterX c Hwf B); auto.
      + apply (pre_stepX c Hwf B); auto. apply (pre_iterX c Hwf B); auto.
      + apply (iterX_dec c Hwf B HB); auto.
      + intros _. now exists (S K).
    - rewrite R. cbn [option_map fst]. f_equal. pose proof (nuX_fix c Hwf B HB cB cA HcB HcA live a Hl Ha) as F.
      unfold nuX, iterX in *. destruct (Nat.le_ge_cases K (S (2 ^ nvars c))) as [L|L].
      + symmetry. apply iter_fixed; auto.
      + apply iter_fixed; auto.
  Qed.

  Lemma asm_same live asms : any live -> incl asms (livenessAssumptions c) -> forall good,
    asmLoopI c' live asms good = Some (orNuX c cB cA live asms good).
  Proof.
    intros Hl. induction asms as [|a asms IH]; intros Hi good; cbn [asmLoopI]; auto.
    rewrite nu0_same; auto; [|apply (any_asm c Hwf); apply Hi; now left].
    rewrite IH by (intros b Hb; apply Hi; now right). reflexivity.
  Qed.

  Lemma mu1_same z g : pre z -> any g -> mu1LoopI c' (band g (swapPrePost c' z)) = Some (muY c cB cA z g).
  Proof.
    intros Hz Hg. unfold mu1LoopI. rewrite fuel_same, swap_same. set (base := band g (swapPrePost c z)).
    assert (Hbase : any base) by (unfold base; auto).
    set (Inv := fun (y live : BF) => (exists m, y = iterY c cB cA z g m) /\ tsub base live /\ tsub live (bor base (swapPrePost c y))).
    assert (Hlive : forall y d, Inv y d -> bor d (swapPrePost c y) = liveOf c z g y).
    { intros y d (_ & H1 & H2). apply trans_inj. intros s t. unfold liveOf. fold base.
      autorewrite with sem. specialize (H1 s t). specialize (H2 s t). autorewrite with sem in H2.
      destruct (trans d s t), (trans base s t), (trans (swapPrePost c y) s t); cbn in *; auto;
        try (specialize (H2 eq_refl); discriminate); try (specialize (H1 eq_refl); discriminate). }
    destruct (fp_inc c Hk (mu1BodyI c') (fun y _ => stepY c cB cA z g y) (fun y _ => liveOf c z g y) Inv bfalse base) as (y & d & HI & E & R & _).
    - split; [now exists 0|]. split; [apply tsub_refl|]. intros s t H. autorewrite with sem. now rewrite H.
    - intros y live HI. pose proof (Hlive _ _ HI) as HL. destruct HI as ((m & ->) & H1 & H2).
      assert (Py : pre (iterY c cB cA z g m)) by now apply (pre_iterY c Hwf B).
      assert (PS : pre (stepY c cB cA z g (iterY c cB cA z g m))) by now apply (pre_stepY c Hwf B).
      assert (AL : any (liveOf c z g (iterY c cB cA z g m))) by (apply (any_liveOf c Hwf); auto).
      split; [|split; [auto|split; [auto|split; [apply stepY_inc|]]]].
      + unfold mu1BodyI. cbn [fst snd]. rewrite swap_same, HL. change (livenessAssumptions c') with (livenessAssumptions c).
        rewrite asm_same by (auto; apply incl_refl). reflexivity.
      + intros _. split; [now exists (S m)|]. split.
        * intros s t H. unfold liveOf. fold base. autorewrite with sem. now rewrite H.
        * intros s t. unfold liveOf. fold base. autorewrite with sem. rewrite !orb_true_iff.
          intros [H|H]; auto. right. rewrite (trans_swap_pos c Hk) in * by auto. now apply stepY_inc.
    - rewrite R. cbn [option_map fst]. f_equal. destruct HI as ((m & ->) & _).
      apply (isMuY_unique c Hwf B HB cB cA HcB HcA z g); auto.
      + split; eauto.
      + now apply (muY_spec c Hwf B cB cA HcB HcA).
  Qed.

  Lemma goal_same z gs : pre z -> incl gs (livenessGuarantees c) -> forall next,
    goalLoopI c' z gs next = Some (fold_left (fun acc g => band acc (muY c cB cA z g)) gs next).
  Proof.
    intros Hz. induction gs as [|g gs IH]; intros Hi next; cbn [goalLoopI]; auto.
    rewrite mu1_same; auto; [|apply (any_gua c Hwf); apply Hi; now left].
    rewrite IH by (intros b Hb; apply Hi; now right). reflexivity.
  Qed.

  Lemma winning_same : winningI c' = Some (nuZ c cB cA).
  Proof.
    unfold winningI. rewrite fuel_same.
    destruct (fp_dec c Hk (nu2BodyI c') (fun z _ => stepZ c cB cA z) (fun z _ => tt)
      (fun z _ => exists K, z = iterZ c cB cA K) btrue tt) as (w & d & (K & ->) & E & R & _).
    - now exists 0.
    - intros z d (K & ->). assert (P : pre (iterZ c cB cA K)) by now apply (pre_iterZ c Hwf B).
      split; [|split; [auto|split; [apply (pre_stepZ c Hwf B); auto|split; [apply (iterZ_dec c Hwf B HB); auto|intros _; now exists (S K)]]]].
      unfold nu2BodyI. cbn [fst]. change (livenessGuarantees c') with (livenessGuarantees c). rewrite goal_same by (auto; apply incl_refl). reflexivity.
    - rewrite R. cbn [option_map fst]. f_equal. pose proof (nuZ_fix c Hwf B HB cB cA HcB HcA) as F.
      unfold nuZ, iterZ in *. destruct (Nat.le_ge_cases K (S (2 ^ nvars c))) as [L|L].
      + symmetry. apply iter_fixed; auto.
      + apply iter_fixed; auto.
  Qed.

  Lemma check_same :
    (checkI c' = Realizable /\ realizable_before (game_of c) B) \/
    (checkI c' = Unrealizable /\ ~ realizable_before (game_of c) B).
  Proof.
    unfold checkI. rewrite winning_same. set (w := nuZ c cB cA).
    assert (EI : initialCheck c' w = initialCheck c w).
    { unfold initialCheck, varCubePreInput, varCubePreOutput. cbn [varTypes withTypes initEnv initSys].
      rewrite !varsOf_typesB by (auto; intros t [<-|[]]; cbn; auto). reflexivity. }
    rewrite EI. clear EI.
    assert (Pw : pre w) by apply (pre_nuZ c Hwf B cB cA HcB HcA).
    destruct (found c Hwf B HB cB cA HcB HcA) as (f & Hfb & Hf0 & Hf). fold w in Hf.
    set (q := band w (initSys c)).
    assert (Pq : pre q) by (apply dep_and; auto; apply wf_initSys; auto).
    set (g := bimp (initEnv c) (bexists (varCubePreOutput c) q)).
    assert (Dg : dep (isPreInV c) g).
    { apply dep_imp; [now apply wf_initEnv|now apply (dep_exPreOut c Hwf)]. }
    destruct (const_cases c Hwf (initialCheck c w) g Dg eq_refl) as [[E H]|[E (s & H)]]; rewrite E; [left|right]; split; auto.
    - (* a first move for every input *)
      set (start := fun x => match find (fun l => pos q (mrg c x (ofVec l))) (vectors (nvars c)) with
                             | Some l => ofVec l | None => x end).
      assert (Hs : forall x, pos (initEnv c) (mrg c x (start x)) = true -> pos q (mrg c x (start x)) = true).
      { intros x Hx. specialize (H (mrg c x x)). unfold g in H. rewrite pos_imp in H.
        rewrite (preIn_merge c (initEnv c) x x (start x)), Hx in H by now apply wf_initEnv.
        cbn [implb] in H. apply (exPreOut_pos c Hk) in H; auto. destruct H as (y & Hy).
        unfold start. destruct (find _ _) as [l|] eqn:F.
        - now apply find_some in F.
        - exfalso. pose proof (find_none _ _ F _ (toVec_in (nvars c) y)) as N.
          cbv beta in N. rewrite <- not_true_iff_false in N. apply N. rewrite <- Hy.
          apply (pos_ext c Hk); auto. intros k Hlt. unfold mrg. destruct (isOut c k); auto.
          now apply ofVec_toVec. }
      exists (f start). split; [apply Hfb|]. intros x Hi.
      assert (P0 : play (game_of c) (f start) x 0 = mrg c (x 0) (start (x 0))).
      { unfold play. cbn [Spec.history hd]. now rewrite Hf0. }
      rewrite P0 in Hi |- *. cbn in Hi. apply Hs in Hi. unfold q in Hi. rewrite pos_and in Hi.
      apply andb_true_iff in Hi. destruct Hi as [Hi1 Hi2]. split; [exact Hi2|].
      apply (safe_and_live_ext (game_of c)) with
        (pi' := play_from (game_of c) (f start) (mrg c (x 0) (start (x 0))) x).
      + intros n. unfold play, play_from. rewrite play_history_from, Hf0. reflexivity.
      + now apply Hf.
    - (* the environment picks a bad input *)
      unfold g in H. rewrite pos_imp in H. intros (f' & Hb' & Hf').
      set (s0 := mrg c s (f' [] s)).
      assert (N : pos (initEnv c) s = true /\ pos (bexists (varCubePreOutput c) q) s = false).
      { destruct (pos (initEnv c) s), (pos (bexists (varCubePreOutput c) q) s); auto; discriminate. }
      destruct N as [N1 N2].
      assert (I0 : pos (initEnv c) s0 = true).
      { rewrite <- N1. unfold s0. rewrite (preIn_merge c (initEnv c) s (f' [] s) s) by now apply wf_initEnv.
        apply eval_ext. intros v. unfold tv, mrg. destruct (Nat.even v); now destruct (isOut c _). }
      assert (NQ : pos q s0 = false).
      { destruct (pos q s0) eqn:EQ; auto. assert (pos (bexists (varCubePreOutput c) q) s = true); [|congruence].
        apply (exPreOut_pos c Hk); eauto. }
      unfold q in NQ. rewrite pos_and in NQ.
      destruct (pos w s0) eqn:Ew.
      + destruct (Hf' (fun _ => s)) as [Hobj _]; auto.
        change (pos (initSys c) s0 = true) in Hobj. rewrite Hobj in NQ. discriminate.
      + destruct (lost c Hwf B HB cB cA HcB HcA _ s0 Ew f' Hb') as (x & Hx). apply Hx.
        destruct (Hf' (fun n => match n with O => s | S _ => x n end)) as [_ Hobj]; auto.
        revert Hobj. apply safe_and_live_ext. intros n.
        unfold play, play_from. rewrite play_history_from. f_equal.
        change (merge (game_of c) s (f' [] s)) with s0.
        clear. induction n as [|n IH]; cbn [history_from]; auto. now rewrite IH.
  Qed.
End LOOPS.
