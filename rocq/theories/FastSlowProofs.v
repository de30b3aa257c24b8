(** * The fixed-point computation for fast and slow actions *)

From Coq Require Import String Ascii Arith List Bool Lia.
From Verif Require Import BDD Loop Spec VarTypes Synth Sem FixBase SynthProofs Verdict Solvers Explicit FastSlowSpec FastSlow InterleaveProofs.
Import ListNotations.

Local Arguments isOut : simpl never.

(** ** Loaded specifications with fast and slow outputs *)
Definition fsKind (k : VariableType) : bool := vt_eqb k PreInput || vt_eqb k PreOutputFast || vt_eqb k PreOutputSlow.
Definition fsTypes (c : ctx) : Prop := exists kinds, varTypes c = typesOf kinds /\ forallb fsKind kinds = true.
Definition wfFS (c : ctx) : Prop := wf c /\ fsTypes c.
Definition isSlow (c : ctx) (k : nat) : bool := inherits (nth (2 * k) (varTypes c) NoneVariableType) PreOutputSlow.

(** The same specification with the restricted safety guarantees. *)
Definition restr (c : ctx) : ctx :=
  mkCtx (varNames c) (varTypes c) (livenessAssumptions c) (livenessGuarantees c) (initEnv c) (initSys c) (safetyEnv c) (newSafetySys c).

Lemma run_ext {S R} (b b' : S -> step S R) n s : (forall st, b st = b' st) -> run b n s = run b' n s.
Proof.
  intros H. unfold run. assert (G : forall n s, loop b n s = loop b' n s).
  { clear n s. induction n as [|n IH]; intros s; cbn; rewrite ?H; auto. rewrite IH. destruct (loop b' n s); auto. }
  now rewrite G.
Qed.

Lemma exists_split l1 l2 l f : (forall v, In v l <-> In v l1 \/ In v l2) -> bexists l1 (bexists l2 f) = bexists l f.
Proof.
  intros H. apply bf_ext. intros e. apply Bool.eq_iff_eq_true. rewrite !eval_exists. split.
  - intros (e' & A & E). apply eval_exists in E. destruct E as (e'' & A' & E). exists e''. split; auto.
    intros v Hv. rewrite H in Hv. rewrite A, A'; tauto.
  - intros (e' & A & E). exists (fun v => if in_dec Nat.eq_dec v l1 then e' v else e v). split.
    + intros v Hv. now destruct (in_dec Nat.eq_dec v l1).
    + apply eval_exists. exists e'. split; auto. intros v Hv. destruct (in_dec Nat.eq_dec v l1) as [|N]; auto.
      apply A. rewrite H. tauto.
Qed.

Section FS.
  Variable c : ctx.
  Hypothesis Hwf : wf c.
  Hypothesis Hfs : fsTypes c.
  Let Hk := wf_kinds c Hwf.
  Let N := nvars c.

  Lemma kind_fs k : k < nvars c -> fsKind (nth (2 * k) (varTypes c) NoneVariableType) = true.
  Proof.
    intros H. pose proof (nvars_spec c Hk) as L. destruct Hfs as (kinds & E & F).
    rewrite E, nth_typesOf_even. rewrite E, length_typesOf in L. rewrite forallb_forall in F. apply F, nth_In. lia.
  Qed.

  Lemma kind_cases k : k < nvars c ->
    let t := nth (2 * k) (varTypes c) NoneVariableType in
    (t = PreInput /\ isOut c k = false /\ isSlow c k = false) \/
    (t = PreOutputFast /\ isOut c k = true /\ isSlow c k = false) \/
    (t = PreOutputSlow /\ isOut c k = true /\ isSlow c k = true).
  Proof.
    intros H t. pose proof (kind_fs k H) as F. unfold isOut, isSlow. fold t in F |- *. unfold fsKind in F.
    destruct t; try discriminate F; cbn; auto 6.
  Qed.

  Lemma isSlow_big k : nvars c <= k -> isSlow c k = false.
  Proof. intros H. unfold isSlow. rewrite (type_big c Hk) by lia. reflexivity. Qed.

  Lemma isSlow_out k : isSlow c k = true -> isOut c k = true /\ k < nvars c.
  Proof.
    intros H. destruct (Nat.lt_ge_cases k (nvars c)) as [L|L]; [|rewrite isSlow_big in H; [discriminate|auto]].
    destruct (kind_cases k L) as [(_ & A & B)|[(_ & A & B)|(_ & A & B)]]; split; congruence.
  Qed.

  Ltac vcase v :=
    destruct (even_cases v) as [[k ->]|[k ->]].

  Lemma in_even ty k : In (2 * k) (varsOf (varTypes c) [ty]) <-> k < nvars c /\ inherits (nth (2 * k) (varTypes c) NoneVariableType) ty = true.
  Proof.
    rewrite in_varsOf, (nvars_spec c Hk). split.
    - intros (L & t & [<-|[]] & H). split; [lia|auto].
    - intros (L & H). split; [lia|]. exists ty. split; auto. now left.
  Qed.
  Lemma in_odd ty k : In (2 * k + 1) (varsOf (varTypes c) [ty]) <->
    k < nvars c /\ inherits (postOf (nth (2 * k) (varTypes c) NoneVariableType)) ty = true.
  Proof.
    rewrite in_varsOf, (nvars_spec c Hk), (type_odd c Hk). split.
    - intros (L & t & [<-|[]] & H). split; [lia|auto].
    - intros (L & H). split; [lia|]. exists ty. split; auto. now left.
  Qed.

  Lemma postOut_split v : In v (varCubePostOutput c) <-> In v (varCubePostOutputS c) \/ In v (varCubePostOutputF c).
  Proof.
    unfold varCubePostOutput, varCubePostOutputS, varCubePostOutputF. vcase v; rewrite ?in_even, ?in_odd;
      (split; [intros (L & H)|intros [(L & H)|(L & H)]]; destruct (kind_cases k L) as [(E & _)|[(E & _)|(E & _)]];
       rewrite E in *; cbn in *; try discriminate; auto).
  Qed.
  Lemma preOut_split v : In v (varCubePreOutput c) <-> In v (varCubePreOutputS c) \/ In v (varCubePreOutputF c).
  Proof.
    unfold varCubePreOutput, varCubePreOutputS, varCubePreOutputF. vcase v; rewrite ?in_even, ?in_odd;
      (split; [intros (L & H)|intros [(L & H)|(L & H)]]; destruct (kind_cases k L) as [(E & _)|[(E & _)|(E & _)]];
       rewrite E in *; cbn in *; try discriminate; auto).
  Qed.

  (** ** The restricted safety guarantees *)

  Lemma ex_post f s t : dep (isAnyV c) f ->
    trans (bexists (varCubePostOutputF c) (bexists (varCubePostOutputS c) (bexists (varCubePostInput c) f))) s t = true <->
    exists t', trans f s t' = true.
  Proof.
    intros D. rewrite (exists_split _ _ (varCubePostOutput c)) by (intros v; rewrite postOut_split; tauto).
    rewrite (exPostOut_trans c Hk). split.
    - intros (y & H). apply (exPostIn_trans c Hk) in H; auto. destruct H as (x & H). eauto.
    - intros (t' & H). exists t'. apply (exPostIn_trans c Hk); auto. exists t'. rewrite <- H.
      apply (trans_eq f s). intros k. unfold mrg. now destruct (isOut c k).
  Qed.

  Lemma dep_ex_post f : dep (isAnyV c) f ->
    dep (isPreV c) (bexists (varCubePostOutputF c) (bexists (varCubePostOutputS c) (bexists (varCubePostInput c) f))).
  Proof.
    intros D. rewrite (exists_split _ _ (varCubePostOutput c)) by (intros v; rewrite postOut_split; tauto).
    rewrite (exists_split _ _ (varCubePost c)).
    2:{ intros v. rewrite (in_cubePost c Hk), (in_PostOutput c Hk), (in_PostInput c Hk). split.
        - intros (k & -> & L). destruct (isOut c k) eqn:E; [left|right]; eauto.
        - intros [(k & -> & L & _)|(k & -> & L & _)]; eauto. }
    eapply dep_exists; [exact D|]. intros v Hv Hn. split; auto.
    vcase v; [apply even_double|]. elim Hn. apply (in_cubePost c Hk). exists k. split; auto.
    unfold isAnyV in Hv. rewrite (nvars_spec c Hk) in Hv. lia.
  Qed.

  Lemma ex_pre f s t : dep (isAnyV c) f ->
    trans (bexists (varCubePreOutputF c) (bexists (varCubePreOutputS c) (bexists (varCubePreInput c) f))) s t = true <->
    exists s', trans f s' t = true.
  Proof.
    intros D. rewrite (exists_split _ _ (varCubePreOutput c)) by (intros v; rewrite preOut_split; tauto).
    rewrite (exists_split _ _ (varCubePre c)).
    2:{ intros v. rewrite (in_cubePre c Hk), (in_PreOutput c Hk), (in_PreInput c Hk). split.
        - intros (k & -> & L). destruct (isOut c k) eqn:E; [left|right]; eauto.
        - intros [(k & -> & L & _)|(k & -> & L & _)]; eauto. }
    unfold trans. rewrite eval_exists. split.
    - intros (e & A & H). exists (fun k => e (2 * k)). rewrite <- H. apply eval_ext. intros v.
      vcase v; rewrite ?tv_even, ?tv_odd; auto. rewrite <- A; [now rewrite tv_odd|]. rewrite (in_cubePre c Hk). intros (m & E & _). lia.
    - intros (s' & H). exists (fun v => if in_dec Nat.eq_dec v (varCubePre c) then tv s' t v else tv s t v). split.
      + intros v Hv. now destruct (in_dec _ _ _).
      + rewrite <- H. apply D. intros v Hv. destruct (in_dec _ _ _) as [|Hn]; auto.
        vcase v; rewrite ?tv_even, ?tv_odd; auto. elim Hn. apply (in_cubePre c Hk). exists k. split; auto.
        unfold isAnyV in Hv. rewrite (nvars_spec c Hk) in Hv. lia.
  Qed.
  Lemma dep_ex_pre f : dep (isAnyV c) f -> dep (fun v => v < length (varTypes c) /\ Nat.even v = false)
    (bexists (varCubePreOutputF c) (bexists (varCubePreOutputS c) (bexists (varCubePreInput c) f))).
  Proof.
    intros D. rewrite (exists_split _ _ (varCubePreOutput c)) by (intros v; rewrite preOut_split; tauto).
    rewrite (exists_split _ _ (varCubePre c)).
    2:{ intros v. rewrite (in_cubePre c Hk), (in_PreOutput c Hk), (in_PreInput c Hk). split.
        - intros (k & -> & L). destruct (isOut c k) eqn:E; [left|right]; eauto.
        - intros [(k & -> & L & _)|(k & -> & L & _)]; eauto. }
    eapply dep_exists; [exact D|]. intros v Hv Hn. split; auto.
    vcase v; [|apply even_double1]. elim Hn. apply (in_cubePre c Hk). exists k. split; auto.
    unfold isAnyV in Hv. rewrite (nvars_spec c Hk) in Hv. lia.
  Qed.

  Lemma swapf_sym xs ys v : Forall2 (fun x y => exists k, x = 2 * k /\ y = 2 * k + 1) xs ys -> swapf ys xs v = swapf xs ys v.
  Proof.
    induction 1 as [|x y xs ys (k & -> & ->) H IH]; auto. cbn [swapf]. rewrite IH.
    destruct (Nat.eqb_spec v (2 * k)), (Nat.eqb_spec v (2 * k + 1)); auto; lia.
  Qed.
  Lemma bswap_sym xs ys f : Forall2 (fun x y => exists k, x = 2 * k /\ y = 2 * k + 1) xs ys -> bswap ys xs f = bswap xs ys f.
  Proof.
    intros H. apply bf_ext. intros e. rewrite !eval_swap. apply eval_ext. intros v. now rewrite swapf_sym.
  Qed.

  Lemma safeStates_pos s : pos (safeStates c) s = true <-> exists t, trans (safetySys c) s t = true.
  Proof. apply (ex_post (safetySys c) s s). apply (wf_safetySys c Hwf). Qed.
  Lemma safeStates_pre : dep (isPreV c) (safeStates c).
  Proof. apply dep_ex_post, (wf_safetySys c Hwf). Qed.
  Lemma safeNext_pos s : pos (safeNext c) s = true <-> exists s', trans (safetySys c) s' s = true.
  Proof.
    unfold safeNext, pos. rewrite (bswap_sym _ _ _ (vectors_spec c Hk)).
    fold (swapPrePost c (bexists (varCubePreOutputF c) (bexists (varCubePreOutputS c) (bexists (varCubePreInput c) (safetySys c))))).
    match goal with |- eval (swapPrePost c ?f) _ = _ <-> _ => change (eval (swapPrePost c f) (tv s s)) with (trans (swapPrePost c f) s s) end.
    rewrite (trans_swap c Hk).
    - apply ex_pre, (wf_safetySys c Hwf).
    - eapply dep_weaken; [|apply dep_ex_pre, (wf_safetySys c Hwf)]. now intros v [H _].
  Qed.
  Lemma safeNext_pre : dep (isPreV c) (safeNext c).
  Proof.
    unfold safeNext. rewrite (bswap_sym _ _ _ (vectors_spec c Hk)).
    eapply dep_swap; [apply dep_ex_pre, (wf_safetySys c Hwf)|]. intros v [Hv E]. split.
    - now apply (swapf_bound c Hk).
    - pose proof (swapf_spec _ _ (vectors_spec c Hk)) as S. vcase v; [rewrite even_double in E; discriminate|].
      destruct (S k) as [_ S2]. rewrite S2. destruct (in_dec _ _ _) as [I|I]; [apply even_double|].
      elim I. apply (in_varVectorPre c Hk). rewrite (nvars_spec c Hk) in Hv. lia.
  Qed.

  Lemma slow_vectors : Forall2 (fun x y => exists k, x = 2 * k /\ y = 2 * k + 1) (varVectorPreOutputS c) (varVectorPostOutputS c).
  Proof.
    apply (swap_lists c Hk). intros k L. rewrite (type_odd c Hk).
    destruct (kind_cases k L) as [(E & _)|[(E & _)|(E & _)]]; rewrite E; cbn; auto.
  Qed.
  Lemma in_slow k : In (2 * k) (varVectorPreOutputS c) <-> isSlow c k = true.
  Proof.
    unfold varVectorPreOutputS. rewrite in_even. unfold isSlow at 1. split; [tauto|].
    intros H. split; auto. now apply isSlow_out.
  Qed.
  Lemma slow_swap f s t :
    trans (bswap (varVectorPostOutputS c) (varVectorPreOutputS c) f) s t =
    trans f (fun k => if isSlow c k then t k else s k) (fun k => if isSlow c k then s k else t k).
  Proof.
    rewrite (bswap_sym _ _ _ slow_vectors). unfold trans. rewrite eval_swap. apply eval_ext. intros v.
    pose proof (swapf_spec _ _ slow_vectors) as S. vcase v; destruct (S k) as [S1 S2]; rewrite ?S1, ?S2, ?tv_even, ?tv_odd;
      destruct (in_dec _ _ _) as [I|I]; rewrite in_slow in I; rewrite ?I, ?tv_even, ?tv_odd; auto;
      destruct (isSlow c k); auto; congruence.
  Qed.

  Lemma newSafety_spec s t : trans (newSafetySys c) s t = true <-> fs_step (game_of c) (isSlow c) s t.
  Proof.
    unfold newSafetySys, fs_step, admissible. rewrite trans_and, slow_swap, (trans_swap_pos c Hk).
    2:{ apply dep_and; [apply safeStates_pre|apply safeNext_pre]. }
    rewrite pos_and, !andb_true_iff, safeStates_pos, safeNext_pos. cbn [game_of g_safeS]. unfold between. reflexivity.
  Qed.
  Lemma newSafety_any : dep (isAnyV c) (newSafetySys c).
  Proof.
    unfold newSafetySys. apply dep_and; [apply (wf_safetySys c Hwf)|].
    eapply dep_swap; [apply (dep_swapPrePost c Hk), (isPre_isAny c); apply dep_and; [apply safeStates_pre|apply safeNext_pre]|].
    intros v. unfold isAnyV. rewrite (nvars_spec c Hk). rewrite (swapf_sym _ _ _ slow_vectors). intros L. pose proof (swapf_spec _ _ slow_vectors) as S.
    vcase v; destruct (S k) as [S1 S2]; rewrite ?S1, ?S2; destruct (in_dec _ _ _); lia.
  Qed.

  Lemma restr_wf : wf (restr c).
  Proof. pose proof newSafety_any as A. pose proof Hwf as W. destruct W. constructor; auto. Qed.

  (** ** The loops are those for the restricted safety guarantees *)
  Lemma cox_same p : coxFS c p = cox (restr c) p.
  Proof. unfold coxFS, cox. now rewrite (exists_split _ _ (varCubePostOutput c)) by apply postOut_split. Qed.
  Lemma nu0_same live a : nu0LoopFS c live a = nu0Loop (restr c) live a.
  Proof. apply run_ext. intros st. unfold nu0BodyFS, nu0Body. now rewrite cox_same. Qed.
  Lemma asm_same j live asms : forall good data, asmLoopFS c j live asms good data = asmLoop (restr c) j live asms good data.
  Proof.
    induction asms as [|a asms IH]; intros good data; auto. cbn [asmLoopFS asmLoop]. rewrite nu0_same.
    destruct (nu0Loop (restr c) live a) as [[nu0 p]|]; auto.
  Qed.
  Lemma goal_same nu2 goals : forall j next data, goalLoopFS c nu2 j goals next data = goalLoop (restr c) nu2 j goals next data.
  Proof.
    induction goals as [|g goals IH]; intros j next data; auto. cbn [goalLoopFS goalLoop]. unfold mu1Loop.
    rewrite (run_ext (mu1BodyFS c j) (mu1Body (restr c) j)).
    2:{ intros [mu1 [live d]]. unfold mu1BodyFS, mu1Body. now rewrite asm_same. }
    change (fpFuel (restr c)) with (fpFuel c). change (swapPrePost (restr c) nu2) with (swapPrePost c nu2).
    destruct (run _ _ _) as [[mu1 [live d]]|]; auto.
  Qed.
  Lemma compute_same : computeFS c = computeWinningPositions (restr c).
  Proof. apply run_ext. intros st. unfold nu2BodyFS, nu2Body. now rewrite goal_same. Qed.
  Lemma initial_same w : initialCheckFS c w = initialCheck (restr c) w.
  Proof. unfold initialCheckFS, initialCheck. now rewrite (exists_split _ _ (varCubePreOutput c)) by apply preOut_split. Qed.
  Lemma check_same robotics : checkFS robotics c = if robotics then checkRealizabilityRobotics (restr c) else checkRealizability (restr c).
  Proof.
    unfold checkFS, checkRealizabilityRobotics, checkRealizability. rewrite compute_same.
    destruct robotics, (computeWinningPositions (restr c)) as [[w d]|]; auto. now rewrite initial_same.
  Qed.
  Lemma jump_same fuel cur comb : forall next first, jump fuel (restr c) cur next first comb = jump fuel c cur next first comb.
  Proof. induction fuel as [|fuel IH]; intros next first; auto. cbn [jump]. rewrite IH. reflexivity. Qed.
  Lemma extract_same recovery w d : extract recovery (restr c) w d = extract recovery c w d.
  Proof.
    unfold extract. change (initLoop (restr c) (extractInit recovery (restr c) w)) with (initLoop c (extractInit recovery c w)).
    destruct (initLoop c _) as [wk|]; auto. change (fpFuel (restr c)) with (fpFuel c).
    change (livenessGuarantees (restr c)) with (livenessGuarantees c).
    apply run_ext. intros [w0 out]. unfold mainBody. destruct (todoOf w0) as [|cur todo]; auto.
    change (fpFuel (restr c)) with (fpFuel c).
    rewrite (run_ext (succBody false (restr c) (snd cur)) (succBody false c (snd cur))); [reflexivity|].
    intros [r [w1 su]]. unfold succBody. destruct (isFalse r); auto.
    change (livenessGuarantees (restr c)) with (livenessGuarantees c). change (postVars (restr c)) with (postVars c).
    now rewrite jump_same.
  Qed.
  Lemma explicit_same robotics recovery : computeExplicitFS robotics recovery c = computeExplicit Basic robotics recovery (restr c).
  Proof.
    unfold computeExplicitFS, computeExplicit, solve. rewrite compute_same.
    destruct (computeWinningPositions (restr c)) as [[w d]|]; auto. rewrite initial_same, extract_same. reflexivity.
  Qed.

  (** ** The obligations are those for the restricted safety guarantees *)
  Lemma sl_same pi : safe_and_live (game_of (restr c)) pi <-> fs_safe_and_live (game_of c) (isSlow c) pi.
  Proof.
    unfold safe_and_live, fs_safe_and_live. cbn [game_of g_safeE g_safeS g_liveA g_liveG restr safetyEnv safetySys livenessAssumptions livenessGuarantees].
    split; intros [H1 H2]; split; auto; intros n Hn; apply newSafety_spec; auto.
  Qed.
  Lemma play_same f x n : play (game_of (restr c)) f x n = play (game_of c) f x n.
  Proof.
    unfold play. f_equal. induction n as [|n IH]; [reflexivity|]. cbn [history]. rewrite IH. reflexivity.
  Qed.
  Lemma play_from_same f s x n : play_from (game_of (restr c)) f s x n = play_from (game_of c) f s x n.
  Proof.
    unfold play_from. f_equal. induction n as [|n IH]; [reflexivity|]. cbn [history_from]. rewrite IH. reflexivity.
  Qed.
  Lemma inf_often_ext p (pi pi' : nat -> state) : (forall n, pi n = pi' n) -> inf_often p pi -> inf_often p pi'.
  Proof. intros E H n. destruct (H n) as (m & L & Hm). exists m. now rewrite <- !E. Qed.
  Lemma fs_sl_ext g slow (pi pi' : nat -> state) : (forall n, pi n = pi' n) -> fs_safe_and_live g slow pi -> fs_safe_and_live g slow pi'.
  Proof.
    intros E [H1 H2]. split.
    - intros n Hn. rewrite <- !E. apply H1. intros m L. rewrite !E. auto.
    - intros HE HA p Hp. apply (inf_often_ext _ pi); auto. apply H2; auto.
      + intros n. rewrite !E. auto.
      + intros q Hq. apply (inf_often_ext _ pi'); auto.
  Qed.
  Lemma play_sl f x : safe_and_live (game_of (restr c)) (play (game_of (restr c)) f x) <-> fs_safe_and_live (game_of c) (isSlow c) (play (game_of c) f x).
  Proof.
    rewrite sl_same. split; apply fs_sl_ext; intros n; [|symmetry]; apply play_same.
  Qed.
  Lemma play_from_sl f s x : safe_and_live (game_of (restr c)) (play_from (game_of (restr c)) f s x) <-> fs_safe_and_live (game_of c) (isSlow c) (play_from (game_of c) f s x).
  Proof.
    rewrite sl_same. split; apply fs_sl_ext; intros n; [|symmetry]; apply play_from_same.
  Qed.
  Lemma objective_same f x : objective (game_of (restr c)) (play (game_of (restr c)) f x) <-> fs_objective (game_of c) (isSlow c) (play (game_of c) f x).
  Proof.
    unfold objective, fs_objective. change (g_initE (game_of (restr c))) with (g_initE (game_of c)). change (g_initS (game_of (restr c))) with (g_initS (game_of c)).
    rewrite !play_same, play_sl. reflexivity.
  Qed.
  Lemma winning_same s : winning (game_of (restr c)) s <-> fs_winning (game_of c) (isSlow c) s.
  Proof. split; intros (f & H); exists f; intros x; now apply play_from_sl. Qed.
End FS.
