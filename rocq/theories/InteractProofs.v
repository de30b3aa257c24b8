(** * Interaction of safety and liveness properties *)

From Coq Require Import Arith List Bool Lia.
From Verif Require Import BDD Loop Spec InteractSpec VarTypes Synth Sem FixBase SynthProofs Verdict Interact.
Import ListNotations.

Local Arguments isOut : simpl never.

(** ** Games with the same objective *)
Record alike (g g' : game) : Prop := mkAlike {
  al_out : g_out g = g_out g';
  al_initE : forall s, g_initE g s = g_initE g' s;
  al_initS : forall s, g_initS g s = g_initS g' s;
  al_live : forall pi, safe_and_live g pi <-> safe_and_live g' pi
}.
Lemma alike_sym g g' : alike g g' -> alike g' g.
Proof. intros [H1 H2 H3 H4]. constructor; auto. intros pi. symmetry. apply H4. Qed.
Section ALIKE.
  Variables g g' : game.
  Hypothesis A : alike g g'.
  Lemma alike_history f x n : history g f x n = history g' f x n.
  Proof. induction n as [|n IH]; cbn [history]; unfold merge; rewrite (al_out _ _ A); [|rewrite IH]; reflexivity. Qed.
  Lemma alike_history_from f s x n : history_from g f s x n = history_from g' f s x n.
  Proof. induction n as [|n IH]; cbn [history_from]; auto. unfold merge; rewrite (al_out _ _ A), IH; reflexivity. Qed.
  Lemma alike_play f x n : play g f x n = play g' f x n.
  Proof. unfold play. now rewrite alike_history. Qed.
  Lemma alike_play_from f s x n : play_from g f s x n = play_from g' f s x n.
  Proof. unfold play_from. now rewrite alike_history_from. Qed.
  Lemma alike_realizable : realizable g -> realizable g'.
  Proof.
    intros (f & Hf). exists f. intros x HI. rewrite <- alike_play, <- (al_initE _ _ A) in HI.
    destruct (Hf x HI) as [H1 H2]. split; [now rewrite <- alike_play, <- (al_initS _ _ A)|].
    apply (al_live _ _ A). revert H2. apply safe_and_live_ext. intros n. symmetry. apply alike_play.
  Qed.
  Lemma alike_robotics : realizable_robotics g -> realizable_robotics g'.
  Proof.
    intros (f & Hf). exists f. intros s x HE HS. rewrite <- (al_initE _ _ A) in HE. rewrite <- (al_initS _ _ A) in HS.
    specialize (Hf s x HE HS). apply (al_live _ _ A). revert Hf. apply safe_and_live_ext. intros n. symmetry. apply alike_play_from.
  Qed.
  Lemma alike_winning s : winning g s -> winning g' s.
  Proof.
    intros (f & Hf). exists f. intros x. specialize (Hf x). apply (al_live _ _ A). revert Hf. apply safe_and_live_ext. intros n.
    symmetry. apply alike_play_from.
  Qed.
End ALIKE.

Lemma only_alike c a b d e : alike (game_of (restrictTo c a b d e)) (only (game_of c) a b d e).
Proof.
  constructor; auto. intros pi.
  assert (T : forall p, In p (map trans [btrue]) -> inf_often p pi).
  { intros p [<-|[]] n. exists n. auto. }
  unfold safe_and_live. cbn [restrictTo game_of only g_safeE g_safeS g_liveA g_liveG safetyEnv safetySys livenessAssumptions livenessGuarantees].
  assert (EA : forall s t, trans (if a then safetyEnv c else btrue) s t = (if a then trans (safetyEnv c) else fun _ _ => true) s t)
    by (destruct a; auto).
  assert (ED : forall s t, trans (if d then safetySys c else btrue) s t = (if d then trans (safetySys c) else fun _ _ => true) s t)
    by (destruct d; auto).
  assert (LA : (forall p, In p (map trans (if b then livenessAssumptions c else [btrue])) -> inf_often p pi) <->
               (forall p, In p (if b then map trans (livenessAssumptions c) else []) -> inf_often p pi)).
  { destruct b; [reflexivity|]. split; [intros _ p []|auto]. }
  assert (LG : (forall p, In p (map trans (if e then livenessGuarantees c else [btrue])) -> inf_often p pi) <->
               (forall p, In p (if e then map trans (livenessGuarantees c) else []) -> inf_often p pi)).
  { destruct e; [reflexivity|]. split; [intros _ p []|auto]. }
  rewrite LA, LG. split; intros [H1 H2]; split.
  - intros n Hn. rewrite <- ED. apply H1. intros m Hm. rewrite EA. auto.
  - intros Hn. apply H2. intros n. rewrite EA. auto.
  - intros n Hn. rewrite ED. apply H1. intros m Hm. rewrite <- EA. auto.
  - intros Hn. apply H2. intros n. rewrite <- EA. auto.
Qed.

Lemma restrictTo_wf c a b d e : wf c -> wf (restrictTo c a b d e).
Proof.
  intros W. constructor; cbn [restrictTo initEnv initSys safetyEnv safetySys livenessAssumptions livenessGuarantees];
    [exact (wf_kinds c W)|exact (wf_initEnv c W)|exact (wf_initSys c W)| | | | | |].
  - destruct a; [exact (wf_safetyEnv c W)|apply dep_true].
  - destruct d; [exact (wf_safetySys c W)|apply dep_true].
  - destruct b; [exact (wf_asm c W)|repeat constructor; apply dep_true].
  - destruct e; [exact (wf_gua c W)|repeat constructor; apply dep_true].
  - destruct b; [exact (wf_asm_ne c W)|discriminate].
  - destruct e; [exact (wf_gua_ne c W)|discriminate].
Qed.

Lemma bothSemantics_spec c : wf c -> exists cl ro w, bothSemantics c = Some (cl, ro) /\ exactW c w /\ cl = winsClassical c w /\
  (cl = true <-> realizable (game_of c)) /\ (ro = true <-> realizable_robotics (game_of c)).
Proof.
  intros Hwf. unfold bothSemantics. destruct (compute_spec c Hwf) as (w & d & -> & S).
  assert (HX : exactW c w) by (eapply solved_exact; eauto). exists (winsClassical c w), (winsRobotics c w), w. split; auto. split; auto. split; auto.
  unfold winsClassical, winsRobotics. split.
  - destruct (initialCheck_spec c Hwf w HX) as [[V R]|[V R]]; unfold verdictOf in V; destruct (negb _); try discriminate;
      destruct (isTrue _); try discriminate; split; auto; try discriminate.
    intros (f & Hf). destruct (R f) as (x & Hx). exfalso. apply Hx, Hf.
  - destruct (initialCheckRobotics_spec c Hwf w HX) as [[V R]|[V R]]; unfold verdictOf in V; destruct (negb _); try discriminate;
      destruct (isTrue _); try discriminate; split; auto; try discriminate.
    intros (f & Hf). destruct R as (s & H1 & H2 & H3). destruct (H3 f) as (x & Hx). exfalso. apply Hx, Hf; auto.
Qed.

Lemma rowLoop_spec c : wf c -> forall is, exists rows, rowLoop c is = Some rows /\ length rows = length is /\
  forall j i r, nth_error is j = Some i -> nth_error rows j = Some r ->
    let g := only (game_of c) (Nat.testbit i 3) (Nat.testbit i 2) (Nat.testbit i 1) (Nat.testbit i 0) in
    (fst r = true <-> realizable g) /\ (snd r = true <-> realizable_robotics g) /\
    exists w, exactW (row c i) w /\ fst r = winsClassical (row c i) w.
Proof.
  intros W. induction is as [|i is (rows & E & L & H)]; cbn [rowLoop].
  - exists []. split; auto. split; auto. intros [|j] i r; discriminate.
  - assert (W' : wf (row c i)) by now apply restrictTo_wf.
    destruct (bothSemantics_spec (row c i) W') as (cl & ro & w & -> & HX & Ecl & H1 & H2). rewrite E. exists ((cl, ro) :: rows).
    split; auto. split; [cbn; congruence|]. intros [|j] i' r; cbn [nth_error]; [|apply H].
    intros X Y. injection X as <-. injection Y as <-. cbn [fst snd]. unfold row in *.
    pose proof (only_alike c (Nat.testbit i 3) (Nat.testbit i 2) (Nat.testbit i 1) (Nat.testbit i 0)) as A. split; [|split].
    + rewrite H1. split; apply alike_realizable; auto. now apply alike_sym.
    + rewrite H2. split; apply alike_robotics; auto. now apply alike_sym.
    + eauto.
Qed.

(** ** Searching for valuations *)
Section SEARCH.
  Variable n : nat.
  Definition extB (p : state -> bool) : Prop := forall x y, (forall k, k < n -> x k = y k) -> p x = p y.
  Definition exv (p : state -> bool) : bool := existsb (fun l => p (ofVec l)) (vectors n).
  Definition choose (p : state -> bool) : state :=
    match find (fun l => p (ofVec l)) (vectors n) with Some l => ofVec l | None => fun _ => false end.
  Lemma choose_spec p x : extB p -> p x = true -> p (choose p) = true.
  Proof.
    intros E Hx. unfold choose. destruct (find _ _) as [l|] eqn:F.
    - apply find_some in F. tauto.
    - pose proof (find_none _ _ F _ (toVec_in n x)) as N. cbv beta in N.
      rewrite (E _ x) in N; [congruence|]. intros k Hk. now apply ofVec_toVec.
  Qed.
  Lemma exv_spec p : extB p -> exv p = true <-> exists x, p x = true.
  Proof.
    intros E. unfold exv. rewrite existsb_exists. split.
    - intros (l & _ & H). eauto.
    - intros (x & H). exists (toVec n x). split; [apply toVec_in|]. rewrite (E _ x); auto. intros k Hk. now apply ofVec_toVec.
  Qed.
  Lemma exv_false p : extB p -> exv p = false -> forall x, p x = false.
  Proof. intros E H x. destruct (p x) eqn:X; auto. assert (exv p = true) by (apply exv_spec; eauto). congruence. Qed.
End SEARCH.

(** ** Inputs that react to a strategy *)
Section REACT.
  Variables (g : game) (f : strategy) (e : nat -> state -> state) (s : state).
  Fixpoint reactH (n : nat) : list state :=
    match n with
    | O => [s]
    | S m => let h := reactH m in let x := e m (hd (fun _ => false) h) in merge g x (f h x) :: h
    end.
  Definition reactX (n : nat) : state := match n with O => s | S m => e m (hd (fun _ => false) (reactH m)) end.
  Lemma reactX_history n : history_from g f s reactX n = reactH n.
  Proof. induction n as [|n IH]; cbn [history_from reactH]; auto. now rewrite IH. Qed.
  Lemma reactX_step n : reactX (S n) = e n (play_from g f s reactX n).
  Proof. cbn [reactX]. unfold play_from. now rewrite reactX_history. Qed.
End REACT.
Lemma play_from_0 g f s x : play_from g f s x 0 = s.
Proof. reflexivity. Qed.
Lemma play_from_S g f s x n : play_from g f s x (S n) = merge g (x (S n)) (f (history_from g f s x n) (x (S n))).
Proof. reflexivity. Qed.
Lemma length_history_from g f s x n : length (history_from g f s x n) = S n.
Proof. induction n as [|n IH]; cbn [history_from length]; auto. Qed.
Lemma hd_history_from g f s x n : hd (fun _ => false) (history_from g f s x n) = play_from g f s x n.
Proof. reflexivity. Qed.

(** ** Deadlocks *)

(** [q] has the same properties as [c] and perhaps additional variables. *)
Record extends (c q : ctx) : Prop := mkExtends {
  ex_kinds : exists kinds, varTypes q = typesOf kinds /\ forallb isPreKind kinds = true;
  ex_n : nvars c <= nvars q;
  ex_out : forall k, k < nvars c -> isOut q k = isOut c k;
  ex_initEnv : initEnv q = initEnv c;
  ex_initSys : initSys q = initSys c;
  ex_safetyEnv : safetyEnv q = safetyEnv c;
  ex_safetySys : safetySys q = safetySys c
}.

Section FALSIFY.
  Variables c q : ctx.
  Hypothesis Hwf : wf c.
  Hypothesis Q : extends c q.
  Let Hk := wf_kinds c Hwf.
  Let Hkq := ex_kinds c q Q.
  Notation pre := (dep (isPreV c)).
  Notation any := (dep (isAnyV c)).
  Notation SE := (trans (safetyEnv c)).
  Notation SS := (trans (safetySys c)).
  Let n := nvars c.

  Lemma any_q f : any f -> dep (isAnyV q) f.
  Proof.
    apply dep_weaken. unfold isAnyV. intros v Hv. rewrite (nvars_spec c Hk) in Hv. rewrite (nvars_spec q Hkq).
    pose proof (ex_n c q Q). lia.
  Qed.
  Lemma pre_q f : pre f -> dep (isPreV q) f.
  Proof.
    apply dep_weaken. unfold isPreV. intros v [Hv E]. split; auto. rewrite (nvars_spec c Hk) in Hv. rewrite (nvars_spec q Hkq).
    pose proof (ex_n c q Q). lia.
  Qed.
  Lemma mrg_qc x y k : k < n -> mrg q x y k = mrg c x y k.
  Proof. intros H. unfold mrg. now rewrite (ex_out c q Q). Qed.
  Lemma trans_q f s x y : any f -> trans f s (mrg q x y) = trans f s (mrg c x y).
  Proof. intros D. apply (trans_ext c Hk); auto. intros k Hlt. now apply mrg_qc. Qed.
  Lemma pos_q f x y : pre f -> pos f (mrg q x y) = pos f (mrg c x y).
  Proof. intros D. apply (pos_ext c Hk); auto. intros k Hlt. now apply mrg_qc. Qed.
  Lemma mrg_mrg_l x y z k : mrg q (mrg q x z) y k = mrg q x y k.
  Proof. unfold mrg. now destruct (isOut q k). Qed.

  Lemma dep_of_trans f (P : state -> Prop) : (forall s t, trans f s t = true <-> P s) ->
    (forall s s', (forall k, k < n -> s k = s' k) -> P s -> P s') -> pre f.
  Proof.
    intros H HP e e' He.
    assert (E : forall e, eval f e = trans f (fun k => e (2 * k)) (fun k => e (2 * k + 1))).
    { intros e0. apply eval_ext. intros v. destruct (even_cases v) as [[k ->]|[k ->]]; now rewrite ?tv_even, ?tv_odd. }
    rewrite !E. apply eq_true_iff_eq. rewrite !H. split; apply HP; intros k Hlt; [|symmetry];
      apply He; split; try apply even_double; rewrite (nvars_spec c Hk); unfold n in Hlt; lia.
  Qed.

  (** One round. *)
  Lemma any_swap_q w : pre w -> dep (isAnyV q) (swapPrePost q w).
  Proof. intros D. apply (dep_swapPrePost q Hkq). apply any_q. now apply isPre_isAny. Qed.

  Definition envB (w : BF) (s x y : state) : bool :=
    SE s (mrg c x y) && (pos w (mrg c x y) || negb (SS s (mrg c x y))).
  Definition sysB (w : BF) (s x y : state) : bool :=
    (SS s (mrg c x y) && pos w (mrg c x y)) || negb (SE s (mrg c x y)).

  Lemma Se_any : any (safetyEnv c). Proof. eapply dep_weaken; [|exact (wf_safetyEnv c Hwf)]. now intros v [H _]. Qed.
  Lemma Se_in s x y y' : SE s (mrg c x y) = SE s (mrg c x y').
  Proof. apply safeE_in. apply (wf_safetyEnv c Hwf). Qed.

  Lemma envPart_trans w s t : pre w ->
    trans (bexists (varCubePostInput q) (band (safetyEnv q)
           (bforall (varCubePostOutput q) (bor (swapPrePost q w) (bnot (safetySys q)))))) s t = true <->
    exists x, forall y, envB w s x y = true.
  Proof.
    intros D. rewrite (ex_safetyEnv c q Q), (ex_safetySys c q Q).
    assert (DG : dep (isAnyV q) (bor (swapPrePost q w) (bnot (safetySys c)))).
    { apply dep_or; [now apply any_swap_q|]. apply dep_not. apply any_q. apply (wf_safetySys c Hwf). }
    assert (G : forall s x y z, trans (bor (swapPrePost q w) (bnot (safetySys c))) s (mrg q (mrg q x z) y) =
                             pos w (mrg c x y) || negb (SS s (mrg c x y))).
    { intros s0 x y z. rewrite trans_or, trans_not. rewrite (trans_swap_pos q Hkq) by now apply pre_q.
      f_equal; [|f_equal].
      - rewrite (pos_ext c Hk w _ (mrg q x y)); auto; [now apply pos_q|]. intros k Hlt. apply mrg_mrg_l.
      - rewrite (trans_ext c Hk (safetySys c) s0 _ s0 (mrg q x y)); auto; [apply trans_q; apply (wf_safetySys c Hwf)|apply (wf_safetySys c Hwf)|].
        intros k Hlt. apply mrg_mrg_l. }
    rewrite (exPostIn_trans q Hkq).
    2:{ apply dep_and; [apply any_q, Se_any|]. eapply dep_weaken; [|apply (dep_forall _ (isAnyV q) (isAnyV q) _ DG); auto]. auto. }
    split; intros (x & H); exists x.
    - intros y. rewrite trans_and in H. apply andb_true_iff in H. destruct H as [H1 H2].
      rewrite (faPostOut_trans q Hkq) in H2. specialize (H2 y). rewrite G in H2. unfold envB. rewrite H2, andb_true_r.
      rewrite trans_q in H1 by apply Se_any. rewrite (Se_in s x y t). exact H1.
    - rewrite trans_and. apply andb_true_iff. split.
      + rewrite trans_q by apply Se_any. specialize (H t). unfold envB in H. now apply andb_true_iff in H.
      + rewrite (faPostOut_trans q Hkq). intros y. rewrite G. specialize (H y). unfold envB in H. now apply andb_true_iff in H.
  Qed.

  Lemma sysPart_trans w s t : pre w ->
    trans (bforall (varCubePostInput q) (bexists (varCubePostOutput q)
           (bor (band (safetySys q) (swapPrePost q w)) (bnot (safetyEnv q))))) s t = true <->
    forall x, exists y, sysB w s x y = true.
  Proof.
    intros D. rewrite (ex_safetyEnv c q Q), (ex_safetySys c q Q).
    assert (DG : dep (isAnyV q) (bor (band (safetySys c) (swapPrePost q w)) (bnot (safetyEnv c)))).
    { apply dep_or; [|apply dep_not, any_q, Se_any]. apply dep_and; [apply any_q, (wf_safetySys c Hwf)|now apply any_swap_q]. }
    assert (G : forall s x y z, trans (bor (band (safetySys c) (swapPrePost q w)) (bnot (safetyEnv c))) s (mrg q (mrg q x z) y) =
                             sysB w s x y).
    { intros s0 x y z. unfold sysB. rewrite trans_or, trans_and, trans_not. rewrite (trans_swap_pos q Hkq) by now apply pre_q.
      f_equal; [f_equal|f_equal].
      - rewrite (trans_ext c Hk (safetySys c) s0 _ s0 (mrg q x y)); auto; [apply trans_q; apply (wf_safetySys c Hwf)|apply (wf_safetySys c Hwf)|].
        intros k Hlt. apply mrg_mrg_l.
      - rewrite (pos_ext c Hk w _ (mrg q x y)); auto; [now apply pos_q|]. intros k Hlt. apply mrg_mrg_l.
      - rewrite (trans_ext c Hk (safetyEnv c) s0 _ s0 (mrg q x y)); auto; [apply trans_q; apply Se_any|apply Se_any|].
        intros k Hlt. apply mrg_mrg_l. }
    rewrite (faPostIn_trans q Hkq).
    2:{ eapply dep_weaken; [|apply (dep_exists _ (isAnyV q) (isAnyV q) _ DG); auto]. auto. }
    split; intros H x; specialize (H x).
    - rewrite (exPostOut_trans q Hkq) in H. destruct H as (y & H). exists y. now rewrite G in H.
    - rewrite (exPostOut_trans q Hkq). destruct H as (y & H). exists y. now rewrite G.
  Qed.

  Lemma envB_ext w s s' x x' y y' : pre w -> (forall k, k < n -> s k = s' k) -> (forall k, k < n -> x k = x' k) ->
    (forall k, k < n -> y k = y' k) -> envB w s x y = envB w s' x' y'.
  Proof.
    intros D H1 H2 H3. assert (M : forall k, k < nvars c -> mrg c x y k = mrg c x' y' k).
    { intros k Hlt. unfold mrg. destruct (isOut c k); auto. }
    unfold envB. f_equal; [|f_equal; [|f_equal]].
    - apply (trans_ext c Hk); auto. apply Se_any.
    - apply (pos_ext c Hk); auto.
    - apply (trans_ext c Hk); auto. apply (wf_safetySys c Hwf).
  Qed.
  Lemma sysB_ext w s s' x x' y y' : pre w -> (forall k, k < n -> s k = s' k) -> (forall k, k < n -> x k = x' k) ->
    (forall k, k < n -> y k = y' k) -> sysB w s x y = sysB w s' x' y'.
  Proof.
    intros D H1 H2 H3. assert (M : forall k, k < nvars c -> mrg c x y k = mrg c x' y' k).
    { intros k Hlt. unfold mrg. destruct (isOut c k); auto. }
    unfold sysB. f_equal; [f_equal|f_equal].
    - apply (trans_ext c Hk); auto. apply (wf_safetySys c Hwf).
    - apply (pos_ext c Hk); auto.
    - apply (trans_ext c Hk); auto. apply Se_any.
  Qed.

  Lemma pre_envRound w : pre w -> pre (envRound q w).
  Proof.
    intros D. unfold envRound. apply dep_or; auto. eapply dep_of_trans; [intros s t; now apply envPart_trans|].
    intros s s' H (x & Hx). exists x. intros y. rewrite <- (Hx y). symmetry. now apply envB_ext.
  Qed.
  Lemma pre_sysRound w : pre w -> pre (sysRound q w).
  Proof.
    intros D. unfold sysRound. apply dep_or; auto. eapply dep_of_trans; [intros s t; now apply sysPart_trans|].
    intros s s' H H' x. destruct (H' x) as (y & Hy). exists y. rewrite <- Hy. symmetry. now apply sysB_ext.
  Qed.
  Lemma envRound_pos w s : pre w -> pos (envRound q w) s = true <-> pos w s = true \/ exists x, forall y, envB w s x y = true.
  Proof. intros D. unfold envRound. rewrite pos_or, orb_true_iff. rewrite (envPart_trans w s s D). reflexivity. Qed.
  Lemma sysRound_pos w s : pre w -> pos (sysRound q w) s = true <-> pos w s = true \/ forall x, exists y, sysB w s x y = true.
  Proof. intros D. unfold sysRound. rewrite pos_or, orb_true_iff. rewrite (sysPart_trans w s s D). reflexivity. Qed.

  Definition WE (k : nat) : BF := Nat.iter k (envRound q) bfalse.
  Definition WS (k : nat) : BF := Nat.iter k (sysRound q) bfalse.
  Lemma pre_WE k : pre (WE k). Proof. induction k; [apply dep_false|]. now apply pre_envRound. Qed.
  Lemma pre_WS k : pre (WS k). Proof. induction k; [apply dep_false|]. now apply pre_sysRound. Qed.
  Lemma WE_S k : WE (S k) = envRound q (WE k). Proof. reflexivity. Qed.
  Lemma WS_S k : WS (S k) = sysRound q (WS k). Proof. reflexivity. Qed.
  Lemma sub_WE k : sub (WE k) (WE (S k)). Proof. apply sub_or_l. Qed.
  Lemma sub_WS k : sub (WS k) (WS (S k)). Proof. apply sub_or_l. Qed.

  Lemma envB_mono w w' s x y : sub w w' -> envB w s x y = true -> envB w' s x y = true.
  Proof.
    unfold envB. rewrite !andb_true_iff, !orb_true_iff. intros H [H1 H2]. split; auto. destruct H2; auto.
  Qed.
  Lemma sysB_mono w w' s x y : sub w w' -> sysB w s x y = true -> sysB w' s x y = true.
  Proof.
    unfold sysB. rewrite !orb_true_iff, !andb_true_iff. intros H [[H1 H2]|H1]; auto.
  Qed.
  Lemma WE_step k s : pos (WE (S k)) s = true <-> exists x, forall y, envB (WE k) s x y = true.
  Proof.
    rewrite WE_S, envRound_pos by apply pre_WE. split; [|auto]. intros [H|H]; auto.
    revert s H. induction k as [|k IH]; intros s H; [discriminate H|].
    rewrite WE_S, envRound_pos in H by apply pre_WE.
    assert (exists x, forall y, envB (WE k) s x y = true) as (x & Hx) by (destruct H as [H|H]; auto).
    exists x. intros y. eapply envB_mono; [apply sub_WE|apply Hx].
  Qed.
  Lemma WS_step k s : pos (WS (S k)) s = true <-> forall x, exists y, sysB (WS k) s x y = true.
  Proof.
    rewrite WS_S, sysRound_pos by apply pre_WS. split; [|auto]. intros [H|H]; auto.
    revert s H. induction k as [|k IH]; intros s H; [discriminate H|].
    rewrite WS_S, sysRound_pos in H by apply pre_WS.
    assert (forall x, exists y, sysB (WS k) s x y = true) as Hx by (destruct H as [H|H]; auto).
    intros x. destruct (Hx x) as (y & Hy). exists y. eapply sysB_mono; [apply sub_WS|apply Hy].
  Qed.

  (** The rounds are the numbers of steps. *)
  Notation g := (game_of c).
  Lemma envB_extX w s y : pre w -> extB n (fun x => envB w s x y).
  Proof. intros D x x' H. apply envB_ext; auto. Qed.
  Definition allY (p : state -> bool) : bool := negb (exv n (fun y => negb (p y))).
  Lemma allY_spec p : extB n p -> allY p = true <-> forall y, p y = true.
  Proof.
    intros E. unfold allY. rewrite negb_true_iff. assert (extB n (fun y => negb (p y))) as E'.
    { intros x y H. now rewrite (E x y H). }
    split.
    - intros H y. pose proof (exv_false n _ E' H y) as X. now apply negb_false_iff in X.
    - intros H. destruct (exv n _) eqn:X; auto. apply exv_spec in X; auto. destruct X as (y & Hy). now rewrite H in Hy.
  Qed.
  Lemma allY_ext p p' : (forall y, p y = p' y) -> allY p = allY p'.
  Proof.
    intros E. unfold allY, exv. f_equal. induction (vectors n) as [|l ls IH]; cbn [existsb]; auto. now rewrite E, IH.
  Qed.
  Definition envMove (w : BF) (s : state) : state := choose n (fun x => allY (envB w s x)).
  Lemma envMove_spec w s : pre w -> (exists x, forall y, envB w s x y = true) -> forall y, envB w s (envMove w s) y = true.
  Proof.
    intros D (x & Hx). assert (E : forall x, extB n (envB w s x)) by (intros x0 y y' H; apply envB_ext; auto).
    apply allY_spec; auto. unfold envMove. apply choose_spec with (p := fun x => allY (envB w s x)) (x := x).
    - intros x1 x2 H. apply allY_ext. intros y. apply envB_ext; auto.
    - apply allY_spec; auto.
  Qed.
  Lemma not_env w s : pre w -> ~ (exists x, forall y, envB w s x y = true) -> forall x, exists y, envB w s x y = false.
  Proof.
    intros D N x. assert (E : extB n (envB w s x)) by (intros y y' H; apply envB_ext; auto).
    destruct (exv n (fun y => negb (envB w s x y))) eqn:X.
    - apply exv_spec in X; [|intros y y' HH; f_equal; now apply E]. destruct X as (y & Hy). exists y. now apply negb_true_iff in Hy.
    - exfalso. apply N. exists x. apply allY_spec; auto. unfold allY. now rewrite X.
  Qed.

  Lemma env_falsifies_spec k s : pos (WE k) s = true <-> env_falsifies g k s.
  Proof.
    split.
    - intros Hs f. set (e := fun m st => envMove (WE (k - S m)) st). exists (reactX g f e s). set (x := reactX g f e s).
      set (pi := play_from g f s x).
      assert (G : forall j, j <= k -> (exists m, m < k /\ (forall i, i <= m -> SE (pi i) (pi (S i)) = true) /\ SS (pi m) (pi (S m)) = false) \/
                  (pos (WE (k - j)) (pi j) = true /\ forall i, i < j -> SE (pi i) (pi (S i)) = true)).
      { induction j as [|j IH]; intros Hj.
        - right. rewrite Nat.sub_0_r. split; [exact Hs|lia].
        - destruct IH as [IH|[IH1 IH2]]; [lia|auto|].
          replace (k - j) with (S (k - S j)) in IH1 by lia. apply WE_step in IH1.
          pose proof (envMove_spec _ _ (pre_WE _) IH1 (f (history_from g f s x j) (x (S j)))) as B.
          change (envMove (WE (k - S j)) (pi j)) with (e j (pi j)) in B. unfold pi in B at 2. unfold x in B at 2.
          rewrite <- reactX_step in B. fold x in B.
          change (envB (WE (k - S j)) (pi j) (x (S j)) (f (history_from g f s x j) (x (S j)))) with
            (SE (pi j) (pi (S j)) && (pos (WE (k - S j)) (pi (S j)) || negb (SS (pi j) (pi (S j))))) in B.
          apply andb_true_iff in B. destruct B as [B1 B2].
          assert (SA : forall i, i < S j -> SE (pi i) (pi (S i)) = true).
          { intros i Hi. destruct (Nat.eq_dec i j) as [->|]; auto. apply IH2. lia. }
          destruct (SS (pi j) (pi (S j))) eqn:ES.
          + right. rewrite orb_false_r in B2. split; auto.
          + left. exists j. split; [lia|]. split; auto. intros i Hi. apply SA. lia. }
      destruct (G k (le_n k)) as [(m & H1 & H2 & H3)|[H _]]; [exists m; auto|].
      rewrite Nat.sub_diag in H. discriminate H.
    - intros HF. destruct (pos (WE k) s) eqn:E; auto. exfalso.
      set (f := fun (h : list state) x => choose n (fun y => negb (envB (WE (k - length h)) (hd (fun _ => false) h) x y))).
      destruct (HF f) as (x & m & Hm & H1 & H2). set (pi := play_from g f s x) in *.
      assert (G : forall j, j <= k -> (forall i, i < j -> SE (pi i) (pi (S i)) = true) ->
                  pos (WE (k - j)) (pi j) = false /\ forall i, i < j -> SS (pi i) (pi (S i)) = true).
      { induction j as [|j IH]; intros Hj HE.
        - rewrite Nat.sub_0_r. split; [exact E|lia].
        - destruct IH as [IH1 IH2]; [lia|intros i Hi; apply HE; lia|].
          replace (k - j) with (S (k - S j)) in IH1 by lia.
          assert (N : ~ exists x, forall y, envB (WE (k - S j)) (pi j) x y = true) by (rewrite <- WE_step; congruence).
          destruct (not_env _ _ (pre_WE _) N (x (S j))) as (y & Hy).
          pose proof (choose_spec n (fun y => negb (envB (WE (k - S j)) (pi j) (x (S j)) y)) y) as C.
          assert (C1 : negb (envB (WE (k - S j)) (pi j) (x (S j)) (f (history_from g f s x j) (x (S j)))) = true).
          { unfold f at 1. rewrite length_history_from, hd_history_from. apply C; [|now rewrite Hy].
            intros y1 y2 Hyy. f_equal. apply envB_ext; auto. apply pre_WE. }
          change (envB (WE (k - S j)) (pi j) (x (S j)) (f (history_from g f s x j) (x (S j)))) with
            (SE (pi j) (pi (S j)) && (pos (WE (k - S j)) (pi (S j)) || negb (SS (pi j) (pi (S j))))) in C1.
          rewrite (HE j) in C1 by lia. cbn [andb] in C1. rewrite negb_orb, negb_involutive in C1. apply andb_true_iff in C1.
          destruct C1 as [C1 C2]. apply negb_true_iff in C1. split; auto.
          intros i Hi. destruct (Nat.eq_dec i j) as [->|]; auto. apply IH2. lia. }
      destruct (G (S m) Hm) as [_ G2]; [intros i Hi; apply H1; lia|]. cbn [g_safeS game_of] in H2.
      rewrite (G2 m) in H2 by lia. discriminate.
  Qed.

  Definition sysMove (w : BF) (s x : state) : state := choose n (sysB w s x).
  Lemma not_sys w s : pre w -> ~ (forall x, exists y, sysB w s x y = true) ->
    forall y, sysB w s (choose n (fun x => allY (fun y => negb (sysB w s x y)))) y = false.
  Proof.
    intros D N. set (p := fun x => allY (fun y => negb (sysB w s x y))).
    assert (EP : extB n p).
    { intros x x' H. apply allY_ext. intros y. f_equal. apply sysB_ext; auto. }
    assert (EY : forall x, extB n (fun y => negb (sysB w s x y))) by (intros x y y' H; f_equal; apply sysB_ext; auto).
    destruct (exv n p) eqn:X.
    - apply exv_spec in X; auto. destruct X as (x & Hx). pose proof (choose_spec n p x EP Hx) as C. unfold p in C at 1.
      rewrite allY_spec in C by apply EY. intros y. specialize (C y). now apply negb_true_iff in C.
    - exfalso. apply N. intros x. pose proof (exv_false n p EP X x) as F. unfold p, allY in F. apply negb_false_iff in F.
      apply exv_spec in F.
      + destruct F as (y & Hy). exists y. now rewrite negb_involutive in Hy.
      + intros y y' HH. f_equal. now apply (EY x).
  Qed.

  Lemma sys_falsifies_spec k s : pos (WS k) s = true <-> sys_falsifies g k s.
  Proof.
    split.
    - intros Hs. exists (fun h x => sysMove (WS (k - length h)) (hd (fun _ => false) h) x). intros x.
      set (f := fun h x => sysMove (WS (k - length h)) (hd (fun _ => false) h) x). set (pi := play_from g f s x).
      assert (G : forall j, j <= k -> (exists m, m < k /\ SE (pi m) (pi (S m)) = false /\ (forall i, i < m -> SS (pi i) (pi (S i)) = true)) \/
                  (pos (WS (k - j)) (pi j) = true /\ forall i, i < j -> SS (pi i) (pi (S i)) = true)).
      { induction j as [|j IH]; intros Hj.
        - right. rewrite Nat.sub_0_r. split; [exact Hs|lia].
        - destruct IH as [IH|[IH1 IH2]]; [lia|auto|].
          replace (k - j) with (S (k - S j)) in IH1 by lia. rewrite WS_step in IH1. destruct (IH1 (x (S j))) as (y & Hy).
          assert (B : sysB (WS (k - S j)) (pi j) (x (S j)) (f (history_from g f s x j) (x (S j))) = true).
          { unfold f at 1. rewrite length_history_from, hd_history_from. unfold sysMove.
            apply choose_spec with (x := y); auto. intros y1 y2 Hyy. apply sysB_ext; auto. apply pre_WS. }
          change (sysB (WS (k - S j)) (pi j) (x (S j)) (f (history_from g f s x j) (x (S j)))) with
            ((SS (pi j) (pi (S j)) && pos (WS (k - S j)) (pi (S j))) || negb (SE (pi j) (pi (S j)))) in B.
          apply orb_true_iff in B. destruct B as [B|B].
          + apply andb_true_iff in B. destruct B as [B1 B2]. right. split; auto.
            intros i Hi. destruct (Nat.eq_dec i j) as [->|]; auto. apply IH2. lia.
          + left. exists j. apply negb_true_iff in B. split; [lia|]. auto. }
      destruct (G k (le_n k)) as [(m & H1 & H2 & H3)|[H _]]; [exists m; auto|].
      rewrite Nat.sub_diag in H. discriminate H.
    - intros (f & HF). destruct (pos (WS k) s) eqn:E; auto. exfalso.
      set (e := fun m st => choose n (fun x => allY (fun y => negb (sysB (WS (k - S m)) st x y)))).
      destruct (HF (reactX g f e s)) as (m & Hm & H1 & H2). set (x := reactX g f e s) in *. set (pi := play_from g f s x) in *.
      cbn [g_safeE g_safeS game_of] in H1, H2.
      assert (G : forall j, j <= k -> (forall i, S i < j -> SS (pi i) (pi (S i)) = true) ->
                  (0 < j -> SE (pi (pred j)) (pi j) = true) /\
                  ((forall i, i < j -> SS (pi i) (pi (S i)) = true) -> pos (WS (k - j)) (pi j) = false)).
      { induction j as [|j IH]; intros Hj HE.
        - rewrite Nat.sub_0_r. split; [lia|]. intros _. exact E.
        - destruct IH as [_ IH2]; [lia|intros i Hi; apply HE; lia|].
          assert (N0 : pos (WS (k - j)) (pi j) = false) by (apply IH2; intros i Hi; apply HE; lia).
          replace (k - j) with (S (k - S j)) in N0 by lia.
          assert (N : ~ forall x, exists y, sysB (WS (k - S j)) (pi j) x y = true) by (rewrite <- WS_step; congruence).
          pose proof (not_sys _ _ (pre_WS _) N (f (history_from g f s x j) (x (S j)))) as B.
          change (choose n (fun x0 => allY (fun y => negb (sysB (WS (k - S j)) (pi j) x0 y)))) with (e j (pi j)) in B.
          unfold pi in B at 2. unfold x in B at 2. rewrite <- reactX_step in B. fold x in B.
          change (sysB (WS (k - S j)) (pi j) (x (S j)) (f (history_from g f s x j) (x (S j)))) with
            ((SS (pi j) (pi (S j)) && pos (WS (k - S j)) (pi (S j))) || negb (SE (pi j) (pi (S j)))) in B.
          apply orb_false_iff in B. destruct B as [B1 B2]. apply negb_false_iff in B2. cbn [pred]. split; auto.
          intros HS. rewrite (HS j) in B1 by lia. exact B1. }
      destruct (G (S m) Hm) as [G1 _]; [intros i Hi; apply H2; lia|]. specialize (G1 (Nat.lt_0_succ m)). cbn [pred] in G1. congruence.
  Qed.

  (** The checks of initial positions. *)
  Hypothesis Hwfq : wf q.
  Lemma initEnv_pre : pre (initEnv c).
  Proof. apply dep_weaken with (2 := wf_initEnv c Hwf). now intros v [H _]. Qed.
  Lemma envInitial_spec w : pre w -> envInitial q w = true <->
    exists x, forall y, pos (initSys c) (mrg c x y) = true -> pos (initEnv c) (mrg c x y) = true /\ pos w (mrg c x y) = true.
  Proof.
    intros D. unfold envInitial. rewrite (ex_initEnv c q Q), (ex_initSys c q Q).
    set (B := bor (bnot (initSys c)) (band (initEnv c) w)). set (F := bforall (varCubePreOutput q) B).
    assert (DB : pre B) by (apply dep_or; [apply dep_not, (wf_initSys c Hwf)|apply dep_and; auto; apply initEnv_pre]).
    assert (DF : dep (isPreInV q) F) by (apply (dep_faPreOut q Hwfq); now apply pre_q).
    assert (PF : forall s, pos F s = true <->
      forall y, pos (initSys c) (mrg c s y) = true -> pos (initEnv c) (mrg c s y) = true /\ pos w (mrg c s y) = true).
    { intros s. unfold F. rewrite (faPreOut_pos q Hkq) by now apply pre_q.
      assert (E : forall y, pos B (mrg q s y) = true <->
        (pos (initSys c) (mrg c s y) = true -> pos (initEnv c) (mrg c s y) = true /\ pos w (mrg c s y) = true)).
      { intros y. rewrite pos_q by auto. unfold B. rewrite pos_or, pos_not, pos_and.
        destruct (pos (initSys c) _), (pos (initEnv c) _), (pos w _); cbn; intuition congruence. }
      split; intros H y; apply E; auto. }
    rewrite isTrue_spec. split.
    - intros H. specialize (H (fun _ => false)). apply eval_exists in H. destruct H as (e & _ & He).
      exists (fun k => e (2 * k)). apply PF. rewrite <- He. apply (preIn_pre q F DF). intros v [Hv E].
      destruct (even_cases v) as [[k ->]|[k ->]]; [|rewrite even_double1 in E; discriminate]. now rewrite tv_even.
    - intros (x & Hx) e. apply PF in Hx. destruct (eval (bexists (varCubePreInput q) F) e) eqn:E; auto. exfalso.
      assert (X : eval (bforall (varCubePreInput q) (bnot F)) e = true).
      { apply eval_forall. intros e' He. rewrite eval_not. destruct (eval F e') eqn:E'; auto.
        cbn [negb]. rewrite <- E. apply eval_exists. exists e'. auto. }
      rewrite (faPreIn_const q Hkq) in X by now apply dep_not.
      specialize (X x). rewrite pos_not, Hx in X. discriminate.
  Qed.

  Lemma winsClassical_spec w : pre w -> winsClassical q w = true <->
    forall x, exists y, pos (initEnv c) (mrg c x y) = true -> pos (initSys c) (mrg c x y) = true /\ pos w (mrg c x y) = true.
  Proof.
    intros D. unfold winsClassical, initialCheck. rewrite (ex_initEnv c q Q), (ex_initSys c q Q).
    set (B := band w (initSys c)). set (F := bimp (initEnv c) (bexists (varCubePreOutput q) B)).
    assert (DB : pre B) by (apply dep_and; auto; apply (wf_initSys c Hwf)).
    assert (DE : dep (isPreInV q) (initEnv c)) by (rewrite <- (ex_initEnv c q Q); apply (wf_initEnv q Hwfq)).
    assert (DF : dep (isPreInV q) F) by (apply dep_imp; auto; apply (dep_exPreOut q Hwfq); now apply pre_q).
    assert (PF : forall x, pos F x = true <->
      exists y, pos (initEnv c) (mrg c x y) = true -> pos (initSys c) (mrg c x y) = true /\ pos w (mrg c x y) = true).
    { intros x. unfold F. rewrite pos_imp.
      assert (EE : forall y, pos (initEnv c) (mrg c x y) = pos (initEnv c) x).
      { intros y. rewrite (preIn_merge c (initEnv c) x y x) by apply (wf_initEnv c Hwf). apply eval_ext. intros v.
        unfold tv, mrg. destruct (Nat.even v); now destruct (isOut c _). }
      assert (EB : pos (bexists (varCubePreOutput q) B) x = true <-> exists y, pos (initSys c) (mrg c x y) = true /\ pos w (mrg c x y) = true).
      { rewrite (exPreOut_pos q Hkq) by now apply pre_q.
        split; intros (y & Hy); exists y; rewrite ?pos_q in * by auto; unfold B in *; rewrite pos_and, andb_true_iff in *; tauto. }
      destruct (pos (initEnv c) x); cbn [implb].
      - rewrite EB. split; intros (y & Hy); exists y; auto.
      - split; auto. intros _. exists x. rewrite EE. discriminate. }
    rewrite isTrue_spec. split.
    - intros H x. apply PF. specialize (H (fun _ => false)). rewrite (faPreIn_const q Hkq F DF) in H. apply H.
    - intros H e. apply (faPreIn_const q Hkq F DF). intros s. apply PF. apply H.
  Qed.

  (** The loops. *)
  Lemma iterE_stable r : envRound q (WE r) = WE r -> forall m, r <= m -> WE m = WE r.
  Proof. intros E m Hm. induction Hm as [|m Hm IH]; auto. rewrite WE_S, IH. exact E. Qed.
  Lemma iterS_stable r : sysRound q (WS r) = WS r -> forall m, r <= m -> WS m = WS r.
  Proof. intros E m Hm. induction Hm as [|m Hm IH]; auto. rewrite WS_S, IH. exact E. Qed.

  Lemma envLoop_spec : exists r, run (envBody q) (fpFuel q) (bfalse, 0) = Some r /\
    match r with
    | Some (w, k) => w = WE k /\ 1 <= k /\ envInitial q (WE k) = true /\ forall j, 1 <= j < k -> envInitial q (WE j) = false
    | None => forall j, 1 <= j -> envInitial q (WE j) = false
    end.
  Proof.
    set (Inv := fun st : BF * nat => fst st = WE (snd st) /\ forall j, 1 <= j <= snd st -> envInitial q (WE j) = false).
    assert (St : forall st st', Inv st -> envBody q st = Cont st' -> Inv st' /\ fst st' = envRound q (fst st) /\ fst st' <> fst st).
    { intros [w r] st' [I1 I2] E. cbn [fst snd] in *. unfold envBody in E. destruct (envInitial q (envRound q w)) eqn:EI; [discriminate|].
      destruct (bf_eqb_spec (envRound q w) w) as [|Ne]; [discriminate|]. injection E as <-. cbn [fst snd]. subst w. split; auto. split; auto.
      intros j Hj. cbn [snd] in Hj. destruct (Nat.eq_dec j (S r)) as [->|]; [exact EI|]. apply I2. lia. }
    assert (I0 : Inv (bfalse, 0)) by (split; [reflexivity|cbn; lia]).
    destruct (run_total (envBody q) Inv (fun st => 2 ^ nvars q - card q (fst st)) (fpFuel q) (bfalse, 0)) as (r & Er & Hr); auto.
    - intros [w r] I. destruct (envBody q (w, r)) as [st'|o|] eqn:E; auto.
      + destruct (St _ _ I E) as (I' & E1 & E2). split; auto.
        assert (card q w < card q (fst st')).
        { apply (card_lt q w (fst st') Hkq).
          - destruct I as [I _]. cbn [fst snd] in I. rewrite I. apply pre_q, pre_WE.
          - destruct I' as [-> _]. apply pre_q, pre_WE.
          - rewrite E1. apply sub_or_l.
          - cbn [fst] in *. congruence. }
        pose proof (card_bound q (fst st')). cbn [fst]. lia.
      + unfold envBody in E. destruct (envInitial q _); [discriminate|]. destruct (bf_eqb _ _); discriminate.
    - apply pow_lt_fuel; auto. lia.
    - exists r. split; auto.
      destruct (Runs_last (envBody q) Inv _ _ Hr) as ([w k] & [I1 I2] & Ed); auto.
      { intros st st' I E. now apply (St st st'). }
      cbn [fst snd] in *. unfold envBody in Ed. destruct (envInitial q (envRound q w)) eqn:EI.
      + injection Ed as <-. subst w. split; [reflexivity|]. split; [lia|]. split; [exact EI|]. intros j Hj. apply I2. lia.
      + destruct (bf_eqb_spec (envRound q w) w) as [Eq|]; [|discriminate]. injection Ed as <-. subst w. intros j Hj.
        destruct (Nat.le_gt_cases j k) as [L|L]; [apply I2; lia|].
        rewrite (iterE_stable k Eq j) by lia. now rewrite <- Eq.
  Qed.

  Lemma sysLoop_spec : exists r, run (sysBody q) (fpFuel q) (bfalse, (0, None)) = Some r /\
    match r with
    | Some k => 1 <= k /\ winsClassical q (WS k) = true /\ forall j, 1 <= j < k -> winsClassical q (WS j) = false
    | None => forall j, 1 <= j -> winsClassical q (WS j) = false
    end.
  Proof.
    set (F := fun (r : nat) (fd : option nat) => match fd with
      | Some k => 1 <= k /\ winsClassical q (WS k) = true /\ forall j, 1 <= j < k -> winsClassical q (WS j) = false
      | None => forall j, 1 <= j <= r -> winsClassical q (WS j) = false
      end).
    set (Inv := fun st : BF * (nat * option nat) => fst st = WS (fst (snd st)) /\ F (fst (snd st)) (snd (snd st))).
    set (upd := fun (r : nat) (w' : BF) (fd : option nat) => match fd with Some k => Some k | None => if winsClassical q w' then Some (S r) else None end).
    assert (FU : forall r fd, F r fd -> F (S r) (upd r (WS (S r)) fd)).
    { intros r [k|] H; cbn [upd F] in *; auto. destruct (winsClassical q (WS (S r))) eqn:EW; cbn [F].
      - split; [lia|]. split; auto. intros j Hj. apply H. lia.
      - intros j Hj. destruct (Nat.eq_dec j (S r)) as [->|]; auto. apply H. lia. }
    assert (St : forall st st', Inv st -> sysBody q st = Cont st' -> Inv st' /\ fst st' = sysRound q (fst st) /\ fst st' <> fst st).
    { intros [w [r fd]] st' [I1 I2] E. cbn [fst snd] in *. unfold sysBody in E.
      destruct (bf_eqb_spec (sysRound q w) w) as [|Ne]; [discriminate|]. injection E as <-. cbn [fst snd]. subst w. split; auto. split; auto.
      cbn [fst snd]. change (sysRound q (WS r)) with (WS (S r)). now apply FU. }
    assert (I0 : Inv (bfalse, (0, None))) by (split; [reflexivity|cbn; lia]).
    destruct (run_total (sysBody q) Inv (fun st => 2 ^ nvars q - card q (fst st)) (fpFuel q) (bfalse, (0, None))) as (r & Er & Hr); auto.
    - intros [w [r fd]] I. destruct (sysBody q (w, (r, fd))) as [st'|o|] eqn:E; auto.
      + destruct (St _ _ I E) as (I' & E1 & E2). split; auto.
        assert (card q w < card q (fst st')).
        { apply (card_lt q w (fst st') Hkq).
          - destruct I as [I _]. cbn [fst snd] in I. rewrite I. apply pre_q, pre_WS.
          - destruct I' as [-> _]. apply pre_q, pre_WS.
          - rewrite E1. apply sub_or_l.
          - cbn [fst] in *. congruence. }
        pose proof (card_bound q (fst st')). cbn [fst]. lia.
      + unfold sysBody in E. destruct (bf_eqb _ _); discriminate.
    - apply pow_lt_fuel; auto. lia.
    - exists r. split; auto.
      destruct (Runs_last (sysBody q) Inv _ _ Hr) as ([w [k fd]] & [I1 I2] & Ed); auto.
      { intros st st' I E. now apply (St st st'). }
      cbn [fst snd] in *. unfold sysBody in Ed. destruct (bf_eqb_spec (sysRound q w) w) as [Eq|]; [|discriminate]. injection Ed as <-.
      subst w. change (sysRound q (WS k)) with (WS (S k)) in *. apply FU in I2. unfold upd in I2.
      destruct (match fd with Some r => Some r | None => if winsClassical q (WS (S k)) then Some (S k) else None end) as [m|] eqn:Eu; [exact I2|].
      intros j Hj. destruct (Nat.le_gt_cases j (S k)) as [L|L]; [apply I2; lia|].
      rewrite (iterS_stable k Eq j), <- Eq by lia. apply I2. lia.
  Qed.

  (** ** Positions from which the environment cannot falsify *)
  Lemma WE_stops : exists K, envRound q (WE K) = WE K.
  Proof.
    destruct (fp_inc q Hkq (fun st : BF * unit => fpUpdate (fst st) (envRound q (fst st)) tt) (fun v _ => envRound q v) (fun _ _ => tt)
        (fun v _ => exists K, v = WE K) bfalse tt) as (v & d & (K & ->) & E & _).
    - now exists 0.
    - intros v d (K & ->). split; auto. split; [apply pre_q, pre_WE|]. split; [apply pre_q, (pre_WE (S K))|].
      split; [apply sub_WE|]. intros _. exists (S K). reflexivity.
    - eauto.
  Qed.
  Lemma safe_winning s : (forall k, pos (WE k) s = false) -> winning (only g true false true false) s.
  Proof.
    intros H0. pose proof WE_stops as ST.
    destruct ST as (K & EK). set (w := WE K). set (g' := only g true false true false).
    set (f := fun (h : list state) x => choose n (fun y => negb (envB w (hd (fun _ => false) h) x y))).
    exists f. intros x. set (pi := play_from g' f s x).
    assert (St : forall j, pos w (pi j) = false -> SE (pi j) (pi (S j)) = true -> pos w (pi (S j)) = false /\ SS (pi j) (pi (S j)) = true).
    { intros j Hj HE.
      assert (N : ~ exists x, forall y, envB w (pi j) x y = true).
      { unfold w. rewrite <- WE_step. change (WE (S K)) with (envRound q (WE K)). rewrite EK. fold w. congruence. }
      destruct (not_env _ _ (pre_WE _) N (x (S j))) as (y & Hy).
      assert (C1 : negb (envB w (pi j) (x (S j)) (f (history_from g' f s x j) (x (S j)))) = true).
      { unfold f at 1. rewrite hd_history_from. apply (choose_spec n (fun y => negb (envB w (pi j) (x (S j)) y)) y); [|unfold w; now rewrite Hy].
        intros y1 y2 Hyy. f_equal. apply envB_ext; auto. apply pre_WE. }
      change (envB w (pi j) (x (S j)) (f (history_from g' f s x j) (x (S j)))) with
        (SE (pi j) (pi (S j)) && (pos w (pi (S j)) || negb (SS (pi j) (pi (S j))))) in C1.
      rewrite HE in C1. cbn [andb] in C1. rewrite negb_orb, negb_involutive in C1. apply andb_true_iff in C1.
      destruct C1 as [C1 C2]. apply negb_true_iff in C1. auto. }
    assert (G : forall j, (forall i, i < j -> SE (pi i) (pi (S i)) = true) -> pos w (pi j) = false).
    { induction j as [|j IH]; intros Hj; [apply H0|]. apply St; [|apply Hj; lia]. apply IH. intros i Hi. apply Hj. lia. }
    split.
    - intros j Hj. cbn in Hj |- *. apply St; [|now apply Hj]. apply G. intros i Hi. apply Hj. lia.
    - intros _ _ p [].
  Qed.
  Lemma sub_WE_le k m : k <= m -> sub (WE k) (WE m).
  Proof. induction 1 as [|m H IH]; [apply sub_refl|]. eapply sub_trans; [exact IH|apply sub_WE]. Qed.
  Lemma losing_falsified : exists K, forall s, ~ winning (only g true false true false) s -> pos (WE K) s = true.
  Proof.
    destruct WE_stops as (K & EK). exists K. intros s N. destruct (pos (WE K) s) eqn:E; auto. exfalso. apply N. apply safe_winning.
    intros k. destruct (pos (WE k) s) eqn:E'; auto. rewrite <- E.
    destruct (Nat.le_gt_cases k K) as [L|L]; [symmetry; now apply (sub_WE_le k K L)|].
    now rewrite (iterE_stable K EK k) in E' by lia.
  Qed.

  Lemma loses_initially w : pre w -> winsClassical q w = false ->
    exists x, forall y, pos (initEnv c) (mrg c x y) = true /\ ~ (pos (initSys c) (mrg c x y) = true /\ pos w (mrg c x y) = true).
  Proof.
    intros D N.
    set (p := fun x => allY (fun y => pos (initEnv c) (mrg c x y) && negb (pos (initSys c) (mrg c x y) && pos w (mrg c x y)))).
    assert (E : forall x, extB n (fun y => pos (initEnv c) (mrg c x y) && negb (pos (initSys c) (mrg c x y) && pos w (mrg c x y)))).
    { intros x y y' H. assert (M : forall k, k < nvars c -> mrg c x y k = mrg c x y' k) by (intros k Hlt; unfold mrg; destruct (isOut c k); auto).
      rewrite (pos_ext c Hk _ _ _ initEnv_pre M), (pos_ext c Hk _ _ _ (wf_initSys c Hwf) M), (pos_ext c Hk _ _ _ D M). reflexivity. }
    assert (EP : extB n p).
    { intros x x' H. apply allY_ext. intros y.
      assert (M : forall k, k < nvars c -> mrg c x y k = mrg c x' y k) by (intros k Hlt; unfold mrg; destruct (isOut c k); auto).
      rewrite (pos_ext c Hk _ _ _ initEnv_pre M), (pos_ext c Hk _ _ _ (wf_initSys c Hwf) M), (pos_ext c Hk _ _ _ D M). reflexivity. }
    destruct (exv n p) eqn:X.
    - apply exv_spec in X; auto. destruct X as (x & Hx). exists x. intros y. unfold p in Hx. rewrite allY_spec in Hx by apply E.
      specialize (Hx y). apply andb_true_iff in Hx. destruct Hx as [H1 H2]. split; auto. apply negb_true_iff in H2. intros [H3 H4].
      now rewrite H3, H4 in H2.
    - exfalso. assert (winsClassical q w = true); [|congruence]. apply winsClassical_spec; auto. intros x.
      pose proof (exv_false n p EP X x) as F. unfold p, allY in F. apply negb_false_iff in F. apply exv_spec in F.
      + destruct F as (y & Hy). exists y. intros HE. rewrite HE in Hy. cbn [andb] in Hy. rewrite negb_involutive in Hy.
        now apply andb_true_iff in Hy.
      + intros y1 y2 H12. f_equal. now apply (E x).
  Qed.
End FALSIFY.

(** ** The additional variable *)
Section NONSTRICT.
  Variable c : ctx.
  Hypothesis Hwf : wf c.
  Let Hk := wf_kinds c Hwf.
  Let n := nvars c.
  Notation g := (game_of c).
  Notation g' := (game_of (nonStrict c)).
  Notation SS := (trans (safetySys c)).

  Lemma failed_kinds : exists kinds, varTypes (withFailed c) = typesOf kinds /\ forallb isPreKind kinds = true.
  Proof.
    destruct Hk as (kinds & E & F). exists (kinds ++ [PreOutput]). cbn [withFailed varTypes]. split.
    - rewrite E. unfold typesOf. rewrite flat_map_app. reflexivity.
    - now rewrite forallb_app, F.
  Qed.
  Lemma failed_length : length (varTypes (withFailed c)) = 2 * S n.
  Proof. cbn [withFailed varTypes]. rewrite app_length, (nvars_spec c Hk). cbn [length]. unfold n. lia. Qed.
  Lemma failed_nvars : nvars (withFailed c) = S n.
  Proof. unfold nvars. rewrite failed_length. apply Nat.div2_double. Qed.
  Lemma failed_out k : k < n -> isOut (withFailed c) k = isOut c k.
  Proof. intros H. unfold isOut. cbn [withFailed varTypes]. rewrite app_nth1; auto. rewrite (nvars_spec c Hk). unfold n in H. lia. Qed.
  Lemma failed_out_n : isOut (withFailed c) n = true.
  Proof.
    unfold isOut. cbn [withFailed varTypes]. rewrite app_nth2; rewrite (nvars_spec c Hk); [|unfold n; lia].
    replace (2 * n - 2 * nvars c) with 0 by (unfold n; lia). reflexivity.
  Qed.
  Lemma lift_any v : v < length (varTypes c) -> v < length (varTypes (withFailed c)).
  Proof. rewrite failed_length, (nvars_spec c Hk). unfold n. lia. Qed.
  Lemma lift_div2 v : v < length (varTypes c) -> Nat.div2 v < n.
  Proof.
    rewrite (nvars_spec c Hk). intros H. destruct (even_cases v) as [[k ->]|[k ->]]; rewrite ?Nat.div2_double, ?div2_double1; unfold n; lia.
  Qed.
  Lemma failed_wf : wf (withFailed c).
  Proof.
    assert (A : forall f, dep (isAnyV c) f -> dep (isAnyV (withFailed c)) f) by (intros f; apply dep_weaken; intros v; apply lift_any).
    constructor; [exact failed_kinds| | | | | | |exact (wf_asm_ne c Hwf)|exact (wf_gua_ne c Hwf)];
      cbn [withFailed initEnv initSys safetyEnv safetySys livenessAssumptions livenessGuarantees].
    - apply dep_weaken with (2 := wf_initEnv c Hwf). intros v [[H1 H2] H3]. split; [split; auto; now apply lift_any|].
      rewrite failed_out by now apply lift_div2. exact H3.
    - apply dep_weaken with (2 := wf_initSys c Hwf). intros v [H1 H2]. split; auto. now apply lift_any.
    - apply dep_weaken with (2 := wf_safetyEnv c Hwf). intros v [H1 H2]. split; [now apply lift_any|].
      rewrite failed_out by now apply lift_div2. exact H2.
    - apply A, (wf_safetySys c Hwf).
    - eapply Forall_impl; [exact A|apply (wf_asm c Hwf)].
    - eapply Forall_impl; [exact A|apply (wf_gua c Hwf)].
  Qed.
  Lemma failed_extends : extends c (withFailed c).
  Proof. constructor; auto; [exact failed_kinds|rewrite failed_nvars; unfold n; lia|exact failed_out]. Qed.
  Lemma nonStrict_wf : wf (nonStrict c).
  Proof.
    assert (V : dep (isAnyV (withFailed c)) (bvar (length (varTypes c)))).
    { apply dep_var. unfold isAnyV. rewrite failed_length, (nvars_spec c Hk). unfold n. lia. }
    assert (V' : dep (isAnyV (withFailed c)) (bvar (S (length (varTypes c))))).
    { apply dep_var. unfold isAnyV. rewrite failed_length, (nvars_spec c Hk). unfold n. lia. }
    pose proof failed_wf as W. constructor; [exact (wf_kinds _ W)|exact (wf_initEnv _ W)|exact (wf_initSys _ W)|exact (wf_safetyEnv _ W)
      | |exact (wf_asm _ W)| |exact (wf_asm_ne c Hwf)|].
    - cbn [nonStrict safetySys]. apply dep_xor; [now apply dep_not|]. apply dep_or; [|exact V]. apply dep_not. exact (wf_safetySys _ W).
    - cbn [nonStrict livenessGuarantees]. apply Forall_app. split; [exact (wf_gua _ W)|]. repeat constructor. now apply dep_not.
    - cbn [nonStrict livenessGuarantees]. destruct (livenessGuarantees c); discriminate.
  Qed.

  Lemma out_lt k : k < n -> g_out g' k = isOut c k.
  Proof. apply failed_out. Qed.
  Lemma out_n : g_out g' n = true.
  Proof. apply failed_out_n. Qed.
  Lemma safe_new s t : g_safeS g' s t = Bool.eqb (t n) (negb (SS s t) || s n).
  Proof.
    cbn [game_of nonStrict g_safeS safetySys]. unfold trans at 1. rewrite eval_xor, eval_not, eval_or, eval_not, !eval_var.
    replace (S (length (varTypes c))) with (2 * n + 1) by (rewrite (nvars_spec c Hk); unfold n; lia). rewrite (nvars_spec c Hk). fold n.
    rewrite tv_even, tv_odd. fold (trans (safetySys c) s t). destruct (t n), (SS s t), (s n); reflexivity.
  Qed.
  Lemma live_new p : In p (g_liveG g') <-> In p (g_liveG g) \/ p = trans (bnot (bvar (S (length (varTypes c))))).
  Proof.
    cbn [game_of nonStrict g_liveG livenessGuarantees]. rewrite map_app, in_app_iff. cbn [map In]. intuition.
  Qed.
  Lemma flag_new s t : trans (bnot (bvar (S (length (varTypes c))))) s t = negb (t n).
  Proof.
    unfold trans. rewrite eval_not, eval_var. replace (S (length (varTypes c))) with (2 * n + 1) by (rewrite (nvars_spec c Hk); unfold n; lia).
    now rewrite tv_odd.
  Qed.

  Definition agree (pi pi' : nat -> state) : Prop := forall m k, k < n -> pi m k = pi' m k.
  Lemma agree_trans f pi pi' i j : dep (isAnyV c) f -> agree pi pi' -> trans f (pi i) (pi j) = trans f (pi' i) (pi' j).
  Proof. intros D A. apply (trans_ext c Hk); auto; intros k Hlt; now apply A. Qed.
  Lemma agree_inf f pi pi' : dep (isAnyV c) f -> agree pi pi' -> inf_often (trans f) pi -> inf_often (trans f) pi'.
  Proof. intros D A H m. destruct (H m) as (i & H1 & H2). exists i. split; auto. now rewrite <- (agree_trans f pi pi'). Qed.
  Lemma agree_sym pi pi' : agree pi pi' -> agree pi' pi.
  Proof. intros A m k H. symmetry. now apply A. Qed.
  Lemma asm_dep p : In p (g_liveA g) -> exists f, p = trans f /\ dep (isAnyV c) f.
  Proof. cbn. rewrite in_map_iff. intros (f & <- & H). exists f. split; auto. pose proof (wf_asm c Hwf) as F. rewrite Forall_forall in F. auto. Qed.
  Lemma gua_dep p : In p (g_liveG g) -> exists f, p = trans f /\ dep (isAnyV c) f.
  Proof. cbn. rewrite in_map_iff. intros (f & <- & H). exists f. split; auto. pose proof (wf_gua c Hwf) as F. rewrite Forall_forall in F. auto. Qed.
  Lemma se_dep : dep (isAnyV c) (safetyEnv c).
  Proof. eapply dep_weaken; [|exact (wf_safetyEnv c Hwf)]. now intros v [H _]. Qed.

  Lemma new_implication pi pi' : agree pi pi' -> safe_and_live g' pi' -> implication g pi.
  Proof.
    intros A [HS HL] HE HA.
    assert (E' : forall m, g_safeE g' (pi' m) (pi' (S m)) = true).
    { intros m. rewrite <- (HE m). symmetry. apply (agree_trans _ pi pi'); auto. apply se_dep. }
    assert (A' : forall p, In p (g_liveA g') -> inf_often p pi').
    { intros p Hp. destruct (asm_dep p Hp) as (f & -> & D). apply (agree_inf f pi pi'); auto. }
    specialize (HL E' A').
    assert (ST : forall m, pi' (S m) n = negb (SS (pi' m) (pi' (S m))) || pi' m n).
    { intros m. assert (g_safeS g' (pi' m) (pi' (S m)) = true) as H by (apply HS; auto). rewrite safe_new in H. now apply eqb_prop in H. }
    assert (Up : forall i m, pi' m n = true -> pi' (i + m) n = true).
    { induction i as [|i IH]; intros m Hm; auto. cbn [Nat.add]. rewrite ST, (IH m Hm). apply orb_true_r. }
    assert (NF : forall m, pi' m n = false).
    { intros m. destruct (pi' m n) eqn:E; auto. exfalso.
      destruct (HL (trans (bnot (bvar (S (length (varTypes c)))))) (proj2 (live_new _) (or_intror eq_refl)) m) as (i & Hi & H).
      rewrite flag_new in H. replace (S i) with ((S i - m) + m) in H by lia. rewrite (Up _ _ E) in H. discriminate. }
    split.
    - intros m. cbn [game_of g_safeS]. rewrite (agree_trans _ pi pi') by (auto; apply (wf_safetySys c Hwf)).
      pose proof (ST m) as X. rewrite !NF in X. rewrite orb_false_r in X. symmetry in X. now apply negb_false_iff in X.
    - intros p Hp. pose proof (HL p (proj2 (live_new p) (or_introl Hp))) as H. destruct (gua_dep p Hp) as (f & -> & D).
      apply (agree_inf f pi' pi); auto. now apply agree_sym.
  Qed.

  (** Inputs in a normal form. *)
  Definition clean (x : state) : state := ofVec (map (fun k => if isOut c k then false else x k) (seq 0 n)).
  Lemma clean_eq x y : (forall k, k < n -> isOut c k = false -> x k = y k) -> clean x = clean y.
  Proof.
    intros H. unfold clean. f_equal. apply map_ext_in. intros k Hlt. apply in_seq in Hlt.
    destruct (isOut c k) eqn:E; auto. apply H; auto. lia.
  Qed.
  Lemma clean_val x k : k < n -> isOut c k = false -> clean x k = x k.
  Proof.
    intros H E. unfold clean, ofVec. rewrite nth_indep with (d' := (if isOut c 0 then false else x 0)) by (rewrite map_length, seq_length; auto).
    rewrite (map_nth (fun k => if isOut c k then false else x k) (seq 0 n) 0), seq_nth by auto. cbn [Nat.add]. now rewrite E.
  Qed.

  Section LIFT.
    Variable f' : strategy.
    Fixpoint liftP (h : list state) : list state :=
      match h with
      | [] => []
      | t :: h => merge g' (clean t) (f' (liftP h) (clean t)) :: liftP h
      end.
    Definition fA : strategy := fun h x => f' (liftP h) (clean x).
    Lemma liftP_history x m : liftP (history g fA x m) = history g' f' (fun i => clean (x i)) m.
    Proof.
      assert (CL : forall x y, clean (merge g x y) = clean x).
      { intros x0 y. apply clean_eq. intros k _ E. unfold merge. cbn [g_out game_of]. now rewrite E. }
      induction m as [|m IH]; cbn [history liftP]; rewrite CL; [|rewrite IH]; reflexivity.
    Qed.
    Lemma liftP_agree x : agree (play g fA x) (play g' f' (fun i => clean (x i))).
    Proof.
      intros m k Hlt. unfold play. rewrite <- liftP_history.
      assert (G : forall x y, merge g x y k = merge g' (clean x) y k).
      { intros x0 y. unfold merge. rewrite out_lt by auto. cbn [g_out game_of]. destruct (isOut c k) eqn:E; auto. symmetry. now apply clean_val. }
      assert (CL : forall x y, clean (merge g x y) = clean x).
      { intros x0 y. apply clean_eq. intros k0 _ E. unfold merge. cbn [g_out game_of]. now rewrite E. }
      destruct m as [|m]; cbn [history liftP hd]; rewrite CL; apply G.
    Qed.

    (** From a given position. *)
    Definition unset (s : state) : state := fun k => if k =? n then false else s k.
    Fixpoint liftF (h : list state) : list state :=
      match h with
      | [] => []
      | t :: h' => match h' with [] => [unset t] | _ => merge g' (clean t) (f' (liftF h') (clean t)) :: liftF h' end
      end.
    Definition fR : strategy := fun h x => f' (liftF h) (clean x).
    Lemma liftF_history s x m : liftF (history_from g fR s x m) = history_from g' f' (unset s) (fun i => clean (x i)) m.
    Proof.
      induction m as [|m IH]; [reflexivity|]. cbn [history_from]. rewrite <- IH. cbn [liftF].
      destruct (history_from g fR s x m) as [|t h] eqn:E; [pose proof (length_history_from g fR s x m) as L; rewrite E in L; discriminate|].
      assert (CL : forall x y, clean (merge g x y) = clean x).
      { intros x0 y. apply clean_eq. intros k _ E0. unfold merge. cbn [g_out game_of]. now rewrite E0. }
      rewrite CL. reflexivity.
    Qed.
    Lemma liftF_agree s x : agree (play_from g fR s x) (play_from g' f' (unset s) (fun i => clean (x i))).
    Proof.
      intros m k Hlt. destruct m as [|m].
      - unfold play_from, unset. cbn [history_from hd]. destruct (Nat.eqb_spec k n); [lia|]. reflexivity.
      - rewrite !play_from_S. rewrite <- liftF_history. unfold fR at 1. unfold merge. rewrite out_lt by auto. cbn [g_out game_of].
        destruct (isOut c k) eqn:E; auto. symmetry. now apply clean_val.
    Qed.
  End LIFT.

  Section LOWER.
    Variable f : strategy.
    Fixpoint lowP (h : list state) : list state :=
      match h with
      | [] => []
      | t :: h => merge g (clean t) (f (lowP h) (clean t)) :: lowP h
      end.
    Definition flagOf (h : list state) (x : state) : bool :=
      match h with
      | [] => false
      | s :: _ => negb (SS s (merge g (clean x) (f (lowP h) (clean x)))) || s n
      end.
    Definition fB : strategy := fun h x => fun k => if k =? n then flagOf h x else f (lowP h) (clean x) k.
    Lemma clean_new x y : clean (merge g' x y) = clean x.
    Proof. apply clean_eq. intros k Hlt E. unfold merge. rewrite out_lt by auto. now rewrite E. Qed.
    Lemma lowP_history x m : lowP (history g' fB x m) = history g f (fun i => clean (x i)) m.
    Proof. induction m as [|m IH]; cbn [history lowP]; rewrite clean_new; [|rewrite IH]; reflexivity. Qed.
    Lemma low_merge x h k : k < n -> merge g (clean x) (f (lowP h) (clean x)) k = merge g' x (fB h x) k.
    Proof.
      intros H. unfold merge. rewrite out_lt by auto. cbn [g_out game_of]. unfold fB. destruct (Nat.eqb_spec k n); [lia|].
      destruct (isOut c k) eqn:E; auto. now apply clean_val.
    Qed.
    Lemma lowP_agree x : agree (play g f (fun i => clean (x i))) (play g' fB x).
    Proof.
      intros m k Hlt. unfold play. rewrite <- lowP_history. destruct m as [|m]; cbn [history lowP hd]; rewrite clean_new; [apply (low_merge (x 0) [] k Hlt)|now apply low_merge].
    Qed.
    Lemma flag_start x : play g' fB x 0 n = false.
    Proof. unfold play. cbn [history hd]. unfold merge. rewrite out_n. unfold fB. now rewrite Nat.eqb_refl. Qed.
    Lemma flag_step x m : play g' fB x (S m) n = negb (SS (play g' fB x m) (play g' fB x (S m))) || play g' fB x m n.
    Proof.
      unfold play at 1. cbn [history hd]. unfold merge at 1. rewrite out_n. unfold fB at 1. rewrite Nat.eqb_refl. unfold flagOf.
      destruct (history g' fB x m) as [|t h] eqn:E; [destruct m; discriminate|].
      assert (P : play g' fB x m = t) by (unfold play; now rewrite E). rewrite P. f_equal. f_equal.
      apply (trans_ext c Hk); auto; [apply (wf_safetySys c Hwf)|]. intros k Hlt. rewrite (low_merge (x (S m)) (t :: h) k Hlt).
      unfold play. cbn [history hd]. now rewrite E.
    Qed.
  End LOWER.

  Lemma nonStrict_spec : realizable g' <-> realizable_nonstrict g.
  Proof.
    split.
    - intros (f' & Hf). exists (fA f'). intros x pi HI. pose proof (liftP_agree f' x) as A. fold pi in A.
      set (pi' := play g' f' (fun i => clean (x i))) in *.
      assert (EI : forall f, dep (isPreV c) f -> pos f (pi' 0) = pos f (pi 0)).
      { intros f D. apply (pos_ext c Hk); auto. intros k Hlt. symmetry. now apply A. }
      destruct (Hf (fun i => clean (x i))) as [H1 H2].
      { fold pi'. change (pos (initEnv c) (pi' 0) = true). rewrite EI; auto. apply (preIn_pre c). apply (wf_initEnv c Hwf). }
      fold pi' in H1, H2. split.
      + change (pos (initSys c) (pi' 0) = true) in H1. rewrite EI in H1; auto. apply (wf_initSys c Hwf).
      + now apply (new_implication pi pi').
    - intros (f & Hf). exists (fB f). intros x HI. pose proof (lowP_agree f x) as A. set (pi' := play g' (fB f) x) in *.
      set (pi := play g f (fun i => clean (x i))) in *.
      assert (EI : forall f, dep (isPreV c) f -> pos f (pi' 0) = pos f (pi 0)).
      { intros f0 D. apply (pos_ext c Hk); auto. intros k Hlt. symmetry. now apply A. }
      destruct (Hf (fun i => clean (x i))) as [H1 H2].
      { fold pi. change (pos (initEnv c) (pi 0) = true). rewrite <- EI; auto. apply (preIn_pre c). apply (wf_initEnv c Hwf). }
      fold pi in H1, H2. split.
      + change (pos (initSys c) (pi' 0) = true). rewrite EI; auto. apply (wf_initSys c Hwf).
      + split.
        * intros m _. rewrite safe_new. unfold pi'. rewrite flag_step. apply eqb_reflx.
        * intros HE HA.
          assert (E : forall m, g_safeE g (pi m) (pi (S m)) = true).
          { intros m. rewrite <- (HE m). apply (agree_trans _ pi pi'); auto. apply se_dep. }
          assert (AA : forall p, In p (g_liveA g) -> inf_often p pi).
          { intros p Hp. pose proof (HA p Hp) as H. destruct (asm_dep p Hp) as (f0 & -> & D). apply (agree_inf f0 pi' pi); auto. now apply agree_sym. }
          destruct (H2 E AA) as [HS HG].
          assert (NF : forall m, pi' m n = false).
          { induction m as [|m IH]; [apply flag_start|]. unfold pi'. rewrite flag_step. fold pi'. rewrite IH, orb_false_r.
            rewrite <- (agree_trans _ pi pi') by (auto; apply (wf_safetySys c Hwf)). now rewrite (HS m : SS (pi m) (pi (S m)) = true). }
          intros p Hp. apply live_new in Hp. destruct Hp as [Hp| ->].
          -- pose proof (HG p Hp) as H. destruct (gua_dep p Hp) as (f0 & -> & D). now apply (agree_inf f0 pi pi').
          -- intros m. exists m. split; auto. rewrite flag_new, NF. reflexivity.
  Qed.

  Lemma nonStrict_robotics : realizable_robotics g' -> realizable_nonstrict_robotics g.
  Proof.
    intros (f' & Hf). exists (fR f'). intros s x HE HS. apply (new_implication _ _ (liftF_agree f' s x)). apply Hf.
    - change (pos (initEnv c) (unset s) = true). rewrite <- HE. apply (pos_ext c Hk); [apply (preIn_pre c); apply (wf_initEnv c Hwf)|].
      intros k Hlt. unfold unset. destruct (Nat.eqb_spec k n); auto. unfold n in *. lia.
    - change (pos (initSys c) (unset s) = true). rewrite <- HS. apply (pos_ext c Hk); [apply (wf_initSys c Hwf)|].
      intros k Hlt. unfold unset. destruct (Nat.eqb_spec k n); auto. unfold n in *. lia.
  Qed.
End NONSTRICT.

(** ** The whole analysis *)
Lemma extends_refl c : wf c -> extends c c.
Proof. intros W. constructor; auto. apply (wf_kinds c W). Qed.

Definition codeEnv (g : game) (k : nat) : Prop :=
  exists x, forall y, g_initS g (merge g x y) = true -> g_initE g (merge g x y) = true /\ env_falsifies g k (merge g x y).

Section WHOLE.
  Variable c : ctx.
  Hypothesis Hwf : wf c.
  Notation g := (game_of c).

  Lemma envLoses w : exactW (row c 10) w -> winsClassical (row c 10) w = false -> exists K, env_wins_within g K.
  Proof.
    intros HX N. assert (W' : wf (row c 10)) by now apply restrictTo_wf.
    destruct (loses_initially (row c 10) (row c 10) W' (extends_refl _ W') W' w) as (x & Hx); auto; [apply HX|].
    destruct (losing_falsified c c Hwf (extends_refl _ Hwf)) as (K & HK). exists K, x.
    split; [intros y; apply (Hx y)|]. intros y HS. apply (env_falsifies_spec c c Hwf (extends_refl _ Hwf)). apply HK.
    intros WN. destruct (Hx y) as [_ F]. apply F. split; [exact HS|]. apply (exact_winning _ _ HX).
    apply (alike_winning _ _ (alike_sym _ _ (only_alike c true false true false))). exact WN.
  Qed.
  Lemma sysWins w : exactW (row c 10) w -> winsClassical (row c 10) w = true -> forall K, ~ env_wins_within g K.
  Proof.
    intros HX N K (x & HE & HF). assert (W' : wf (row c 10)) by now apply restrictTo_wf.
    assert (D : dep (isPreV (row c 10)) w) by apply HX.
    pose proof (proj1 (winsClassical_spec (row c 10) (row c 10) W' (extends_refl _ W') W' w D) N) as N'. clear N. rename N' into N.
    destruct (N x) as (y & Hy). destruct (Hy (HE y)) as [HS Hw]. apply (exact_winning _ _ HX) in Hw.
    apply (alike_winning _ _ (only_alike c true false true false)) in Hw. destruct Hw as (f & Hf).
    destruct (HF y HS f) as (xs & m & Hm & H1 & H2). destruct (Hf xs) as [H3 _].
    assert (EQ : forall j, play_from (only g true false true false) f (merge g x y) xs j = play_from g f (merge g x y) xs j).
    { intros j. unfold play_from. f_equal. induction j as [|j IH]; cbn [history_from]; auto. now rewrite IH. }
    assert (X : g_safeS g (play_from (only g true false true false) f (merge g x y) xs m)
                      (play_from (only g true false true false) f (merge g x y) xs (S m)) = true).
    { apply (H3 m). intros j Hj. change (g_safeE g (play_from (only g true false true false) f (merge g x y) xs j)
                      (play_from (only g true false true false) f (merge g x y) xs (S j)) = true). rewrite !EQ. now apply H1. }
    rewrite !EQ in X. congruence.
  Qed.

  Lemma codeEnv_spec q (Q : extends c q) (Hwfq : wf q) k : envInitial q (WE q k) = true <-> codeEnv g k.
  Proof.
    rewrite (envInitial_spec c q Hwf Q Hwfq) by apply (pre_WE c q Hwf Q). unfold codeEnv.
    split; intros (x & Hx); exists x; intros y HS; destruct (Hx y HS) as [H1 H2]; (split; [exact H1|]);
      now apply (env_falsifies_spec c q Hwf Q).
  Qed.
  Lemma codeSys_spec q (Q : extends c q) (Hwfq : wf q) k : winsClassical q (WS q k) = true <-> sys_wins_within g k.
  Proof.
    rewrite (winsClassical_spec c q Hwf Q Hwfq) by apply (pre_WS c q Hwf Q). unfold sys_wins_within.
    split; intros Hx x; destruct (Hx x) as (y & Hy); exists y; intros HE; destruct (Hy HE) as [H1 H2]; (split; [exact H1|]);
      now apply (sys_falsifies_spec c q Hwf Q).
  Qed.

  Lemma sysFalsify_spec q (Q : extends c q) (Hwfq : wf q) : exists r, sysFalsify q = Some r /\
    ((exists k, r = SysCan k /\ least (sys_wins_within g) k) \/ (r = SysCannot /\ forall k, 1 <= k -> ~ sys_wins_within g k)).
  Proof.
    unfold sysFalsify. destruct (sysLoop_spec c q Hwf Q) as ([k|] & -> & H).
    - exists (SysCan k). split; auto. left. exists k. split; auto. destruct H as (H1 & H2 & H3). split; auto. split.
      + now apply (codeSys_spec q Q Hwfq).
      + intros j Hj F. apply (codeSys_spec q Q Hwfq) in F. rewrite H3 in F by auto. discriminate.
    - exists SysCannot. split; auto. right. split; auto. intros k Hk F. apply (codeSys_spec q Q Hwfq) in F. rewrite H in F by auto. discriminate.
  Qed.
  Lemma envFalsify_spec q (Q : extends c q) (Hwfq : wf q) K : env_wins_within g K -> exists k b, envFalsify q = Some (EnvCan k b) /\
    least (codeEnv g) k /\ (b = true <-> forall s, g_initE g s = true -> g_initS g s = true -> ~ env_falsifies g k s).
  Proof.
    intros HK. unfold envFalsify. destruct (envLoop_spec c q Hwf Q) as ([[w k]|] & -> & H).
    - destruct H as (-> & H1 & H2 & H3). do 2 eexists. split; [reflexivity|]. split.
      + split; auto. split; [now apply (codeEnv_spec q Q Hwfq)|]. intros j Hj F. apply (codeEnv_spec q Q Hwfq) in F. rewrite H3 in F by auto. discriminate.
      + rewrite (ex_initEnv c q Q), (ex_initSys c q Q). rewrite isFalse_spec. split.
        * intros F s HE HS HF. apply (env_falsifies_spec c q Hwf Q) in HF. specialize (F (tv s s)).
          rewrite !eval_and in F. change (pos (initEnv c) s && pos (initSys c) s && pos (WE q k) s = false) in F.
          change (pos (initEnv c) s = true) in HE. change (pos (initSys c) s = true) in HS. rewrite HE, HS, HF in F. discriminate.
        * intros F e. destruct (eval _ e) eqn:E; auto. exfalso. set (s := fun j => e (2 * j)).
          assert (D : dep (isPreV c) (band (band (initEnv c) (initSys c)) (WE q k))).
          { apply dep_and; [apply dep_and; [apply (initEnv_pre c Hwf)|apply (wf_initSys c Hwf)]|apply (pre_WE c q Hwf Q)]. }
          assert (P : pos (band (band (initEnv c) (initSys c)) (WE q k)) s = true).
          { rewrite <- E. apply D. intros v [Hv Ev]. destruct (even_cases v) as [[j ->]|[j ->]]; [|rewrite even_double1 in Ev; discriminate].
            now rewrite tv_even. }
          rewrite !pos_and, !andb_true_iff in P. destruct P as [[P1 P2] P3]. apply (F s P1 P2). now apply (env_falsifies_spec c q Hwf Q).
    - exfalso. assert (envInitial q (WE q (S K)) = true); [|rewrite H in *; [discriminate|lia]]. apply (codeEnv_spec q Q Hwfq).
      destruct HK as (x & HE & HF). exists x. intros y HS. split; auto. specialize (HF y HS).
      apply (env_falsifies_spec c q Hwf Q) in HF. apply (env_falsifies_spec c q Hwf Q).
      now apply (sub_WE q).
  Qed.

  Lemma interaction_spec : exists ia, interactionOf c = Some ia /\
    (length (ia_rows ia) = 16 /\ forall i r, nth_error (ia_rows ia) i = Some r ->
       let g' := only g (Nat.testbit i 3) (Nat.testbit i 2) (Nat.testbit i 1) (Nat.testbit i 0) in
       (fst r = true <-> realizable g') /\ (snd r = true <-> realizable_robotics g')) /\
    match ia_nonStrict ia with
    | None => realizable g /\ realizable_robotics g
    | Some (cl, ro) => (~ realizable g \/ ~ realizable_robotics g) /\
        (cl = true <-> realizable_nonstrict g /\ ~ realizable g) /\
        (ro = true -> realizable_nonstrict_robotics g /\ ~ realizable_robotics g)
    end /\
    match ia_falsify ia with
    | EnvCan k b => ~ realizable (only g true false true false) /\ (exists K, env_wins_within g K) /\ least (codeEnv g) k /\
        (b = true <-> forall s, g_initE g s = true -> g_initS g s = true -> ~ env_falsifies g k s)
    | EnvCannot => False
    | SysCan k => realizable (only g true false true false) /\ (forall K, ~ env_wins_within g K) /\ least (sys_wins_within g) k
    | SysCannot => realizable (only g true false true false) /\ (forall K, ~ env_wins_within g K) /\ forall k, 1 <= k -> ~ sys_wins_within g k
    end.
  Proof.
    unfold interactionOf. destruct (rowLoop_spec c Hwf (seq 0 16)) as (rows & -> & L & H). rewrite seq_length in L.
    assert (HR : forall i r, nth_error rows i = Some r -> nth_error (seq 0 16) i = Some i).
    { intros i r E. assert (i < 16) by (rewrite <- L; apply nth_error_Some; congruence).
      rewrite (nth_error_nth' _ 0) by (rewrite seq_length; auto). now rewrite seq_nth. }
    assert (N : forall i, i < 16 -> exists r, nth_error rows i = Some r /\ nth i rows (false, false) = r).
    { intros i Hi. exists (nth i rows (false, false)). split; auto. apply nth_error_nth'. lia. }
    destruct (N 15) as ([cl15 ro15] & E15 & ->); [lia|]. destruct (N 10) as ([cl10 ro10] & E10 & ->); [lia|].
    destruct (H 15 15 _ (HR _ _ E15) E15) as (C15 & R15 & _). destruct (H 10 10 _ (HR _ _ E10) E10) as (C10 & _ & w & HX & Ew).
    cbn [fst snd] in *.
    set (q := if negb cl15 || negb ro15 then withFailed c else c).
    assert (Q : extends c q) by (unfold q; destruct (_ || _); [now apply failed_extends|now apply extends_refl]).
    assert (Hwfq : wf q) by (unfold q; destruct (_ || _); auto; now apply failed_wf).
    assert (HF : exists fa, (if cl10 then sysFalsify q else envFalsify q) = Some fa /\
      match fa with
      | EnvCan k b => ~ realizable (only g true false true false) /\ (exists K, env_wins_within g K) /\ least (codeEnv g) k /\
          (b = true <-> forall s, g_initE g s = true -> g_initS g s = true -> ~ env_falsifies g k s)
      | EnvCannot => False
      | SysCan k => realizable (only g true false true false) /\ (forall K, ~ env_wins_within g K) /\ least (sys_wins_within g) k
      | SysCannot => realizable (only g true false true false) /\ (forall K, ~ env_wins_within g K) /\ forall k, 1 <= k -> ~ sys_wins_within g k
      end).
    { destruct cl10.
      - assert (R : realizable (only g true false true false)) by now apply C10.
        pose proof (sysWins w HX (eq_sym Ew)) as SW.
        destruct (sysFalsify_spec q Q Hwfq) as (r & -> & [(k & -> & Hl)|[-> Hn]]); eexists; (split; [reflexivity|]); (split; [exact R|split; [exact SW|assumption]]).
      - destruct (envLoses w HX (eq_sym Ew)) as (K & HK). destruct (envFalsify_spec q Q Hwfq K HK) as (k & b & -> & H1 & H2).
        eexists. split; [reflexivity|]. split; [intros R; apply C10 in R; discriminate|]. split; [now exists K|]. split; auto. }
    destruct HF as (fa & -> & HF).
    destruct (negb cl15 || negb ro15) eqn:EX.
    - destruct (bothSemantics_spec (nonStrict c) (nonStrict_wf c Hwf)) as (cl & ro & w' & -> & _ & _ & B1 & B2).
      eexists. split; [reflexivity|]. cbn [ia_rows ia_nonStrict ia_falsify]. split; [|split; [|exact HF]].
      + split; auto. intros i r E. destruct (H i i r (HR _ _ E) E) as (H1 & H2 & _). auto.
      + split; [|split].
        * apply orb_true_iff in EX. destruct EX as [X|X]; apply negb_true_iff in X; subst; [left|right].
          -- intros R. apply C15 in R. discriminate.
          -- intros R. apply R15 in R. discriminate.
        * rewrite andb_true_iff, negb_true_iff, B1, (nonStrict_spec c Hwf). split; intros [H1 H2]; split; auto.
          -- intros R. apply C15 in R. congruence.
          -- destruct cl15; auto. exfalso. apply H2. now apply C15.
        * rewrite andb_true_iff, negb_true_iff. intros [H1 H2]. split; [apply nonStrict_robotics; auto; now apply B2|].
          intros R. apply R15 in R. congruence.
    - eexists. split; [reflexivity|]. cbn [ia_rows ia_nonStrict ia_falsify]. split; [|split; [|exact HF]].
      + split; auto. intros i r E. destruct (H i i r (HR _ _ E) E) as (H1 & H2 & _). auto.
      + apply orb_false_iff in EX. destruct EX as [X Y]. apply negb_false_iff in X, Y. split; [now apply C15|now apply R15].
  Qed.
End WHOLE.
