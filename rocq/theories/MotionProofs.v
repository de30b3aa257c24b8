(** * Correctness of --nonDeterministicMotion *)

From Coq Require Import Arith List Bool Lia.
From Verif Require Import BDD Loop Spec VarTypes Synth Sem FixBase GameSound SynthProofs Verdict InterleaveProofs CoreGame CoreProofs Motion MotionSpec.
Import ListNotations.

Definition motKind (t : VariableType) : bool := vt_eqb t PreInput || vt_eqb t PreMotionState || vt_eqb t PreMotionControlOutput.
(** The variables of the motion state. *)
Definition isMot (c : ctx) (k : nat) : bool := inherits (nth (2 * k) (varTypes c) NoneVariableType) PreMotionState.

Record wfM (c : ctx) (robot : BF) : Prop := mkWfM {
  wfM_kinds : exists kinds, varTypes c = typesOf kinds /\ forallb motKind kinds = true;
  wfM_initEnv : dep (isPreInV c) (initEnv c);
  wfM_initSys : dep (isPreV c) (initSys c);
  wfM_safetyEnv : dep (isPrePostInV c) (safetyEnv c);
  wfM_safetySys : dep (isAnyV c) (safetySys c);
  wfM_asm : Forall (dep (isAnyV c)) (livenessAssumptions c);
  wfM_gua : Forall (dep (isAnyV c)) (livenessGuarantees c);
  wfM_robot : dep (isAnyV c) robot
}.

Lemma m_sl_ext g mot robot pi pi' : (forall n, pi n = pi' n) -> m_safe_and_live g mot robot pi -> m_safe_and_live g mot robot pi'.
Proof.
  intros E [H1 H2]. split.
  - intros n. rewrite <- !E. intros Hn. apply H1. intros i Hi. rewrite !E. auto.
  - intros HE HA HM p Hp n. destruct (H2) with (p := p) (n := n) as (m & L & M); auto.
    + intros i. rewrite !E. apply HE.
    + intros q Hq i. destruct (HA q Hq i) as (k & Lk & Ek). exists k. rewrite !E. auto.
    + intros i. destruct (HM i) as (k & Lk & Ek). exists k. rewrite !E. auto.
    + exists m. rewrite <- !E. auto.
Qed.

Section MOT.
  Variable c0 : ctx.
  Variable robot : BF.
  Hypothesis Hwf : wfM c0 robot.
  Local Notation c := (addAuto c0 robot).
  Local Notation pre := (dep (isPreV c)).
  Local Notation any := (dep (isAnyV c)).

  Lemma mkinds : exists kinds, varTypes c = typesOf kinds /\ forallb isPreKind kinds = true.
  Proof.
    destruct (wfM_kinds _ _ Hwf) as (kinds & E & F). exists kinds. split; auto. rewrite forallb_forall in *.
    intros t Ht. specialize (F t Ht). now destruct t.
  Qed.
  Let Hk := mkinds.

  Lemma type_cases k : k < nvars c -> In (nth (2 * k) (varTypes c) NoneVariableType) [PreInput; PreMotionState; PreMotionControlOutput].
  Proof.
    intros L. destruct (wfM_kinds _ _ Hwf) as (kinds & E & F). change (varTypes c) with (varTypes c0). rewrite E, nth_typesOf_even.
    rewrite forallb_forall in F. assert (Hin : In (nth k kinds NoneVariableType) kinds).
    { apply nth_In. pose proof (nvars_spec c Hk) as N. change (varTypes c) with (varTypes c0) in N. rewrite E, length_typesOf in N. lia. }
    specialize (F _ Hin). destruct (nth k kinds NoneVariableType); try discriminate; cbn; auto.
  Qed.
  Lemma type_big k : nvars c <= k -> nth (2 * k) (varTypes c) NoneVariableType = NoneVariableType.
  Proof. intros L. apply nth_overflow. rewrite (nvars_spec c Hk). lia. Qed.

  Lemma isMot_lt k : isMot c k = true -> k < nvars c.
  Proof. intros E. destruct (Nat.lt_ge_cases k (nvars c)) as [L|L]; auto. unfold isMot in E. rewrite type_big in E by auto. discriminate. Qed.
  Lemma isMot_out k : isMot c k = true -> isOut c k = true.
  Proof.
    intros E. pose proof (type_cases k (isMot_lt k E)) as T. unfold isMot, isOut in *.
    destruct T as [T|[T|[T|[]]]]; rewrite <- T in *; auto; discriminate.
  Qed.

  (** The cubes. *)
  Lemma in_motion v : In v (varCubePostMotionState c) <-> exists k, v = 2 * k + 1 /\ isMot c k = true.
  Proof.
    unfold varCubePostMotionState. rewrite in_varsOf, (nvars_spec c Hk). split.
    - intros (L & ty & [<-|[]] & H). destruct (even_cases v) as [[k ->]|[k ->]].
      + exfalso. destruct (type_cases k ltac:(lia)) as [T|[T|[T|[]]]]; rewrite <- T in H; discriminate.
      + exists k. split; auto. unfold isMot. rewrite (type_odd c Hk) in H.
        destruct (type_cases k ltac:(lia)) as [T|[T|[T|[]]]]; rewrite <- T in *; auto; discriminate.
    - intros (k & -> & E). pose proof (isMot_lt k E). split; [lia|]. exists PostMotionState. split; [now left|].
      rewrite (type_odd c Hk). unfold isMot in E. destruct (type_cases k ltac:(lia)) as [T|[T|[T|[]]]]; rewrite <- T in *; auto; discriminate.
  Qed.
  Lemma in_control v : In v (varCubePostControllerOutput c) <-> exists k, v = 2 * k + 1 /\ isOut c k && negb (isMot c k) = true.
  Proof.
    unfold varCubePostControllerOutput. rewrite in_varsOf, (nvars_spec c Hk). split.
    - intros (L & ty & [<-|[]] & H). destruct (even_cases v) as [[k ->]|[k ->]].
      + exfalso. destruct (type_cases k ltac:(lia)) as [T|[T|[T|[]]]]; rewrite <- T in H; discriminate.
      + exists k. split; auto. unfold isMot, isOut. rewrite (type_odd c Hk) in H.
        destruct (type_cases k ltac:(lia)) as [T|[T|[T|[]]]]; rewrite <- T in *; auto; discriminate.
    - intros (k & -> & E). assert (L : k < nvars c).
      { destruct (Nat.lt_ge_cases k (nvars c)) as [L|L]; auto. rewrite (isOut_big c Hk) in E by auto. discriminate. }
      split; [lia|]. exists PostMotionControlOutput. split; [now left|].
      rewrite (type_odd c Hk). unfold isMot, isOut in E. destruct (type_cases k L) as [T|[T|[T|[]]]]; rewrite <- T in *; auto; discriminate.
  Qed.
  Lemma in_input v : In v (varCubePostInput c) <-> exists k, v = 2 * k + 1 /\ (k <? nvars c) && negb (isOut c k) = true.
  Proof.
    rewrite (in_PostInput c Hk). split; intros (k & E).
    - exists k. destruct E as (-> & L & O). split; auto. rewrite O. apply Nat.ltb_lt in L. now rewrite L.
    - exists k. destruct E as (-> & E). apply andb_true_iff in E. destruct E as [L O]. apply Nat.ltb_lt in L. apply negb_true_iff in O. auto.
  Qed.

  Hint Resolve isPre_isAny dep_true dep_false dep_and dep_or dep_not dep_imp : core.
  Local Lemma any_safeE : any (safetyEnv c).
  Proof. apply (dep_Se c (wfM_safetyEnv _ _ Hwf)). Qed.
  Local Lemma any_robot : any robot.
  Proof. exact (wfM_robot _ _ Hwf). Qed.
  Local Lemma any_allowed : any (robotAllowedMoves c robot).
  Proof. unfold robotAllowedMoves. eapply dep_exists; [apply any_robot|auto]. Qed.
  Hint Resolve any_safeE any_robot any_allowed : core.

  (** ** The robot *)
  Definition allowedB (s t : state) : bool := trans (robotAllowedMoves c robot) s t.
  Lemma allowed_spec s t : allowedB s t = true <-> possible (isMot c) (trans robot) s t.
  Proof.
    unfold allowedB, robotAllowedMoves. rewrite (ex_cube _ (isMot c) _ _ _ in_motion). split; intros (t' & H1 & H2); exists t'; auto.
  Qed.

  Definition nxtM (mv : state * state) (rho : state -> state) : state := m_next (game_of c) (isMot c) (fst mv) (snd mv) (rho (fst mv)).
  Definition sEM : tset := fun s t => trans (safetyEnv c) s t && (trans robot s t || negb (allowedB s t)).

  (** The safety assumptions do not depend on what the system and the robot do. *)
  Lemma safeE_m s x r y r' y' : trans (safetyEnv c) s (m_next (game_of c) (isMot c) x r y) = trans (safetyEnv c) s (m_next (game_of c) (isMot c) x r' y').
  Proof.
    unfold trans. apply (wfM_safetyEnv _ _ Hwf). intros v [_ [E|E]]; unfold tv.
    - now rewrite E.
    - destruct (Nat.even v); auto. unfold m_next. change (g_out (game_of c)) with (isOut c). change (isOut c0) with (isOut c) in E.
      destruct (isMot c (Nat.div2 v)) eqn:M; [apply isMot_out in M; congruence|]. now rewrite E.
  Qed.
  Lemma allowed_m s x r y r' : allowedB s (m_next (game_of c) (isMot c) x r y) = allowedB s (m_next (game_of c) (isMot c) x r' y).
  Proof.
    apply eq_true_iff_eq. rewrite !allowed_spec. split; intros (t & H1 & H2); exists t; split; auto;
      intros k E; rewrite H1 by auto; unfold m_next; now rewrite E.
  Qed.

  (** ** The enforceable predecessor *)
  Definition goodAct (T : BF) (s x y : state) : Prop :=
    forall r, let t := m_next (game_of c) (isMot c) x r y in
      trans (safetyEnv c) s t = true -> allowedB s t = true /\ (trans robot s t = true -> trans T s t = true).

  Definition bodyM (T : BF) : BF := bimp (safetyEnv c) (band (robotAllowedMoves c robot) (bforall (varCubePostMotionState c) (bimp robot T))).
  Local Lemma any_bodyM T : any T -> any (bodyM T).
  Proof. intros D. unfold bodyM. repeat (apply dep_imp || apply dep_and); auto. eapply dep_forall; [|intros v H _; exact H]; auto. Qed.
  Hint Resolve any_bodyM : core.
  Local Lemma tr_ext f s t t' : any f -> (forall k, k < nvars c -> t k = t' k) -> trans f s t = trans f s t'.
  Proof. intros. now apply (trans_ext c Hk). Qed.

  Lemma bodyM_spec T s x y r : any T -> trans (bodyM T) s (m_next (game_of c) (isMot c) x r y) = true <-> goodAct T s x y.
  Proof.
    intros D. unfold bodyM. rewrite trans_imp, trans_and. split.
    - intros H r' t Ht. unfold t in *. rewrite (safeE_m s x r y r' y), Ht in H. cbn [implb] in H. apply andb_true_iff in H. destruct H as [H1 H2].
      split; [rewrite (allowed_m s x r' y r); exact H1|]. intros HR. rewrite (fa_cube _ (isMot c) _ _ _ in_motion) in H2.
      specialize (H2 (m_next (game_of c) (isMot c) x r' y)). rewrite trans_imp, HR in H2. apply H2. intros k Ek. unfold m_next. now rewrite Ek.
    - intros H. destruct (trans (safetyEnv c) s _) eqn:ES; auto. cbn [implb]. apply andb_true_iff. split.
      + now apply (H r).
      + apply (fa_cube _ (isMot c) _ _ _ in_motion). intros t Ht. rewrite trans_imp. destruct (trans robot s t) eqn:ER; auto. cbn [implb].
        assert (Et : forall k, m_next (game_of c) (isMot c) x t y k = t k).
        { intros k. unfold m_next. destruct (isMot c k) eqn:M; auto. rewrite Ht by auto. unfold m_next. now rewrite M. }
        rewrite <- (tr_ext T s (m_next (game_of c) (isMot c) x t y) t) by auto. apply (H t).
        * now rewrite (safeE_m s x t y r y).
        * rewrite <- ER. apply tr_ext; auto.
  Qed.

  Definition goodIn (T : BF) (s x : state) : bool := trans (bexists (varCubePostControllerOutput c) (bodyM T)) s (m_next (game_of c) (isMot c) x s s).
  Lemma goodIn_spec T s x : any T -> goodIn T s x = true <-> exists y, goodAct T s x y.
  Proof.
    intros D. unfold goodIn. rewrite (ex_cube _ _ _ _ _ in_control). split.
    - intros (t & H1 & H2). exists t. apply (bodyM_spec T s x t t D). rewrite <- H2. apply tr_ext; auto. intros k L. unfold m_next.
      change (g_out (game_of c)) with (isOut c). destruct (isMot c k) eqn:M; auto. destruct (isOut c k) eqn:O; auto.
      rewrite H1 by now rewrite O. unfold m_next. rewrite M. change (g_out (game_of c)) with (isOut c). now rewrite O.
    - intros (y & Hy). exists (m_next (game_of c) (isMot c) x s y). split; [|now apply bodyM_spec].
      intros k Ek. unfold m_next. change (g_out (game_of c)) with (isOut c). destruct (isMot c k), (isOut c k); auto; discriminate.
  Qed.

  Lemma coxM_spec T s : any T -> (pos (coxM c robot T) s = true <-> forall x, goodIn T s x = true).
  Proof.
    intros D. unfold coxM, pos, goodIn. fold (bodyM T). fold (trans (bforall (varCubePostInput c) (bexists (varCubePostControllerOutput c) (bodyM T))) s s).
    assert (DB : any (bexists (varCubePostControllerOutput c) (bodyM T))) by (eapply dep_exists; [|intros v H _; exact H]; auto).
    rewrite (fa_cube _ _ _ _ _ in_input). split.
    - intros H x. specialize (H (fun k => if (k <? nvars c) && negb (isOut c k) then x k else s k)).
      rewrite <- H by (intros k Ek; now rewrite Ek). apply tr_ext; auto. intros k L. unfold m_next. change (g_out (game_of c)) with (isOut c).
      apply Nat.ltb_lt in L. rewrite L. destruct (isMot c k) eqn:M; [now rewrite (isMot_out k M)|]. now destruct (isOut c k).
    - intros H t H1. rewrite <- (H t). apply tr_ext; auto. intros k L. unfold m_next. change (g_out (game_of c)) with (isOut c).
      destruct (isMot c k) eqn:M; [apply H1; rewrite (isMot_out k M); now rewrite andb_false_r|].
      destruct (isOut c k) eqn:O; auto. apply H1. now rewrite O, andb_false_r.
  Qed.

  Lemma pre_coxM T : any T -> pre (coxM c robot T).
  Proof.
    intros D. unfold coxM. fold (bodyM T).
    assert (DB : dep (fun v => isAnyV c v /\ ~ In v (varCubePostMotionState c)) (bodyM T)).
    { unfold bodyM. apply dep_imp; [|apply dep_and].
      - eapply dep_weaken; [|exact (wfM_safetyEnv _ _ Hwf)]. intros v [L E]. split; auto. intros HM. apply in_motion in HM. destruct HM as (k & -> & M).
        destruct E as [E|E]; [rewrite even_double1 in E; discriminate|].
        replace (2 * k + 1) with (S (2 * k)) in E by lia. rewrite Nat.div2_succ_double in E. apply isMot_out in M. change (isOut c k) with (isOut c0 k) in M. congruence.
      - unfold robotAllowedMoves. eapply dep_exists; [apply any_robot|]. auto.
      - eapply dep_forall; [|intros v H1 H2; split; [exact H1|exact H2]]. auto. }
    eapply dep_forall; [eapply dep_exists; [exact DB|intros v H1 H2; exact (conj H1 H2)]|].
    intros v ((L & H1) & H2) H3. split; auto. destruct (even_cases v) as [[k ->]|[k ->]]; [apply even_double|exfalso].
    assert (Lk : k < nvars c) by (unfold isAnyV in L; rewrite (nvars_spec c Hk) in L; lia).
    destruct (isMot c k) eqn:M; [apply H1, in_motion; eauto|].
    destruct (isOut c k) eqn:O; [apply H2, in_control; exists k; now rewrite O, M|].
    apply H3, in_input. exists k. apply Nat.ltb_lt in Lk. now rewrite Lk, O.
  Qed.

  (** ** Choices of the players *)
  Definition search (p : state -> bool) (d : state) : state :=
    match find (fun l => p (ofVec l)) (vectors (nvars c)) with Some l => ofVec l | None => d end.
  Lemma search_spec p d : (forall s s', (forall k, k < nvars c -> s k = s' k) -> p s = p s') -> (exists s, p s = true) -> p (search p d) = true.
  Proof.
    intros E (s & Hs). unfold search. destruct (find _ _) as [l|] eqn:F.
    - now apply find_some in F.
    - exfalso. pose proof (find_none _ _ F _ (toVec_in (nvars c) s)) as N. cbv beta in N.
      rewrite (E _ s) in N; [congruence|]. intros k L. now apply ofVec_toVec.
  Qed.

  Definition replyM (T : BF) (s x : state) : state := search (fun y => trans (bodyM T) s (m_next (game_of c) (isMot c) x s y)) s.
  Definition badStep (T : BF) (s t : state) : bool :=
    trans (safetyEnv c) s t && (negb (allowedB s t) || trans robot s t && negb (trans T s t)).
  Definition pickM (T : BF) (s : state) (rho : state -> state) : state * state :=
    let x := search (fun x => negb (goodIn T s x)) s in (x, search (fun r => badStep T s (m_next (game_of c) (isMot c) x r (rho x))) s).

  Lemma replyM_good T s x : any T -> pos (coxM c robot T) s = true -> goodAct T s x (replyM T s x).
  Proof.
    intros D H. apply (bodyM_spec T s x (replyM T s x) s D).
    apply (search_spec (fun y => trans (bodyM T) s (m_next (game_of c) (isMot c) x s y)) s).
    - intros y y' E. apply tr_ext; auto. intros k L. unfold m_next. now rewrite E.
    - pose proof (proj1 (coxM_spec T s D) H x) as G. apply goodIn_spec in G; auto. destruct G as (y & Hy). exists y. now apply bodyM_spec.
  Qed.

  Lemma HreplyM T s : any T -> pos (coxM c robot T) s = true -> forall mv,
    sEM s (nxtM mv (replyM T s)) = true -> trans T s (nxtM mv (replyM T s)) && allowedB s (nxtM mv (replyM T s)) = true.
  Proof.
    intros D H [x r] HE. unfold sEM in HE. apply andb_true_iff in HE. destruct HE as [H1 H2].
    destruct (replyM_good T s x D H r H1) as [A B]. unfold nxtM in *. cbn [fst snd] in *. rewrite A in H2. cbn [negb] in H2. rewrite orb_false_r in H2.
    now rewrite A, (B H2).
  Qed.

  Lemma goodIn_ext T s x x' : any T -> (forall k, k < nvars c -> x k = x' k) -> goodIn T s x = goodIn T s x'.
  Proof.
    intros D E. unfold goodIn. apply tr_ext; [eapply dep_exists; [|intros v H _; exact H]; auto|]. intros k L. unfold m_next. now rewrite E.
  Qed.
  Lemma badStep_ext T s t t' : any T -> (forall k, k < nvars c -> t k = t' k) -> badStep T s t = badStep T s t'.
  Proof. intros D E. unfold badStep, allowedB. now rewrite !(fun f H => tr_ext f s t t' H E) by auto. Qed.

  Lemma pickM_bad T s rho : any T -> pos (coxM c robot T) s = false -> badStep T s (nxtM (pickM T s rho) rho) = true.
  Proof.
    intros D H. unfold pickM, nxtM. cbn [fst snd]. set (x := search (fun x => negb (goodIn T s x)) s).
    assert (Hx : negb (goodIn T s x) = true).
    { unfold x. apply (search_spec (fun x => negb (goodIn T s x)) s).
      - intros a b E. f_equal. now apply goodIn_ext.
      - destruct (find (fun l => negb (goodIn T s (ofVec l))) (vectors (nvars c))) as [l|] eqn:F.
        + exists (ofVec l). now apply find_some in F.
        + exfalso. rewrite <- not_true_iff_false in H. apply H. apply coxM_spec; auto. intros y.
          pose proof (find_none _ _ F _ (toVec_in (nvars c) y)) as N. cbv beta in N. apply negb_false_iff in N. rewrite <- N.
          apply goodIn_ext; auto. intros k L. symmetry. now apply ofVec_toVec. }
    apply negb_true_iff in Hx.
    apply (search_spec (fun r => badStep T s (m_next (game_of c) (isMot c) x r (rho x))) s).
    - intros a b E. apply badStep_ext; auto. intros k L. unfold m_next. now rewrite E.
    - destruct (find (fun l => badStep T s (m_next (game_of c) (isMot c) x (ofVec l) (rho x))) (vectors (nvars c))) as [l|] eqn:F.
      + exists (ofVec l). now apply find_some in F.
      + exfalso. rewrite <- not_true_iff_false in Hx. apply Hx. apply goodIn_spec; auto. exists (rho x). intros r.
        pose proof (find_none _ _ F _ (toVec_in (nvars c) r)) as N. cbv beta in N.
        rewrite (badStep_ext T s _ (m_next (game_of c) (isMot c) x r (rho x))) in N
          by (auto; intros k L; unfold m_next; destruct (isMot c k); auto; now apply ofVec_toVec).
        intros t Ht. unfold badStep in N. fold t in N. rewrite Ht in N. cbn [andb] in N. apply orb_false_iff in N. destruct N as [N1 N2].
        apply negb_false_iff in N1. split; auto. intros HR. rewrite HR in N2. cbn [andb] in N2. now apply negb_false_iff.
  Qed.

  Lemma HpickM T s : any T -> pos (coxM c robot T) s = false -> forall rho,
    sEM s (nxtM (pickM T s rho) rho) = true /\ trans T s (nxtM (pickM T s rho) rho) && allowedB s (nxtM (pickM T s rho) rho) = false.
  Proof.
    intros D H rho. pose proof (pickM_bad T s rho D H) as B. set (t := nxtM _ _) in *. unfold badStep in B. unfold sEM.
    destruct (trans (safetyEnv c) s t), (allowedB s t), (trans robot s t), (trans T s t); cbn in *; auto.
  Qed.

  (** ** The assumption on motion *)
  Lemma motion_vectors : Forall2 (fun x y => exists k, x = 2 * k /\ y = 2 * k + 1) (motionVectorPre c) (motionVectorPost c).
  Proof.
    apply (swap_lists c Hk). intros k L. rewrite (type_odd c Hk).
    destruct (type_cases k L) as [T|[T|[T|[]]]]; rewrite <- T; cbn; auto.
  Qed.

  Lemma in_combine_vectors k : (exists j, In (2 * k, j) (combine (motionVectorPre c) (motionVectorPost c))) <-> In (2 * k) (motionVectorPre c).
  Proof.
    pose proof motion_vectors as F. induction F as [|x y xs ys (k' & -> & ->) F IH]; cbn [combine In].
    - split; [intros (j & [])|intros []].
    - split.
      + intros (j & [E|H]); [injection E as E _; left; lia|right; apply IH; eauto].
      + intros [E|H]; [exists (2 * k' + 1); left; f_equal; lia|]. apply IH in H. destruct H as (j & H). eauto.
  Qed.
  Lemma combine_vectors i j : In (i, j) (combine (motionVectorPre c) (motionVectorPost c)) -> exists k, i = 2 * k /\ j = 2 * k + 1 /\ In (2 * k) (motionVectorPre c).
  Proof.
    pose proof motion_vectors as F. induction F as [|x y xs ys (k' & -> & ->) F IH]; cbn [combine In]; [intros []|].
    intros [E|H]; [injection E as <- <-; exists k'; auto|]. destruct (IH H) as (k & E1 & E2 & E3). exists k. auto.
  Qed.
  Lemma in_motionPre k : In (2 * k) (motionVectorPre c) <-> isMot c k = true.
  Proof.
    unfold motionVectorPre. rewrite in_varsOf, (nvars_spec c Hk). unfold isMot. split.
    - intros (_ & ty & [<-|[]] & H). exact H.
    - intros H. split; [pose proof (isMot_lt k H); lia|]. exists PreMotionState. split; [now left|auto].
  Qed.

  Lemma differs_spec s t : trans (motionDiffers c) s t = true <-> moved (isMot c) s t.
  Proof.
    unfold motionDiffers.
    assert (G : forall l acc, trans (fold_left (fun acc '(i, j) => bor acc (bxor (bvar i) (bvar j))) l acc) s t = true <->
      trans acc s t = true \/ exists i j, In (i, j) l /\ xorb (tv s t i) (tv s t j) = true).
    { induction l as [|[i j] l IH]; intros acc; cbn [fold_left].
      - split; [auto|]. intros [H|(i & j & [] & _)]; auto.
      - rewrite IH. unfold trans. rewrite eval_or, orb_true_iff, eval_xor, !eval_var. split.
        + intros [[H|H]|(i' & j' & H & E)]; auto; right; [exists i, j|exists i', j']; split; auto; [now left|now right].
        + intros [H|(i' & j' & [E|H] & X)]; auto; [injection E as -> ->; auto|]. right. exists i', j'. auto. }
    rewrite G. split.
    - intros [H|(i & j & H & X)]; [discriminate|]. apply combine_vectors in H. destruct H as (k & -> & -> & H). exists k.
      split; [now apply in_motionPre|]. rewrite tv_even, tv_odd in X. intros E. rewrite E, xorb_nilpotent in X. discriminate.
    - intros (k & M & E). right. apply in_motionPre in M. apply in_combine_vectors in M. destruct M as (j & H). exists (2 * k), j. split; auto.
      apply combine_vectors in H. destruct H as (k' & E1 & -> & _). replace k' with k by lia. rewrite tv_even, tv_odd. now destruct (s k), (t k).
  Qed.

  Definition canMoveB (s t : state) : bool := trans (bexists (varCubePostMotionState c) (band (motionDiffers c) robot)) s t.
  Lemma canMove_spec s t : canMoveB s t = true <-> can_move (isMot c) (trans robot) s t.
  Proof.
    unfold canMoveB. rewrite (ex_cube _ (isMot c) _ _ _ in_motion). split.
    - intros (t' & H1 & H2). rewrite trans_and in H2. apply andb_true_iff in H2. destruct H2 as [H2 H3]. exists t'. split; [|split]; auto. now apply differs_spec.
    - intros (t' & H1 & H2 & H3). exists t'. split; auto. rewrite trans_and, H2. apply differs_spec in H3. now rewrite H3.
  Qed.
  Lemma motionAssumption_spec s t : trans (motionAssumption c robot) s t = true <-> moved (isMot c) s t \/ ~ can_move (isMot c) (trans robot) s t.
  Proof.
    unfold motionAssumption. rewrite trans_or, trans_not. fold (canMoveB s t). rewrite orb_true_iff, negb_true_iff, differs_spec, <- canMove_spec, not_true_iff_false. tauto.
  Qed.

  (** ** The game *)
  Local Notation gm := (game_of c0).
  Lemma gsl_motion pi : winsFrom c sEM allowedB pi <-> m_safe_and_live gm (isMot c) (trans robot) pi.
  Proof.
    unfold winsFrom, gsl, m_safe_and_live, sEM, sS. cbn [g_safeE g_safeS g_liveA g_liveG game_of].
    change (safetyEnv c0) with (safetyEnv c). change (safetySys c0) with (safetySys c).
    assert (FIRST : (forall n, (forall m, m <= n -> trans (safetyEnv c) (pi m) (pi (S m)) && (trans robot (pi m) (pi (S m)) || negb (allowedB (pi m) (pi (S m)))) = true) ->
         trans (safetySys c) (pi n) (pi (S n)) && allowedB (pi n) (pi (S n)) = true) <->
       (forall n, (forall i, i < n -> trans (safetyEnv c) (pi i) (pi (S i)) = true /\ trans robot (pi i) (pi (S i)) = true) ->
         trans (safetyEnv c) (pi n) (pi (S n)) = true ->
         possible (isMot c) (trans robot) (pi n) (pi (S n)) /\ (trans robot (pi n) (pi (S n)) = true -> trans (safetySys c) (pi n) (pi (S n)) = true))).
    { split.
      - intros H n Hn He. specialize (H n). rewrite <- allowed_spec.
        destruct (allowedB (pi n) (pi (S n))) eqn:A.
        + split; auto. intros R. assert (X : trans (safetySys c) (pi n) (pi (S n)) && true = true); [|now rewrite andb_true_r in X].
          apply H. intros m Hm. destruct (Nat.eq_dec m n) as [->|N]; [now rewrite He, R|]. destruct (Hn m ltac:(lia)) as [E1 E2]. now rewrite E1, E2.
        + exfalso. rewrite andb_false_r in H. assert (X : false = true); [|discriminate]. apply H. intros m Hm.
          destruct (Nat.eq_dec m n) as [->|N]; [now rewrite He, A, orb_true_r|]. destruct (Hn m ltac:(lia)) as [E1 E2]. now rewrite E1, E2.
      - intros H. assert (R : forall n, (forall m, m <= n -> trans (safetyEnv c) (pi m) (pi (S m)) && (trans robot (pi m) (pi (S m)) || negb (allowedB (pi m) (pi (S m)))) = true) ->
          trans (safetyEnv c) (pi n) (pi (S n)) = true /\ trans robot (pi n) (pi (S n)) = true /\ allowedB (pi n) (pi (S n)) = true).
        { intros n. induction n as [n IH] using lt_wf_ind. intros Hn. pose proof (Hn n (le_n n)) as X. apply andb_true_iff in X. destruct X as [X1 X2].
          destruct (H n) as [P _]; auto.
          - intros i Hi. destruct (IH i Hi) as (Y1 & Y2 & _); auto. intros m Hm. apply Hn. lia.
          - apply allowed_spec in P. rewrite P in X2. cbn [negb] in X2. rewrite orb_false_r in X2. auto. }
        intros n Hn. destruct (R n Hn) as (E1 & E2 & E3). rewrite E3, andb_true_r. apply (H n); auto.
        intros i Hi. destruct (R i) as (Y1 & Y2 & _); auto. intros m Hm. apply Hn. lia. }
    split; intros [H1 H2].
    - split; [now apply FIRST|]. intros HE HA HM p Hp. apply in_map_iff in Hp. destruct Hp as (q & <- & Hq). apply H2.
      + intros n. destruct (HE n) as [E1 E2]. now rewrite E1, E2.
      + intros p Hp. apply in_map_iff in Hp. destruct Hp as (a & <- & Ha). cbn [livenessAssumptions addAuto] in Ha. apply in_app_iff in Ha. destruct Ha as [Ha|[<-|[]]].
        * apply HA. now apply in_map.
        * intros n. destruct (HM n) as (m & L & M). exists m. split; auto. now apply motionAssumption_spec.
      + apply in_map. cbn [livenessGuarantees addAuto]. now destruct (livenessGuarantees c0).
    - split; [now apply FIRST|]. intros HE HA p Hp. apply in_map_iff in Hp. destruct Hp as (q & <- & Hq).
      cbn [livenessGuarantees addAuto] in Hq. destruct (livenessGuarantees c0) as [|g0 gs] eqn:EG.
      + destruct Hq as [<-|[]]. intros n. exists n. split; auto.
      + apply H2; [| | |now apply in_map].
        * assert (R : forall n, (forall i, i < n -> trans (safetyEnv c) (pi i) (pi (S i)) = true /\ trans robot (pi i) (pi (S i)) = true)).
          { induction n as [|n IH]; [intros i Hi; lia|]. intros i Hi. destruct (Nat.eq_dec i n) as [->|N]; [|apply IH; lia].
            pose proof (HE n) as X. apply andb_true_iff in X. destruct X as [X1 X2]. destruct (proj1 FIRST H1 n IH X1) as [P _] || destruct (H1 n IH X1) as [P _].
            apply allowed_spec in P. rewrite P in X2. cbn [negb] in X2. rewrite orb_false_r in X2. auto. }
          intros n. apply (R (S n)). lia.
        * intros p Hp. apply in_map_iff in Hp. destruct Hp as (a & <- & Ha). apply HA. apply in_map. cbn [livenessAssumptions addAuto]. apply in_app_iff. now left.
        * intros n. destruct (HA (trans (motionAssumption c robot))) with (n := n) as (m & L & M).
          -- apply in_map. cbn [livenessAssumptions addAuto]. apply in_app_iff. right. now left.
          -- exists m. split; auto. now apply motionAssumption_spec.
  Qed.

  Lemma gplay_motion f s mv n : gplay _ nxtM f s mv n = m_play_from gm (isMot c) f s (fun i => fst (mv i)) (fun i => snd (mv i)) n.
  Proof.
    unfold gplay, m_play_from. f_equal. induction n as [|n IH]; cbn [ghist m_history_from]; auto. rewrite IH. reflexivity.
  Qed.

  Local Lemma any_differs : any (motionDiffers c).
  Proof.
    unfold motionDiffers. pose proof combine_vectors as C. revert C. generalize (combine (motionVectorPre c) (motionVectorPost c)).
    assert (G : forall l acc, any acc -> (forall i j, In (i, j) l -> exists k, i = 2 * k /\ j = 2 * k + 1 /\ In (2 * k) (motionVectorPre c)) ->
      any (fold_left (fun acc '(i, j) => bor acc (bxor (bvar i) (bvar j))) l acc)).
    { induction l as [|[i j] l IH]; intros acc D C; cbn [fold_left]; auto. apply IH; [|intros i' j' H; apply C; now right].
      destruct (C i j (or_introl eq_refl)) as (k & -> & -> & M). apply in_motionPre in M. apply isMot_lt in M.
      apply dep_or; auto. apply dep_xor; apply dep_var; unfold isAnyV; rewrite (nvars_spec c Hk); lia. }
    intros l C. apply G; auto.
  Qed.

  Lemma wf_addAuto : wf c.
  Proof.
    constructor.
    - exact mkinds.
    - exact (wfM_initEnv _ _ Hwf).
    - exact (wfM_initSys _ _ Hwf).
    - exact (wfM_safetyEnv _ _ Hwf).
    - exact (wfM_safetySys _ _ Hwf).
    - cbn [livenessAssumptions addAuto]. apply Forall_app. split; [exact (wfM_asm _ _ Hwf)|]. constructor; auto.
      pose proof any_differs as D. unfold motionAssumption. apply dep_or; [apply dep_not|exact D].
      eapply dep_exists; [|intros v H _; exact H]. apply dep_and; [exact D|auto].
    - cbn [livenessGuarantees addAuto]. pose proof (wfM_gua _ _ Hwf) as G. destruct (livenessGuarantees c0); auto.
    - cbn [livenessAssumptions addAuto]. now destruct (livenessAssumptions c0).
    - cbn [livenessGuarantees addAuto]. now destruct (livenessGuarantees c0).
  Qed.

  (** The computed set is exactly the set of winning positions. *)
  Lemma winningM_exact : exists w, winningM c robot = Some w /\ pre w /\
    (exists f : (state -> state) -> strategy, (forall start x, f start [] x = start x) /\
       forall start s, pos w s = true -> m_winning_from gm (isMot c) (trans robot) (f start) s) /\
    (forall s, pos w s = false -> forall f, exists x r, ~ m_safe_and_live gm (isMot c) (trans robot) (m_play_from gm (isMot c) f s x r)).
  Proof.
    pose proof wf_addAuto as W.
    pose proof (winning_same c Hk (wf_safetySys _ W) (wf_asm _ W) (wf_gua _ W) _ nxtM (coxM c robot) sEM allowedB replyM pickM pre_coxM HreplyM HpickM) as E.
    pose proof (found c Hk (wf_safetySys _ W) (wf_asm _ W) (wf_gua _ W) (wf_gua_ne _ W) _ nxtM (coxM c robot) sEM allowedB replyM pickM pre_coxM HreplyM HpickM) as (f & Hf0 & Hf).
    pose proof (lost c Hk (wf_safetySys _ W) (wf_asm _ W) (wf_gua _ W) (wf_asm_ne _ W) _ nxtM (coxM c robot) sEM allowedB pickM pre_coxM HpickM) as HL.
    pose proof (pre_nuZ c Hk (wf_safetySys _ W) (wf_asm _ W) (wf_gua _ W) (coxM c robot) pre_coxM) as P.
    exists (nuZ c (coxM c robot)). split; [exact E|]. split; [exact P|]. split.
    - exists f. split; auto. intros start s Hs x r. specialize (Hf start s Hs (fun n => (x n, r n))). apply gsl_motion in Hf.
      exact (m_sl_ext _ _ _ _ _ (gplay_motion (f start) s (fun n => (x n, r n))) Hf).
    - intros s Hs g. destruct (HL _ s Hs g) as (mv & Hmv). exists (fun i => fst (mv i)), (fun i => snd (mv i)). intros H. apply Hmv. apply gsl_motion.
      eapply m_sl_ext; [|exact H]. intros n. symmetry. apply gplay_motion.
  Qed.

  (** ** The verdict *)
  Lemma exMotion_verdict f : (verdictOf f = Realizable \/ verdictOf f = Unrealizable) -> verdictOf (bexists (varCubePreMotionState c) f) = verdictOf f.
  Proof.
    intros H. assert (C : f = btrue \/ f = bfalse).
    { unfold verdictOf in H. destruct (isConstant f) eqn:E; [|destruct H; discriminate].
      rewrite <- isTrue_iff, <- isFalse_iff. unfold isConstant, isTrue, isFalse in *. destruct (bft f) as [[]|]; auto; discriminate. }
    destruct C as [-> | ->].
    - replace (bexists (varCubePreMotionState c) btrue) with btrue; auto. apply bf_ext. intros e. symmetry. apply eval_exists. exists e. split; [intros v _; reflexivity|reflexivity].
    - replace (bexists (varCubePreMotionState c) bfalse) with bfalse; auto. apply bf_ext. intros e. change (eval bfalse e) with false.
      destruct (eval _ e) eqn:E; auto. apply eval_exists in E. destruct E as (e' & _ & E). discriminate.
  Qed.

  Lemma checkM_spec :
    (checkM c robot false = Realizable /\ m_realizable gm (isMot c) (trans robot)) \/
    (checkM c robot false = Unrealizable /\
     exists x0, forall f : strategy, let s := merge gm x0 (f [] x0) in
       g_initE gm s = true /\
       (g_initS gm s = true -> exists x r, ~ m_safe_and_live gm (isMot c) (trans robot) (m_play_from gm (isMot c) f s x r))).
  Proof.
    pose proof wf_addAuto as W. destruct winningM_exact as (w & Ew & Pw & (f & Hf0 & Hf) & Hl).
    unfold checkM. rewrite Ew. unfold initialCheckM.
    set (q := band w (initSys c)). assert (Pq : pre q) by (apply dep_and; auto; apply (wf_initSys _ W)).
    set (g := bimp (initEnv c) (bexists (varCubePreOutput c) q)).
    assert (Dg : dep (isPreInV c) g) by (apply dep_imp; [apply (wf_initEnv _ W)|now apply (dep_exPreOut c W)]).
    assert (M : forall x y, merge gm x y = mrg c x y) by reflexivity.
    destruct (const_cases c W _ g Dg eq_refl) as [[E H]|[E (s & H)]]; [left|right]; (split; [rewrite exMotion_verdict by auto; exact E|]).
    - set (start := fun x => search (fun y => pos q (mrg c x y)) x).
      assert (Hs : forall x, pos (initEnv c) (mrg c x (start x)) = true -> pos q (mrg c x (start x)) = true).
      { intros x Hx. specialize (H (mrg c x x)). unfold g in H. rewrite pos_imp in H.
        rewrite (preIn_merge c (initEnv c) x x (start x)), Hx in H by apply (wf_initEnv _ W).
        cbn [implb] in H. apply exPreOut_pos in H; auto. destruct H as (y & Hy).
        apply (search_spec (fun y => pos q (mrg c x y)) x).
        - intros a b Eab. apply (pos_ext c Hk); auto. intros k L. unfold mrg. destruct (isOut c k); auto.
        - exists y. rewrite <- Hy. apply (pos_ext c Hk); auto. intros k L. unfold mrg. now destruct (isOut c k). }
      exists (f start). intros x0 s Hi. unfold s in *. rewrite Hf0, M in *. apply Hs in Hi. unfold q in Hi. rewrite pos_and in Hi.
      apply andb_true_iff in Hi. destruct Hi as [Hi1 Hi2]. split; auto.
    - unfold g in H. rewrite pos_imp in H. exists s. intros f'. set (t := merge gm s (f' [] s)). destruct (pos (initEnv c) s) eqn:Es; [|discriminate]. cbn [implb] in H. split.
      + unfold t. rewrite M. rewrite <- Es. change (g_initE gm) with (pos (initEnv c)). rewrite (preIn_merge c (initEnv c) s _ s) by apply (wf_initEnv _ W).
        apply (pos_ext c Hk); [apply (preIn_pre c); apply (wf_initEnv _ W)|]. intros k _. unfold mrg. now destruct (isOut c k).
      + intros Hi. apply Hl. destruct (pos w t) eqn:Et; auto. exfalso. rewrite <- not_true_iff_false in H. apply H.
        apply exPreOut_pos; auto. exists (f' [] s). change (mrg c s (f' [] s)) with t. unfold q. rewrite pos_and, Et. exact Hi.
  Qed.

  Lemma checkM_robotics :
    (checkM c robot true = Realizable /\ m_realizable_robotics gm (isMot c) (trans robot)) \/
    (checkM c robot true = Unrealizable /\
     exists s, g_initE gm s = true /\
       forall f : strategy, exists x r, ~ m_safe_and_live gm (isMot c) (trans robot) (m_play_from gm (isMot c) f s x r)).
  Proof.
    pose proof wf_addAuto as W. destruct winningM_exact as (w & Ew & Pw & (f & Hf0 & Hf) & Hl).
    unfold checkM. rewrite Ew. unfold initialCheckM.
    set (g := bimp (initEnv c) (bforall (varCubePreOutput c) w)).
    assert (Dg : dep (isPreInV c) g) by (apply dep_imp; [apply (wf_initEnv _ W)|now apply (dep_faPreOut c W)]).
    assert (MI : forall s k, mrg c s s k = s k) by (intros s k; unfold mrg; now destruct (isOut c k)).
    destruct (const_cases c W _ g Dg eq_refl) as [[E H]|[E (s & H)]]; [left|right]; (split; [rewrite exMotion_verdict by auto; exact E|]).
    - exists (f (fun x => x)). intros s Hi. apply Hf. specialize (H s). unfold g in H. rewrite pos_imp in H. change (g_initE gm s) with (pos (initEnv c) s) in Hi.
      rewrite Hi in H. cbn [implb] in H. rewrite faPreOut_pos in H by auto. rewrite <- (H s). apply (pos_ext c Hk); auto.
    - unfold g in H. rewrite pos_imp in H. destruct (pos (initEnv c) s) eqn:Es; [|discriminate]. cbn [implb] in H.
      destruct (find (fun l => negb (pos w (mrg c s (ofVec l)))) (vectors (nvars c))) as [l|] eqn:F.
      + apply find_some in F. destruct F as [_ F]. apply negb_true_iff in F. exists (mrg c s (ofVec l)). split; [|now apply Hl].
        change (g_initE gm) with (pos (initEnv c)). rewrite <- Es, (preIn_merge c (initEnv c) s _ s) by apply (wf_initEnv _ W).
        apply (pos_ext c Hk); [apply (preIn_pre c); apply (wf_initEnv _ W)|auto].
      + exfalso. rewrite <- not_true_iff_false in H. apply H. apply faPreOut_pos; auto. intros y.
        pose proof (find_none _ _ F _ (toVec_in (nvars c) y)) as N. cbv beta in N. apply negb_false_iff in N. rewrite <- N.
        apply (pos_ext c Hk); auto. intros k L. unfold mrg. destruct (isOut c k); auto. symmetry. now apply ofVec_toVec.
  Qed.
End MOT.
