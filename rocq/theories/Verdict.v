(** * From exact sets of winning positions to verdicts *)

From Coq Require Import Arith List Bool Lia.
From Verif Require Import BDD Loop Spec VarTypes Synth Sem FixBase GameSound GameComplete SynthProofs.
Import ListNotations.

(** [w] is exactly the set of winning positions, with one strategy that wins from
    all of them, whatever its first move. *)
Definition exactW (c : ctx) (w : BF) : Prop :=
  dep (isPreV c) w /\
  (exists f : (state -> state) -> strategy,
     (forall start x, f start [] x = start x) /\
     forall start s, pos w s = true -> forall x, safe_and_live (game_of c) (play_from (game_of c) (f start) s x)) /\
  (forall s, pos w s = false -> forall f, exists x, ~ safe_and_live (game_of c) (play_from (game_of c) f s x)).

Lemma solved_exact c w d : wf c -> solved c w d -> exactW c w.
Proof.
  intros Hwf S. destruct (solved_ranked c Hwf w d S) as (L & HL). split; [|split].
  - eapply solved_pre; eauto.
  - exists (theStrategy c L). split; [reflexivity|]. intros start s Hs.
    apply (theStrategy_wins c Hwf w L); auto. intros j Hj. now apply HL.
  - destruct S as (_ & (K & ->) & _). intros s Hs. now apply (lost c Hwf K).
Qed.

Lemma exact_winning c w : exactW c w -> forall s, pos w s = true <-> winning (game_of c) s.
Proof.
  intros (_ & (f & _ & Hf) & Hl) s. split.
  - intros H. exists (f (fun s => s)). auto.
  - intros (f' & Hf'). destruct (pos w s) eqn:E; auto. destruct (Hl s E f') as (x & Hx). elim Hx. auto.
Qed.

Lemma exact_unique c w w' :
  (exists kinds, varTypes c = typesOf kinds /\ forallb isPreKind kinds = true) ->
  exactW c w -> exactW c w' -> w = w'.
Proof.
  intros Hk H H'. pose proof (exact_winning c w H) as E. pose proof (exact_winning c w' H') as E'.
  apply (sub_antisym c); auto; try apply H; try apply H'; intros s; rewrite E, E'; auto.
Qed.

Lemma safe_and_live_ext g pi pi' : (forall n, pi n = pi' n) -> safe_and_live g pi' -> safe_and_live g pi.
Proof.
  intros E [HS HLv]. split.
  - intros n Hn. rewrite !E. apply HS. intros i Hi'. rewrite <- !E. auto.
  - intros HE HA p Hp n. destruct HLv with (p := p) (n := n) as (k & Hk & Ek); auto.
    + intros i. rewrite <- !E. apply HE.
    + intros q Hq i. destruct (HA q Hq i) as (k & Hk & Ek). exists k. rewrite <- !E. auto.
    + exists k. rewrite !E. auto.
Qed.

Lemma play_history_from g f x n :
  history g f x n = history_from g f (merge g (x 0) (f [] (x 0))) x n.
Proof. induction n as [|n IH]; cbn [history history_from]; auto. now rewrite IH. Qed.

Section VERDICT.
  Variable c : ctx.
  Hypothesis Hwf : wf c.
  Let Hk := wf_kinds c Hwf.
  Local Notation pre := (dep (isPreV c)).

  Lemma find_pos f : pre f -> (forall s, pos f s = true) \/ exists s, pos f s = false.
  Proof.
    intros D. destruct (find (fun l => negb (pos f (ofVec l))) (vectors (nvars c))) as [l|] eqn:E.
    - right. apply find_some in E. destruct E as [_ E]. apply negb_true_iff in E. eauto.
    - left. intros s. pose proof (find_none _ _ E _ (toVec_in (nvars c) s)) as N. apply negb_false_iff in N.
      rewrite <- N. apply (pos_ext c Hk); auto. intros k Hlt. symmetry. now apply ofVec_toVec.
  Qed.

  Lemma preIn_pre f : dep (isPreInV c) f -> pre f.
  Proof. apply dep_weaken. now intros v [H _]. Qed.

  Lemma preIn_merge f x y y' : dep (isPreInV c) f -> pos f (mrg c x y) = pos f (mrg c x y').
  Proof.
    intros D. apply D. intros v [[Hv E] O]. destruct (even_cases v) as [[k ->]|[k ->]];
      [|rewrite even_double1 in E; discriminate].
    rewrite Nat.div2_double in O. rewrite !tv_even. unfold mrg. now rewrite O.
  Qed.

  Lemma dep_exPreOut f : pre f -> dep (isPreInV c) (bexists (varCubePreOutput c) f).
  Proof.
    intros D. eapply dep_exists; [exact D|]. intros v [Hv E] Hn. split; [split; auto|].
    destruct (even_cases v) as [[k ->]|[k ->]]; [|rewrite even_double1 in E; discriminate].
    rewrite Nat.div2_double. destruct (isOut c k) eqn:O; auto. elim Hn. apply in_PreOutput; auto.
    exists k. rewrite nvars_spec in Hv by auto. repeat split; auto. lia.
  Qed.

  Lemma dep_faPreOut f : pre f -> dep (isPreInV c) (bforall (varCubePreOutput c) f).
  Proof.
    intros D. eapply dep_forall; [exact D|]. intros v [Hv E] Hn. split; [split; auto|].
    destruct (even_cases v) as [[k ->]|[k ->]]; [|rewrite even_double1 in E; discriminate].
    rewrite Nat.div2_double. destruct (isOut c k) eqn:O; auto. elim Hn. apply in_PreOutput; auto.
    exists k. rewrite nvars_spec in Hv by auto. repeat split; auto. lia.
  Qed.

  Lemma const_cases f g : dep (isPreInV c) g -> f = bforall (varCubePreInput c) g ->
    (verdictOf f = Realizable /\ forall s, pos g s = true) \/
    (verdictOf f = Unrealizable /\ exists s, pos g s = false).
  Proof.
    intros D ->. pose proof (faPreIn_const c Hk g D) as S.
    destruct (find_pos g (preIn_pre g D)) as [H|(s & H)].
    - left. split; auto.
      assert (E : bforall (varCubePreInput c) g = btrue).
      { apply bf_ext. intros e. change (eval btrue e) with true. now apply S. }
      rewrite E. reflexivity.
    - right. split; [|eauto].
      assert (E : bforall (varCubePreInput c) g = bfalse).
      { apply bf_ext. intros e. change (eval bfalse e) with false.
        destruct (eval _ e) eqn:Ee; auto. apply S with (s := s) in Ee. congruence. }
      rewrite E. reflexivity.
  Qed.

  Variable w : BF.
  Hypothesis Hw : exactW c w.

  (** The check of synthesisAlgorithm.cpp:100-110. *)
  Lemma initialCheck_spec :
    (verdictOf (initialCheck c w) = Realizable /\ realizable (game_of c)) \/
    (verdictOf (initialCheck c w) = Unrealizable /\
     forall f, exists x, ~ objective (game_of c) (play (game_of c) f x)).
  Proof.
    destruct Hw as (Pw & (f & Hf0 & Hf) & Hl).
    set (q := band w (initSys c)).
    assert (Pq : pre q) by (apply dep_and; auto; apply wf_initSys; auto).
    set (g := bimp (initEnv c) (bexists (varCubePreOutput c) q)).
    assert (Dg : dep (isPreInV c) g).
    { apply dep_imp; [now apply wf_initEnv|now apply dep_exPreOut]. }
    destruct (const_cases (initialCheck c w) g Dg eq_refl) as [[E H]|[E (s & H)]]; rewrite E; [left|right]; split; auto.
    - (* a first move for every input *)
      set (start := fun x => match find (fun l => pos q (mrg c x (ofVec l))) (vectors (nvars c)) with
                             | Some l => ofVec l | None => x end).
      assert (Hs : forall x, pos (initEnv c) (mrg c x (start x)) = true -> pos q (mrg c x (start x)) = true).
      { intros x Hx. specialize (H (mrg c x x)). unfold g in H. rewrite pos_imp in H.
        rewrite (preIn_merge (initEnv c) x x (start x)), Hx in H by now apply wf_initEnv.
        cbn [implb] in H. apply exPreOut_pos in H; auto. destruct H as (y & Hy).
        unfold start. destruct (find _ _) as [l|] eqn:F.
        - now apply find_some in F.
        - exfalso. pose proof (find_none _ _ F _ (toVec_in (nvars c) y)) as N.
          cbv beta in N. rewrite <- not_true_iff_false in N. apply N. rewrite <- Hy.
          apply (pos_ext c Hk); auto. intros k Hlt. unfold mrg. destruct (isOut c k); auto.
          now apply ofVec_toVec. }
      exists (f start). intros x Hi.
      assert (P0 : play (game_of c) (f start) x 0 = mrg c (x 0) (start (x 0))).
      { unfold play. cbn [history hd]. now rewrite Hf0. }
      rewrite P0 in Hi |- *. cbn in Hi. apply Hs in Hi. unfold q in Hi. rewrite pos_and in Hi.
      apply andb_true_iff in Hi. destruct Hi as [Hi1 Hi2]. split; [exact Hi2|].
      apply (safe_and_live_ext (game_of c)) with
        (pi' := play_from (game_of c) (f start) (mrg c (x 0) (start (x 0))) x).
      + intros n. unfold play, play_from. rewrite play_history_from, Hf0. reflexivity.
      + now apply Hf.
    - (* the environment picks a bad input *)
      unfold g in H. rewrite pos_imp in H. intros f'.
      set (s0 := mrg c s (f' [] s)).
      assert (N : pos (initEnv c) s = true /\ pos (bexists (varCubePreOutput c) q) s = false).
      { destruct (pos (initEnv c) s), (pos (bexists (varCubePreOutput c) q) s); auto; discriminate. }
      destruct N as [N1 N2].
      assert (I0 : pos (initEnv c) s0 = true).
      { rewrite <- N1. unfold s0. rewrite (preIn_merge (initEnv c) s (f' [] s) s) by now apply wf_initEnv.
        apply eval_ext. intros v. unfold tv, mrg. destruct (Nat.even v); now destruct (isOut c _). }
      assert (NQ : pos q s0 = false).
      { destruct (pos q s0) eqn:EQ; auto. assert (pos (bexists (varCubePreOutput c) q) s = true); [|congruence].
        apply exPreOut_pos; eauto. }
      unfold q in NQ. rewrite pos_and in NQ.
      destruct (pos w s0) eqn:Ew.
      + exists (fun _ => s). intros Hobj. destruct Hobj as [Hobj _]; auto.
        change (pos (initSys c) s0 = true) in Hobj. rewrite Hobj in NQ. discriminate.
      + destruct (Hl s0 Ew f') as (x & Hx).
        exists (fun n => match n with O => s | S _ => x n end). intros Hobj. apply Hx.
        destruct Hobj as [_ Hobj]; auto. revert Hobj. apply safe_and_live_ext. intros n.
        unfold play, play_from. rewrite play_history_from. f_equal.
        change (merge (game_of c) s (f' [] s)) with s0.
        clear. induction n as [|n IH]; cbn [history_from]; auto. now rewrite IH.
  Qed.

  (** extensionRoboticsSemantics.hpp:26-45. *)
  Lemma initialCheckRobotics_spec :
    (verdictOf (initialCheckRobotics c w) = Realizable /\ realizable_robotics (game_of c)) \/
    (verdictOf (initialCheckRobotics c w) = Unrealizable /\
     exists s, pos (initEnv c) s = true /\ pos (initSys c) s = true /\
       forall f, exists x, ~ safe_and_live (game_of c) (play_from (game_of c) f s x)).
  Proof.
    destruct Hw as (Pw & (f & Hf0 & Hf) & Hl).
    set (q := bimp (band (initEnv c) (initSys c)) w).
    assert (Pq : pre q).
    { apply dep_imp; auto. apply dep_and; [apply preIn_pre; now apply wf_initEnv|now apply wf_initSys]. }
    assert (M : forall s, pos q (mrg c s s) = pos q s).
    { intros s. apply eval_ext. intros v. unfold tv, mrg. destruct (Nat.even v); now destruct (isOut c _). }
    destruct (const_cases (initialCheckRobotics c w) _ (dep_faPreOut q Pq) eq_refl) as [[E H]|[E (s & H)]];
      rewrite E; [left|right]; split; auto.
    - exists (f (fun s => s)). intros s x Hi Hs. apply Hf.
      specialize (H s). rewrite faPreOut_pos in H by auto. specialize (H s). rewrite M in H.
      unfold q in H. rewrite pos_imp, pos_and in H. cbn in Hi, Hs. rewrite Hi, Hs in H. exact H.
    - assert (X : exists t, pos q t = false).
      { destruct (find_pos q Pq) as [A|A]; auto.
        assert (pos (bforall (varCubePreOutput c) q) s = true); [|congruence].
        apply faPreOut_pos; auto. }
      destruct X as (t & Ht). unfold q in Ht. rewrite pos_imp, pos_and in Ht. exists t.
      destruct (pos (initEnv c) t), (pos (initSys c) t), (pos w t) eqn:Ew; try discriminate; auto.
  Qed.
End VERDICT.

Lemma check_cases c : wf c ->
  (checkRealizability c = Realizable /\ realizable (game_of c)) \/
  (checkRealizability c = Unrealizable /\
   forall f, exists x, ~ objective (game_of c) (play (game_of c) f x)).
Proof.
  intros Hwf. unfold checkRealizability.
  destruct (compute_spec c Hwf) as (w & d & -> & S).
  apply initialCheck_spec; auto. eapply solved_exact; eauto.
Qed.

Lemma check_robotics_cases c : wf c ->
  (checkRealizabilityRobotics c = Realizable /\ realizable_robotics (game_of c)) \/
  (checkRealizabilityRobotics c = Unrealizable /\
   exists s, pos (initEnv c) s = true /\ pos (initSys c) s = true /\
     forall f, exists x, ~ safe_and_live (game_of c) (play_from (game_of c) f s x)).
Proof.
  intros Hwf. unfold checkRealizabilityRobotics.
  destruct (compute_spec c Hwf) as (w & d & -> & S).
  apply initialCheckRobotics_spec; auto. eapply solved_exact; eauto.
Qed.
