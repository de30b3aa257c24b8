(** * Proofs about the interesting run *)

From Coq Require Import Arith List Bool Lia.
From Verif Require Import BDD Loop Spec VarTypes Synth Sem FixBase GameSound SynthProofs Verdict Solvers SolversProofs
  AutSpec Explicit DetProofs ExplicitProofs ExplicitGame CounterData AnalyzeProofs ShellSpec Shell ShellProofs ShellTrans InterestingRun InterestingSpec.
Import ListNotations.

Section ENV.
  Variable c : ctx.
  Hypothesis Hwf : wf c.
  Let Hk := wf_kinds c Hwf.
  Let HSe := wf_safetyEnv c Hwf.
  Let HSs := wf_safetySys c Hwf.
  Local Notation N := (nvars c).
  Local Notation pre := (dep (isPreV c)).
  Local Notation any := (dep (isAnyV c)).
  Local Notation mrg := (mrg c).

  Local Lemma pre_any f : pre f -> any f.
  Proof. apply isPre_isAny. Qed.
  Local Lemma any_Se : any (safetyEnv c).
  Proof. now apply isPrePostIn_isAny. Qed.
  Local Lemma any_swap' f : any f -> any (swapPrePost c f).
  Proof. now apply dep_swapPrePost. Qed.
  Hint Resolve pre_any any_Se any_swap' dep_and dep_or dep_not dep_imp dep_true dep_false : core.

  Lemma dep_faPostOut f : any f -> dep (isPrePostInV c) (bforall (varCubePostOutput c) f).
  Proof.
    intros D. eapply dep_forall; [exact D|]. intros v Hv Hn. split; [exact Hv|].
    destruct (even_cases v) as [[k ->]|[k ->]]; [left; apply even_double|right].
    rewrite div2_double1. destruct (isOut c k) eqn:E; auto. elim Hn. apply in_PostOutput; auto.
    exists k. unfold isAnyV in Hv. rewrite nvars_spec in Hv by auto. repeat split; auto. lia.
  Qed.
  Lemma dep_exPostIn f : dep (isPrePostInV c) f -> pre (bexists (varCubePostInput c) f).
  Proof.
    intros D. eapply dep_exists; [exact D|]. intros v [Hv H] Hn. split; [exact Hv|].
    destruct (even_cases v) as [[k ->]|[k ->]]; [apply even_double|exfalso].
    rewrite even_double1, div2_double1 in H. destruct H as [H|H]; [discriminate|].
    apply Hn. apply in_PostInput; auto. rewrite nvars_spec in Hv by auto. exists k. repeat split; auto. lia.
  Qed.
  (** Sets of transitions that do not constrain the next outputs. *)
  Lemma prePostIn_mrg f s t y : dep (isPrePostInV c) f -> trans f s (mrg t y) = trans f s t.
  Proof.
    intros D. apply D. intros v [Hv H]. destruct (even_cases v) as [[k ->]|[k ->]]; rewrite ?tv_even, ?tv_odd; auto.
    rewrite even_double1, div2_double1 in H. destruct H as [H|H]; [discriminate|]. unfold Sem.mrg. now rewrite H.
  Qed.
  Lemma exPostIn_pos f s : dep (isPrePostInV c) f -> pos (bexists (varCubePostInput c) f) s = true <-> exists t, trans f s t = true.
  Proof.
    intros D. change (pos (bexists (varCubePostInput c) f) s) with (trans (bexists (varCubePostInput c) f) s s).
    rewrite exPostIn_trans by (auto; now apply isPrePostIn_isAny). split; intros (t & H); exists t.
    - now rewrite prePostIn_mrg in H.
    - now rewrite prePostIn_mrg.
  Qed.

  (** ** Avoiding deadlocks *)
  Lemma in_deadlockFree v : pre v -> dep (isPrePostInV c) (deadlockFree c v).
  Proof. intros H. unfold deadlockFree. apply dep_and; auto. apply dep_faPostOut. auto. Qed.
  Lemma deadlockFree_mono v v' : pre v -> pre v' -> sub v v' -> tsub (deadlockFree c v) (deadlockFree c v').
  Proof.
    intros D D' H s t. unfold deadlockFree. rewrite !trans_and, !andb_true_iff, !faPostOut_trans by auto.
    intros [H1 H2]. split; auto. intros y. specialize (H1 y). rewrite trans_or, trans_not, trans_swap_pos, orb_true_iff in * by auto.
    destruct H1; auto.
  Qed.
  Lemma nonDeadlocking_spec : exists nd, nonDeadlocking c = Some nd /\ dep (isPrePostInV c) nd /\ tsub nd (safetyEnv c).
  Proof.
    set (F := fun (v : BF) (_ : BF) => bexists (varCubePostInput c) (deadlockFree c v)).
    set (Dn := fun (v : BF) (_ : BF) => deadlockFree c v).
    assert (M : forall v v', pre v -> pre v' -> sub v v' -> sub (F v bfalse) (F v' bfalse)).
    { intros v v' D D' H s. unfold F. rewrite !exPostIn_pos by now apply in_deadlockFree. intros (t & Ht). exists t.
      now apply (deadlockFree_mono v v'). }
    destruct (fp_dec c Hk (deadlockBody c) F Dn (fun v d => pre v /\ sub (F v d) v) btrue bfalse) as (v & d & (Hv & _) & _ & E & _).
    - split; [auto|]. apply sub_true.
    - intros v d [Hv H]. split; [reflexivity|]. assert (DF : pre (F v d)) by now apply dep_exPostIn, in_deadlockFree.
      split; auto. split; auto. split; auto. intros _. split; auto. now apply M.
    - exists (deadlockFree c v). unfold nonDeadlocking. rewrite E. cbn. split; auto. split; [now apply in_deadlockFree|].
      intros s t. unfold deadlockFree. rewrite trans_and, andb_true_iff. tauto.
  Qed.

  (** ** Moves of the environment *)

  (** The environment has a move in each position; and if the system has a permitted answer
      to a move (or there is no move that is better), then the move is permitted. *)
  Definition goodMoves (m : BF) : Prop := any m /\
    forall s, (forall t, trans m s t = true) \/
      ((exists t, trans m s t = true) /\
       forall t, trans m s t = true -> (forall y, trans m s (mrg t y) = true) /\
         forall y, trans (safetySys c) s (mrg t y) = true -> trans (safetyEnv c) s t = true).

  Section MOVES.
    Variables nd asm : BF.
    Hypothesis Hnd : dep (isPrePostInV c) nd.
    Hypothesis HE : tsub nd (safetyEnv c).
    Hypothesis Ha : any asm.

    Lemma in_newMoves v : pre v -> dep (isPrePostInV c) (newMoves c nd asm v).
    Proof.
      intros H. apply dep_faPostOut. assert (any nd) by now apply isPrePostIn_isAny. auto 8.
    Qed.
    Lemma newMoves_spec v s t : pre v -> trans (newMoves c nd asm v) s t = true <->
      forall y, trans (safetySys c) s (mrg t y) = true ->
        (trans asm s (mrg t y) = true \/ pos v (mrg t y) = true) /\ trans nd s t = true.
    Proof.
      intros Hv. unfold newMoves. rewrite faPostOut_trans by auto. split; intros H y; specialize (H y).
      - rewrite trans_or, trans_and, trans_or, trans_not, trans_swap_pos, orb_true_iff, andb_true_iff, orb_true_iff, negb_true_iff in H by auto.
        rewrite (prePostIn_mrg nd) in H by auto. intros E. destruct H as [H|H]; [exact H|congruence].
      - rewrite trans_or, trans_and, trans_or, trans_not, trans_swap_pos, orb_true_iff, andb_true_iff, orb_true_iff, negb_true_iff by auto.
        rewrite (prePostIn_mrg nd) by auto. destruct (trans (safetySys c) s (mrg t y)); auto.
    Qed.
    Lemma newMoves_mono v v' : pre v -> pre v' -> sub v v' -> tsub (newMoves c nd asm v) (newMoves c nd asm v').
    Proof.
      intros D D' H s t. rewrite !newMoves_spec by auto. intros G y E. destruct (G y E) as [[G1|G1] G2]; auto.
    Qed.

    Lemma envStrategy_spec : exists m, envStrategy c nd asm = Some m /\ goodMoves m.
    Proof.
      set (F := fun (v : BF) (_ : BF) => bexists (varCubePostInput c) (newMoves c nd asm v)).
      set (Dn := fun (v d : BF) => bor d (band (band (F v d) (bnot v)) (newMoves c nd asm v))).
      set (Inv := fun v d : BF => pre v /\ any d /\ sub v (F v d) /\ (forall s, pos v s = true <-> exists t, trans d s t = true) /\
        forall s t, trans d s t = true -> (forall y, trans d s (mrg t y) = true) /\
          forall y, trans (safetySys c) s (mrg t y) = true -> trans (safetyEnv c) s t = true).
      assert (DF : forall v d, pre v -> pre (F v d)) by (intros v d H; now apply dep_exPostIn, in_newMoves).
      assert (M : forall v v' d d', pre v -> pre v' -> sub v v' -> sub (F v d) (F v' d')).
      { intros v v' d d' D D' H s. unfold F. rewrite !exPostIn_pos by now apply in_newMoves. intros (t & Ht). exists t.
        now apply (newMoves_mono v v'). }
      assert (X : forall v d s t, pre v -> trans (Dn v d) s t = true <->
        trans d s t = true \/ pos v s = false /\ trans (newMoves c nd asm v) s t = true).
      { intros v d s t Hv. unfold Dn. rewrite trans_or, !trans_and, trans_not, orb_true_iff, !andb_true_iff, negb_true_iff.
        rewrite (pos_trans c v) by auto. rewrite (pos_trans c (F v d)) by auto. unfold F. rewrite exPostIn_pos by now apply in_newMoves.
        split; [tauto|]. intros [H|[H1 H2]]; auto. right. split; eauto. }
      assert (Step : forall v d, Inv v d -> Inv (F v d) (Dn v d)).
      { intros v d (D1 & D2 & H1 & H2 & H3). split; auto. split; [|split; [|split]].
        - assert (A : any (newMoves c nd asm v)) by now apply isPrePostIn_isAny, in_newMoves.
          unfold Dn. apply dep_or; auto.
        - apply M; auto.
        - intros s. split.
          + intros H. destruct (pos v s) eqn:E.
            * apply H2 in E. destruct E as (t & E). exists t. apply X; auto.
            * unfold F in H. rewrite exPostIn_pos in H by now apply in_newMoves. destruct H as (t & Ht). exists t. apply X; auto.
          + intros (t & Ht). apply X in Ht; auto. destruct Ht as [Ht|[_ Ht]].
            * apply H1. apply H2. eauto.
            * unfold F. rewrite exPostIn_pos by now apply in_newMoves. eauto.
        - intros s t Ht. apply X in Ht; auto. destruct Ht as [Ht|[H4 Ht]].
          + destruct (H3 s t Ht) as [G1 G2]. split; auto. intros y. apply X; auto.
          + split.
            * intros y. apply X; auto. right. split; auto. now rewrite prePostIn_mrg by now apply in_newMoves.
            * intros y Hy. rewrite newMoves_spec in Ht by auto. destruct (Ht y Hy) as [_ G]. now apply HE. }
      destruct (fp_inc c Hk (envBody c nd asm) F Dn Inv bfalse bfalse) as (v & d & HI & EF & E & _).
      - split; auto. split; auto. split; [apply sub_false|]. split.
        + intros s. split; [intros H; now rewrite pos_false in H|]. intros (t & H). now rewrite trans_false in H.
        + intros s t H. now rewrite trans_false in H.
      - intros v d HI. split; [reflexivity|]. pose proof HI as (D1 & D2 & H1 & _). auto.
      - exists (bor (Dn v d) (bnot v)). unfold envStrategy. rewrite E. split; auto.
        apply Step in HI. rewrite EF in HI. destruct HI as (D1 & D2 & H1 & H2 & H3). split; auto.
        intros s. destruct (pos v s) eqn:Ev.
        + right. assert (Q : forall t, trans (bor (Dn v d) (bnot v)) s t = trans (Dn v d) s t).
          { intros t. rewrite trans_or, trans_not, (pos_trans c v), Ev by auto. apply orb_false_r. }
          split; [apply H2 in Ev; destruct Ev as (t & Ht); exists t; now rewrite Q|].
          intros t Ht. rewrite Q in Ht. destruct (H3 s t Ht) as [G1 G2]. split; auto. intros y. now rewrite Q.
        + left. intros t. rewrite trans_or, trans_not, (pos_trans c v), Ev by auto. apply orb_true_r.
    Qed.
  End MOVES.

  Lemma envStrategies_spec nd asms : dep (isPrePostInV c) nd -> tsub nd (safetyEnv c) -> Forall any asms ->
    exists l, envStrategies c nd asms = Some l /\ length l = length asms /\ Forall goodMoves l.
  Proof.
    intros H1 H2. induction 1 as [|a asms Ha _ (l & E & EL & HL)]; [exists []; auto|].
    destruct (envStrategy_spec nd a H1 H2 Ha) as (m & Em & Hm). exists (m :: l). cbn. rewrite Em, E. cbn. auto.
  Qed.
End ENV.

(** ** The run *)
Section RUN.
  Variable c : ctx.
  Hypothesis Hwf : wf c.
  Let Hk := wf_kinds c Hwf.
  Let HSe := wf_safetyEnv c Hwf.
  Let HSs := wf_safetySys c Hwf.
  Local Notation N := (nvars c).
  Local Notation M := (length (livenessGuarantees c)).
  Local Notation MA := (length (livenessAssumptions c)).
  Local Notation pre := (dep (isPreV c)).
  Local Notation any := (dep (isAnyV c)).
  Variable w : BF.
  Variable data : list (nat * BF).
  Variable L : nat -> list (BF * BF).
  Hypothesis HL : forall j, j < M -> dataOf j data = map fst (L j) /\
    goodEnt c w (nth j (livenessGuarantees c) btrue) (L j) w.
  Variable moves : list BF.
  Hypothesis HM : length moves = MA.
  Hypothesis HG : Forall (goodMoves c) moves.
  Let strategies := map (positional c data) (seq 0 M).
  Let T := fun j => trans (positional c data j).

  Lemma random_false rand vs : forall k f, isFalse f = true -> fst (determinizeRandomized rand k f vs) = bfalse.
  Proof.
    induction vs as [|v vs IH]; intros k f H; cbn [determinizeRandomized fst].
    - apply bf_ext. intros e. rewrite isFalse_spec in H. rewrite H. reflexivity.
    - apply IH. rewrite isFalse_spec in H. apply isFalse_spec; intros e; destruct (isFalse _); rewrite eval_and, H; reflexivity.
  Qed.

  Lemma random_pre rand k f : pre f -> isFalse f = false -> exists l, length l = N /\ pos f (ofVec l) = true /\
    fst (determinizeRandomized rand k f (preVars c)) = ptOf c l.
  Proof.
    intros Hf Hne. destruct (picked_random rand (preVars c) k f Hne) as (e0 & H0 & HE).
    set (s0 := fun k => e0 (2 * k)).
    assert (Hs0 : forall s, same N s s0 -> pos f s = true).
    { intros s Hs. rewrite <- H0. apply Hf. intros v [Hv Ev]. rewrite nvars_spec in Hv by auto.
      destruct (even_cases v) as [[j ->]|[j ->]]; [|rewrite even_double1 in Ev; discriminate].
      rewrite tv_even. apply Hs. lia. }
    exists (toVec N s0). split; [apply toVec_length|]. split; [apply Hs0, same_toVec|].
    apply (pos_inj c).
    - apply dep_random; auto. intros v Hv. apply (in_preVars c Hk) in Hv.
      destruct Hv as (j & -> & Hj). split; [rewrite nvars_spec by auto; lia|apply even_double].
    - now apply pre_ptOf.
    - intros s. apply eq_true_iff_eq. rewrite pos_ptOf by auto. unfold pos. rewrite HE, andb_true_iff, agreeOn_iff. split.
      + intros [_ H]. apply same_trans with s0; [|apply same_sym, same_toVec].
        intros j Hj. unfold s0. rewrite <- (H (2 * j)); [now rewrite tv_even|]. apply (in_preVars c Hk). eauto.
      + intros H. assert (E : same N s s0) by (eapply same_trans; [exact H|apply same_toVec]).
        split; [now apply Hs0|]. intros v Hv. apply (in_preVars c Hk) in Hv.
        destruct Hv as (j & -> & Hj). rewrite tv_even. now apply E.
  Qed.

  (** The possible next positions. *)
  Lemma pre_next f : any f -> pre (swapPrePost c (bexists (varCubePre c) f)).
  Proof.
    intros H. unfold swapPrePost. eapply dep_swap; [apply (dep_exPre c Hwf), H|].
    intros v [Hv E]. destruct (even_cases v) as [[k ->]|[k ->]]; [rewrite even_double in E; discriminate|].
    unfold isAnyV in Hv. rewrite (nvars_spec c Hk) in Hv.
    destruct (swapf_spec _ _ (vectors_spec c Hk) k) as [_ S2]. rewrite S2.
    destruct (in_dec Nat.eq_dec (2 * k) (varVectorPre c)) as [_|NI].
    - split; [rewrite (nvars_spec c Hk); lia|apply even_double].
    - elim NI. apply (in_varVectorPre c Hk). lia.
  Qed.
  Lemma next_pos f t : any f -> pos (swapPrePost c (bexists (varCubePre c) f)) t = true <-> exists s, trans f s t = true.
  Proof.
    intros H. rewrite <- (pos_trans c _ t t (pre_next f H)).
    rewrite (trans_swap c Hk); [|eapply dep_weaken; [|apply (dep_exPre c Hwf), H]; now intros v [Hv _]].
    now apply exPre_trans.
  Qed.

  Lemma blt_false q : blt bfalse q = true <-> exists s t, trans q s t = true.
  Proof.
    unfold blt. rewrite andb_true_iff, bleq_spec, negb_true_iff. split.
    - intros [_ H]. destruct (isFalse q) eqn:E.
      + exfalso. assert (bfalse = q); [|subst; now rewrite bf_eqb_refl in H].
        apply bf_ext. intros e. rewrite isFalse_spec in E. now rewrite E.
      + apply isFalse_false in E. destruct E as (e & E). exists (fun k => e (2 * k)), (fun k => e (2 * k + 1)).
        rewrite <- E. apply eval_ext. intros v. destruct (even_cases v) as [[k ->]|[k ->]]; now rewrite ?tv_even, ?tv_odd.
    - intros (s & t & H). split; [intros e He; discriminate|].
      destruct (bf_eqb bfalse q) eqn:E; auto. apply bf_eqb_eq in E. subst q. now rewrite trans_false in H.
  Qed.

  Lemma nth_trans qs i : i < length qs -> nth i (map trans qs) (fun _ _ => false) = trans (nth i qs bfalse).
  Proof. intros H. rewrite (nth_indep _ _ (trans bfalse)) by now rewrite map_length. apply map_nth. Qed.

  Definition consH (p : BF) (g : nat) (sat : bool) (a : nat) (esat ev sv : bool) (h : history) : history :=
    mkHistory (p :: h_trace h) (g :: h_sys h) (sat :: h_sysSat h) (a :: h_env h) (esat :: h_envSat h) (ev :: h_envViolation h) (sv :: h_sysViolation h).
  Definition rowsOf (h : history) : list row := map (rowOf c h) (seq 0 (length (h_trace h))).
  Lemma rows_cons p g sat a esat ev sv h q tr : h_trace h = q :: tr -> isFalse q = false ->
    rowsOf (consH p g sat a esat ev sv h) = rowOf c (consH p g sat a esat ev sv h) 0 :: rowsOf h.
  Proof.
    intros E Hq. unfold rowsOf. cbn [consH h_trace length]. cbn [seq map]. f_equal. rewrite <- seq_shift, map_map.
    apply map_ext. intros i. unfold rowOf. cbn [nth_error nth h_trace h_env h_envSat h_envViolation h_sys h_sysSat h_sysViolation consH app].
    f_equal. destruct i as [|i]; [|replace (S (S i) - 1) with (S i) by lia; replace (S i - 1) with i by lia; reflexivity]. rewrite E. cbn [nth]. now rewrite Hq.
  Qed.

  Lemma trace_head rand n : forall k p g a h, runLoop rand c strategies moves n k p g a = Some h -> exists tr, h_trace h = p :: tr.
  Proof.
    destruct n as [|n]; intros k p g a h; cbn [runLoop]; [intros [= <-]; now exists []|].
    destruct (isFalse p); [intros [= <-]; now exists []|].
    destruct (nth_error strategies g), (nth_error moves a), (nth_error (livenessGuarantees c) g), (nth_error (livenessAssumptions c) a); try discriminate.
    destruct (determinizeRandomized rand k _ _) as [edge k']. destruct (determinizeRandomized rand k' _ _) as [q k''].
    destruct (runLoop _ _ _ _ _ _ _ _ _) as [h'|]; [|discriminate]. intros [= <-]. cbn. eauto.
  Qed.

  Lemma heading_row p l g sat a esat ev sv h : p = ptOf c l -> heading c (ofVec l) g a (rowOf c (consH p g sat a esat ev sv h) 0).
  Proof.
    intros ->. unfold heading, rowOf. cbn [r_content r_sys r_env h_trace h_sys h_env consH nth nth_error]. split; auto.
    assert (E : isFalse (ptOf c l) = false).
    { apply isFalse_false. exists (tv (ofVec l) (ofVec l)). apply (pos_ptOf c). now intros k _. }
    rewrite E. now rewrite positionValues_ptOf.
  Qed.

  Lemma runLoop_spec rand n : forall k l g a, length l = N -> pos w (ofVec l) = true -> g < M -> a < MA ->
    exists h, runLoop rand c strategies moves n k (ptOf c l) g a = Some h /\ printed c T n (ofVec l) g a (rowsOf h).
  Proof.
    assert (NF : forall l, isFalse (ptOf c l) = false).
    { intros l. apply isFalse_false. exists (tv (ofVec l) (ofVec l)). apply (pos_ptOf c). now intros k _. }
    induction n as [|n IH]; intros k l g a Hl Hw Hg Ha; cbn [runLoop].
    - eexists. split; [reflexivity|]. cbn. apply printed_last; cbn; auto. unfold heading, rowOf. cbn [r_content r_sys r_env h_trace h_sys h_env consH nth nth_error].
      rewrite NF, positionValues_ptOf by auto. auto.
    - rewrite NF.
      assert (E1 : nth_error strategies g = Some (positional c data g)).
      { unfold strategies. rewrite nth_error_map, (nth_error_nth' _ 0) by now rewrite seq_length. now rewrite seq_nth. }
      destruct (nth_error moves a) as [mv|] eqn:E2; [|apply nth_error_None in E2; lia].
      destruct (nth_error (livenessGuarantees c) g) as [G|] eqn:E3; [|apply nth_error_None in E3; lia].
      destruct (nth_error (livenessAssumptions c) a) as [A|] eqn:E4; [|apply nth_error_None in E4; lia].
      rewrite E1.
      assert (Hmv : goodMoves c mv) by (rewrite Forall_forall in HG; apply HG; eapply nth_error_In; eauto).
      assert (AG : any G) by (pose proof (wf_gua c Hwf) as X; rewrite Forall_forall in X; apply X; eapply nth_error_In; eauto).
      assert (AA : any A) by (pose proof (wf_asm c Hwf) as X; rewrite Forall_forall in X; apply X; eapply nth_error_In; eauto).
      assert (NG : nth g (g_liveG (game_of c)) (fun _ _ => false) = trans G).
      { cbn [g_liveG game_of]. rewrite nth_trans by auto. f_equal. now apply nth_error_nth. }
      assert (NA : nth a (g_liveA (game_of c)) (fun _ _ => false) = trans A).
      { cbn [g_liveA game_of]. rewrite nth_trans by auto. f_equal. now apply nth_error_nth. }
      assert (LG : length (g_liveG (game_of c)) = M) by (cbn; apply map_length).
      assert (LA : length (g_liveA (game_of c)) = MA) by (cbn; apply map_length).
      set (next := band (band (band (ptOf c l) (safetyEnv c)) (positional c data g)) mv).
      assert (AS : any (positional c data g)) by now apply (strat_any c Hwf w data L HL).
      assert (AE : any (safetyEnv c)) by now apply isPrePostIn_isAny.
      assert (AN : any next).
      { unfold next. destruct Hmv as [Dm _]. assert (any (ptOf c l)) by (apply isPre_isAny; now apply pre_ptOf). repeat apply dep_and; auto. }
      assert (TN : forall s t, trans next s t = true <-> same N s (ofVec l) /\ trans (safetyEnv c) (ofVec l) t = true /\
        T g (ofVec l) t = true /\ trans mv (ofVec l) t = true).
      { intros s t. unfold next. rewrite !trans_and, !andb_true_iff, trans_ptOf by auto.
        assert (X : forall f, any f -> same N s (ofVec l) -> trans f s t = trans f (ofVec l) t).
        { intros f D S. now apply (trans_ext c Hk). }
        split.
        - intros [[[H1 H2] H3] H4]. unfold T. rewrite <- !X by (auto; apply Hmv). auto.
        - intros (H1 & H2 & H3 & H4). unfold T in H3. rewrite !X by (auto; apply Hmv). auto. }
      destruct (determinizeRandomized rand k next (postVars c)) as [edge k'] eqn:EE.
      destruct (determinizeRandomized rand k' (swapPrePost c (bexists (varCubePre c) next)) (preVars c)) as [q k''] eqn:EQ.
      destruct (isFalse next) eqn:EF.
      + assert (edge = bfalse) by (change edge with (fst (edge, k')); rewrite <- EE; now apply random_false). subst edge.
        assert (q = bfalse).
        { change q with (fst (q, k'')). rewrite <- EQ. apply random_false. destruct (isFalse (swapPrePost c (bexists (varCubePre c) next))) eqn:E; auto.
          apply isFalse_false in E. destruct E as (e & E).
          assert (E' : pos (swapPrePost c (bexists (varCubePre c) next)) (fun k => e (2 * k)) = true).
          { rewrite <- E. apply pre_next; auto. intros v [_ Ev]. destruct (even_cases v) as [[j ->]|[j ->]]; [now rewrite tv_even|].
            rewrite even_double1 in Ev. discriminate. }
          apply next_pos in E'; auto. destruct E' as (s & E'). unfold trans in E'. rewrite isFalse_spec in EF. now rewrite EF in E'. }
        subst q.
        assert (ES : forall g' a', runLoop rand c strategies moves n k'' bfalse g' a' = Some (mkHistory [bfalse] [g'] [] [a'] [] [] [])).
        { intros g' a'. destruct n; reflexivity. }
        rewrite ES. eexists. split; [reflexivity|].
        match goal with |- context [rowsOf ?h] => set (h0 := h) end.
        replace (rowsOf h0) with [rowOf c h0 0; rowOf c h0 1] by reflexivity.
        assert (NE : ~ (exists t, trans next (ofVec l) t = true)).
        { intros (t & H). unfold trans in H. rewrite isFalse_spec in EF. now rewrite EF in H. }
        assert (EB : isFalse bfalse = true) by (apply isFalse_spec; intros e; reflexivity).
        assert (EX : isFalse (band (ptOf c l) (safetyEnv c)) = false <-> exists t, trans (safetyEnv c) (ofVec l) t = true).
        { rewrite isFalse_false. split.
          - intros (e & H). rewrite eval_and, andb_true_iff in H. destruct H as [H1 H2].
            exists (fun k => e (2 * k + 1)). rewrite <- H2. apply AE. intros v Hv.
            unfold isAnyV in Hv. rewrite (nvars_spec c Hk) in Hv.
            destruct (even_cases v) as [[j ->]|[j ->]]; rewrite ?tv_even, ?tv_odd; auto.
            rewrite eval_ptOf in H1 by auto. symmetry. apply H1. lia.
          - intros (t & H). exists (tv (ofVec l) t). rewrite eval_and. apply andb_true_iff. split; auto.
            apply (trans_ptOf c). now intros j _. }
        assert (C1 : r_content (rowOf c h0 1) = if isFalse (band (ptOf c l) (safetyEnv c)) then EnvLoses else SysLoses) by reflexivity.
        eapply (printed_lost c T n (ofVec l) g a); try reflexivity.
        * now apply (heading_row (ptOf c l) l g _ a _ _ _ (mkHistory [bfalse] [_] [] [_] [] [] [])).
        * rewrite NG. apply blt_false.
        * rewrite NA. apply blt_false.
        * rewrite C1. cbn [g_safeE game_of]. rewrite <- EX. destruct (isFalse (band (ptOf c l) (safetyEnv c))); (split; [intros H H0|intros H]); try discriminate; [reflexivity|now elim H].
        * rewrite C1. cbn [g_safeE game_of]. rewrite <- EX. destruct (isFalse (band (ptOf c l) (safetyEnv c))); split; intros H; try discriminate; reflexivity.
        * cbn [g_safeE g_safeS game_of]. intros HS (t & Ht). destruct Hmv as [AM HM']. destruct (HM' (ofVec l)) as [HA|[(t1 & H1) H2]].
          -- destruct (stratT_covers c Hwf true w data L HL g (ofVec l) t Hg Hw Ht) as (y & Hy). apply NE. exists (mrg c t y).
             apply TN. split; [now intros j _|]. split; [rewrite safeE_mrg; auto|]. split; auto.
          -- destruct (H2 t1 H1) as [H3 H4]. destruct (HS t1) as (y & Hy). rewrite <- (mrg_merge c) in Hy.
             specialize (H4 y Hy). destruct (stratT_covers c Hwf true w data L HL g (ofVec l) t1 Hg Hw H4) as (y' & Hy').
             apply NE. exists (mrg c t1 y'). apply TN. split; [now intros j _|]. split; [rewrite safeE_mrg; auto|]. split; auto.
      + pose proof (picked_random rand (postVars c) k next EF) as PK. rewrite EE in PK. cbn [fst] in PK.
        destruct (picked_post c Hk next edge l AN Hl PK) as (v & Hv & TV & HV); [intros s t H; now apply TN in H|].
        apply TN in TV. destruct TV as (_ & TV1 & TV2 & TV3).
        assert (EF' : isFalse (swapPrePost c (bexists (varCubePre c) next)) = false).
        { apply isFalse_false. exists (tv (ofVec v) (ofVec v)).
          change (pos (swapPrePost c (bexists (varCubePre c) next)) (ofVec v) = true). apply next_pos; auto. exists (ofVec l). apply TN.
          split; [now intros j _|auto]. }
        destruct (random_pre rand k' _ (pre_next next AN) EF') as (u & Hu & PU & EU). rewrite EQ in EU. cbn [fst] in EU. subst q.
        apply next_pos in PU; auto. destruct PU as (s & PU). apply TN in PU. destruct PU as (_ & PU1 & PU2 & PU3).
        assert (HW : pos w (ofVec u) = true) by apply (stratT_good c Hwf true w data L HL g (ofVec l) (ofVec u) Hg PU2).
        set (sat := blt edge G). set (esat := blt edge A).
        set (g' := if sat then (g + 1) mod M else g). set (a' := if esat then (a + 1) mod MA else a).
        assert (Hg' : g' < M) by (unfold g'; destruct sat; auto; apply Nat.mod_upper_bound; lia).
        assert (Ha' : a' < MA) by (unfold a'; destruct esat; auto; apply Nat.mod_upper_bound; lia).
        destruct (IH k'' u g' a' Hu HW Hg' Ha') as (h & Eh & HP). rewrite Eh. eexists. split; [reflexivity|].
        destruct (trace_head rand n k'' (ptOf c u) g' a' h Eh) as (tr & Etr).
        change (mkHistory _ _ _ _ _ _ _) with (consH (ptOf c l) g sat a esat (negb (blt edge (safetyEnv c))) (negb (blt edge (safetySys c))) h).
        rewrite (rows_cons _ _ _ _ _ _ _ h _ _ Etr (NF u)).
        eapply (printed_step c T n (ofVec l) (ofVec u) (ofVec v) g g' a a'); try reflexivity; try exact HP; auto.
        * now apply heading_row.
        * rewrite NG. unfold sat. apply (blt_advances c Hwf); auto.
        * rewrite NA. unfold esat. apply (blt_advances c Hwf); auto.
        * rewrite negb_false_iff. apply (blt_advances c Hwf); auto.
        * now rewrite LG.
        * now rewrite LA.
  Qed.
End RUN.

(** ** The whole program *)
Lemma interestingRun_spec rand c : wf c -> exists w data L, exactW c w /\ dep (isPreV c) w /\
  (forall j, j < length (livenessGuarantees c) -> dataOf j data = map fst (L j) /\
     goodEnt c w (nth j (livenessGuarantees c) btrue) (L j) w) /\
  ((interestingRun rand c = Some NoPosition /\ forall s, pos (initEnv c) s = true -> pos (initSys c) s = true -> pos w s = false) \/
   exists l rows, length l = nvars c /\ pos w (ofVec l) = true /\ pos (initEnv c) (ofVec l) = true /\ pos (initSys c) (ofVec l) = true /\
     interestingRun rand c = Some (Rows rows) /\ printed c (fun j => trans (positional c data j)) 100 (ofVec l) 0 0 rows).
Proof.
  intros Hwf. pose proof (wf_kinds c Hwf) as Hk. destruct (solve_spec c Hwf Basic) as (w & data & ES & SO).
  destruct (solved_ranked c Hwf w data SO) as (L & HL).
  assert (HL' : forall j, j < length (livenessGuarantees c) -> dataOf j data = map fst (L j) /\
     goodEnt c w (nth j (livenessGuarantees c) btrue) (L j) w).
  { intros j Hj. destruct (HL j Hj) as (H1 & H2 & _). auto. }
  pose proof (solved_exact c w data Hwf SO) as HX. assert (Hw : dep (isPreV c) w) by (eapply solved_pre; eauto).
  exists w, data, L. split; auto. split; auto. split; auto. unfold interestingRun. rewrite ES.
  set (p := band (band w (initEnv c)) (initSys c)).
  assert (DI : dep (isPreV c) (initEnv c)) by (apply preIn_pre; now apply wf_initEnv).
  assert (Dp : dep (isPreV c) p) by (repeat apply dep_and; auto; now apply wf_initSys).
  destruct (isFalse p) eqn:EF.
  - left. split; auto. intros s H1 H2. destruct (pos w s) eqn:E; auto. exfalso. rewrite isFalse_spec in EF. specialize (EF (tv s s)).
    unfold p in EF. rewrite !eval_and in EF. unfold pos in *. rewrite H1, H2, E in EF. discriminate.
  - right. destruct (determinize_pre c Hk p Dp EF) as (l & Hl & Pl & Ed). rewrite Ed.
    unfold p in Pl. rewrite !pos_and, !andb_true_iff in Pl. destruct Pl as [[P1 P2] P3].
    destruct (nonDeadlocking_spec c Hwf) as (nd & En & N1 & N2). rewrite En.
    destruct (envStrategies_spec c Hwf nd (livenessAssumptions c) N1 N2 (wf_asm c Hwf)) as (moves & Em & M1 & M2). rewrite Em.
    assert (Z1 : 0 < length (livenessGuarantees c)) by (pose proof (wf_gua_ne c Hwf); destruct (livenessGuarantees c); [easy|cbn; lia]).
    assert (Z2 : 0 < length (livenessAssumptions c)) by (pose proof (wf_asm_ne c Hwf); destruct (livenessAssumptions c); [easy|cbn; lia]).
    destruct (runLoop_spec c Hwf w data L HL' moves M1 M2 rand 100 0 l 0 0 Hl P1 Z1 Z2) as (h & Eh & HP). rewrite Eh.
    exists l, (rowsOf c h). auto 10.
Qed.
