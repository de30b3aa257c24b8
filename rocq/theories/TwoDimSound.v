(** * Proofs about --twoDimensionalCost: strategies do not leave the winning positions *)

From Coq Require Import String ZArith Arith List Bool Lia.
From Verif Require Import BDD Loop Spec VarTypes Synth Sem FixBase SynthProofs Explicit Parser TwoDim TwoDimBase TwoDimProofs.
Import ListNotations.
Local Open Scope list_scope.

(** ** Positions with additional variables that have to be winning *)

(** A set of positions from which the system can enforce that it stays in the set, without the
    assumption being satisfied, or enters a winning position. *)
Definition trap (c : ctx) (W asm U : BF) : Prop := forall s, pos U s = true ->
  forall x, trans (safetyEnv c) s x = true -> exists y, trans (safetySys c) s (mrg c x y) = true /\
    (pos W (mrg c x y) = true \/ trans asm s (mrg c x y) = false /\ pos U (mrg c x y) = true).

Section EXT.
  Variables c c' : ctx.
  Variable ks : list VariableType.
  Hypothesis Hwf : wf c.
  Hypothesis HE : extends c c' ks.
  Hypothesis HK : forallb isPreKind ks = true.
  Variable w : BF.
  Variable d : list (nat * BF).
  Hypothesis Hw : solved c w d.
  Let Hk := wf_kinds _ Hwf.

  Lemma ext_nvars : nvars c' = nvars c + length ks.
  Proof.
    pose proof (ext_len c c' ks HE) as L. rewrite (nvars_spec c Hk), (nvars_spec c' (ext_kinds c c' ks Hwf HE HK)) in L. lia.
  Qed.

  Definition added : list nat := map (fun k => 2 * k) (seq (nvars c) (length ks)).
  Definition proj (U : BF) : BF := bexists added U.

  Lemma in_added v : In v added <-> exists k, v = 2 * k /\ nvars c <= k < nvars c'.
  Proof.
    unfold added. rewrite in_map_iff, ext_nvars. split.
    - intros (k & <- & H). apply in_seq in H. exists k. lia.
    - intros (k & -> & H). exists k. split; auto. apply in_seq. lia.
  Qed.

  Lemma dep_proj U : dep (isPreV c') U -> dep (isPreV c) (proj U).
  Proof.
    intros D. unfold proj. eapply dep_exists; [exact D|]. intros v [Hv Ev] Na. split; auto.
    rewrite (nvars_spec c Hk). rewrite (nvars_spec c' (ext_kinds c c' ks Hwf HE HK)) in Hv.
    destruct (even_cases v) as [[k ->]|[k ->]]; [|rewrite even_double1 in Ev; discriminate].
    destruct (Nat.lt_ge_cases k (nvars c)) as [|G]; [lia|]. elim Na. apply in_added. exists k. lia.
  Qed.

  Lemma proj_spec U s : dep (isPreV c') U ->
    pos (proj U) s = true <-> exists s', (forall k, k < nvars c -> s' k = s k) /\ pos U s' = true.
  Proof.
    intros D. unfold proj, pos at 1. rewrite eval_exists. split.
    - intros (e & A & H). exists (fun k => e (2 * k)). split.
      + intros k L. rewrite <- (A (2 * k)); [now rewrite tv_even|]. rewrite in_added. intros (k' & E & L'). lia.
      + rewrite <- H. apply D. intros v [_ Ev]. destruct (even_cases v) as [[k ->]|[k ->]]; [|rewrite even_double1 in Ev; discriminate].
        now rewrite tv_even.
    - intros (s' & A & H). exists (fun v => if in_dec Nat.eq_dec v added then tv s' s' v else tv s s v). split.
      + intros v N. now destruct (in_dec _ _ _).
      + rewrite <- H. apply D. intros v [Hv Ev]. destruct (in_dec _ _ _) as [|N]; auto.
        destruct (even_cases v) as [[k ->]|[k ->]]; [|rewrite even_double1 in Ev; discriminate].
        rewrite !tv_even. symmetry. apply A. destruct (Nat.lt_ge_cases k (nvars c)) as [|G]; auto.
        elim N. apply in_added. exists k. split; auto.
        rewrite (nvars_spec c' (ext_kinds c c' ks Hwf HE HK)) in Hv. lia.
  Qed.

  Lemma ext_mrg x y k : k < nvars c -> mrg c' x y k = mrg c x y k.
  Proof.
    intros L. unfold mrg. pose proof (ext_out c c' ks Hwf HE (2 * k)) as H. rewrite Nat.div2_double in H.
    rewrite H; auto. unfold isAnyV. rewrite (nvars_spec c Hk). lia.
  Qed.

  Lemma trap_winning asm U : In asm (livenessAssumptions c) -> dep (isPreV c') U -> trap c' w asm U -> sub U w.
  Proof.
    intros Ha DU HT. pose proof (solved_pre c Hwf w d Hw) as Dw.
    pose proof (dep_proj U DU) as Dv.
    pose proof (any_asm c Hwf asm Ha) as Da.
    assert (Dsy : dep (isAnyV c) (safetySys c)) by (apply wf_safetySys; auto).
    assert (Den : dep (isAnyV c) (safetyEnv c)) by (apply (dep_Se c); apply wf_safetyEnv; auto).
    destruct (livenessGuarantees c) as [|g gs] eqn:EG; [elim (wf_gua_ne c Hwf EG)|].
    assert (Hg : In g (livenessGuarantees c)) by (rewrite EG; now left).
    pose proof (any_gua c Hwf g Hg) as Dg.
    assert (DL : dep (isAnyV c) (liveOf c w g w)).
    { apply any_liveOf; auto; now apply preAny. }
    assert (S1 : sub (proj U) w).
    { intros s Hs. rewrite <- (muY_eq c Hwf w d g Hw Hg), <- (muY_fix c Hwf w g Dw Dg), (muY_eq c Hwf w d g Hw Hg).
      apply stepY_spec. right. exists asm. split; auto. revert s Hs.
      apply nuX_greatest; auto. intros s Hs. apply (proj_spec U s DU) in Hs. destruct Hs as (s' & A & Hs').
      unfold stepX. apply cox_spec; auto; [apply wf_safetyEnv; auto| |].
      { unfold pathsX. apply dep_and; auto. apply dep_or; auto. apply dep_and; [now apply swapAny, preAny|now apply dep_not]. }
      intros x.
      destruct (trans (safetyEnv c) s x) eqn:Ex.
      - rewrite <- (trans_ext c Hk _ s' x s x Den A ltac:(auto)) in Ex.
        rewrite <- (ex_safetyEnv _ _ _ HE) in Ex.
        destruct (HT s' Hs' x Ex) as (y & Hy1 & Hy2). exists y. intros _.
        apply pathsX_spec; auto.
        rewrite (ex_safetySys _ _ _ HE) in Hy1.
        split; [|rewrite <- Hy1; symmetry; apply (trans_ext c Hk); auto; intros k L; now apply ext_mrg].
        rewrite liveOf_spec by auto.
        destruct Hy2 as [Hy2|[Hy2 Hy3]]; [left; right|right].
        + rewrite <- Hy2. symmetry. apply (pos_ext c Hk); auto. intros k L. now apply ext_mrg.
        + split.
          * apply proj_spec; auto. exists (mrg c' x y). split; auto. intros k L. now apply ext_mrg.
          * rewrite <- Hy2. symmetry. apply (trans_ext c Hk); auto. intros k L. now apply ext_mrg.
      - exists x. intros E. exfalso.
        assert (trans (safetyEnv c) s (mrg c x x) = trans (safetyEnv c) s x); [|congruence].
        apply trans_eq. intros k. unfold mrg. now destruct (isOut c k). }
    intros s Hs. apply S1. apply proj_spec; auto. exists s. auto.
  Qed.
End EXT.

(** ** All positions and transitions that are found *)
Section CTX.
  Variable c : ctx.
  Hypothesis Hwf : wf c.
  Hypothesis Hn : 1 <= nvars c.
  Notation pre := (isPreV c).
  Notation any := (isAnyV c).
  Let Hk := wf_kinds _ Hwf.
  Hypothesis HI : pre (nth 0 (varsOf (varTypes c) [IsInftyCostPre]) 0).
  Hypothesis HI' : any (nth 0 (varsOf (varTypes c) [IsInftyCostPost]) 0).
  Variable W : BF.
  Hypothesis DW : dep pre W.
  Hypothesis HW : forall asm U, In asm (livenessAssumptions c) -> dep pre U -> trap c W asm U -> sub U W.
  (** The environment does not refer to the additional variables. *)
  Hypothesis HEnv : forall v, In v (assumptionCounterPreVars c) \/ v = nth 0 (varsOf (varTypes c) [IsInftyCostPre]) 0 ->
    dep (fun u => u <> v) (safetyEnv c).

  (** Transitions that lead to winning positions. *)
  Definition winT (T : BF) : Prop := forall s t, trans T s t = true -> trans (safetyEnv c) s t = true -> pos W t = true.

  Lemma winT_or f g : winT f -> winT g -> winT (bor f g).
  Proof. intros Hf Hg s t. rewrite trans_or, orb_true_iff. intros [H|H] E; eauto. Qed.
  Lemma winT_and_l f g : winT f -> winT (band f g).
  Proof. intros Hf s t. rewrite trans_and, andb_true_iff. intros [H _] E. eauto. Qed.
  Lemma winT_and_r f g : winT g -> winT (band f g).
  Proof. intros Hf s t. rewrite trans_and, andb_true_iff. intros [_ H] E. eauto. Qed.
  Lemma winT_false : winT bfalse.
  Proof. intros s t. rewrite trans_false. discriminate. Qed.
  Lemma winT_swap f : dep pre f -> sub f W -> winT (swapPrePost c f).
  Proof. intros D H s t. rewrite trans_swap_pos by auto. auto. Qed.

  Record winF (fd : found) : Prop := mkWinF { wf_pos : sub (fPos fd) W; wf_trans : winT (fTrans fd); wf_data : Forall winT (fData fd) }.
  Lemma winF_add fd won listed : winF fd -> sub won W -> winT listed ->
    winF (mkFound (bor (fPos fd) won) (bor (fTrans fd) listed) (fData fd ++ [listed])).
  Proof.
    intros [H1 H2 H3] Hw Hl. constructor; cbn.
    - now apply sub_or.
    - now apply winT_or.
    - apply Forall_app. split; auto.
  Qed.

  Lemma env_mrg s x y : trans (safetyEnv c) s x = true -> trans (safetyEnv c) s (mrg c x y) = true.
  Proof.
    intros <-. rewrite (safeE_in c (wf_safetyEnv _ Hwf) s x y x). apply trans_eq. intros k. unfold mrg. now destruct (isOut c k).
  Qed.

  Lemma reachWon_winning T : dep any T -> winT T -> tsub T (safetySys c) -> sub (reachWon c T) W.
  Proof.
    intros D HT HS.
    assert (Ha : exists a, In a (livenessAssumptions c)).
    { pose proof (wf_asm_ne c Hwf) as N. destruct (livenessAssumptions c) as [|a l]; [now elim N|]. exists a. now left. }
    destruct Ha as (a & Ha). apply (HW a); [exact Ha|now apply dep_reachWon|].
    intros s Hs x Ex. rewrite reachWon_spec in Hs by auto. destruct (Hs x Ex) as (y & Hy). exists y.
    split; [now apply HS|]. left. apply (HT s _ Hy). now apply env_mrg.
  Qed.

  Section REACH.
    Variables guard ending cheap : BF.
    Hypothesis Dg : dep any guard.
    Hypothesis De : dep any ending.
    Hypothesis Dc : dep any cheap.
    Hypothesis We : winT ending.
    Notation T f := (reachStep c guard ending cheap f).

    Lemma winT_step f : dep pre f -> sub f W -> winT (T f).
    Proof.
      intros Df Hf s t H E. apply reachStep_spec in H; auto. destruct H as (_ & _ & [H|[_ H]]); [now apply (We s)|auto].
    Qed.

    Lemma reach_win onTop start fd fd' : dep pre start -> sub start W -> winF fd ->
      reach c guard ending cheap onTop start fd = Some fd' -> winF fd'.
    Proof.
      intros Ds Ss O H. apply run_Runs in H.
      eapply (Runs_inv _ (fun st : BF * BF * found => let '(o, n, f) := st in dep pre n /\ sub n W /\ winF f)
                       winF _ _ H).
      - auto.
      - intros [[o n] f] [[o' n'] f'] (Dn & Sn & Of) E. cbn [reachBody] in E. destruct (bf_eqb n o); [discriminate|].
        injection E as <- <- <-.
        assert (DT : dep any (T n)) by (apply dep_reachStep; auto; now apply preAny).
        pose proof (winT_step n Dn Sn) as WT.
        assert (SW : sub (reachWon c (T n)) W).
        { apply reachWon_winning; auto. intros s t H'. apply reachStep_spec in H'; auto. tauto. }
        split; [apply dep_reachF; auto|]. split; auto.
        apply winF_add; auto.
        + destruct onTop; auto. intros s. rewrite pos_and, andb_true_iff. intros [H' _]. auto.
        + destruct onTop; auto. now apply winT_and_l, winT_and_l.
      - intros [[o n] f] r (Dn & Sn & Of) E. cbn [reachBody] in E. destruct (bf_eqb n o); [|discriminate].
        injection E as <-. auto.
    Qed.
  End REACH.

  Variable w : weights.
  Variable costs : costMap.
  Variable goal : BF.
  Hypothesis Dgoal : dep any goal.
  Hypothesis Dcosts : Forall (fun e => dep any (snd e)) costs.
  Hypothesis Dasms : Forall (dep any) (livenessAssumptions c).
  Hypothesis Wgoal : forall s t, trans goal s t = true -> pos W t = true.

  Record winS (s : search) : Prop := mkWinS {
    ws_found : winF (sFound s);
    ws_wt : forall u f, In (u, f) (sWT s) -> winT f;
    ws_wp : forall u f, In (u, f) (sWP s) -> sub f W }.

  Lemma set_in (P : BF -> Prop) t f m : (forall u g, In (u, g) m -> P g) -> P f -> forall u g, In (u, g) (mapSet w t f m) -> P g.
  Proof. intros H D u g I. apply mapSet_in in I. destruct I as [->|(u' & I)]; eauto. Qed.

  Lemma record_win t fd s : winS s -> winF fd -> winS (record w t fd s).
  Proof.
    intros [A B C] F. constructor; cbn; auto.
    - apply (set_in winT); auto. apply F.
    - apply (set_in (fun f => sub f W)); auto. apply F.
  Qed.

  (** The states that wait for an assumption. *)
  Lemma scc_trap pr po fin fin' cheap esc asm start states :
    dep any pr -> dep any po -> dep any fin -> dep any fin' -> dep any cheap -> dep any esc -> In asm (livenessAssumptions c) ->
    dep pre start -> winT esc ->
    sccLoop c pr po fin fin' cheap esc asm start = Some states -> dep pre states /\ sub states W.
  Proof.
    intros Dpr Dpo Df Df' Dc De Ha Ds We H. apply run_Runs in H.
    assert (Da : dep any asm) by (rewrite Forall_forall in Dasms; auto).
    set (T := sccTransitions c pr po fin fin' cheap esc asm).
    assert (DT : forall f, dep pre f -> dep any (T f)).
    { intros f D. unfold T, sccTransitions.
      repeat (apply dep_and || apply dep_or || apply dep_not); auto; try apply (Denv c Hwf); try apply (Dsys c Hwf).
      apply swapAny; auto. now apply preAny. }
    eapply (Runs_inv _ (fun st : BF * BF => dep pre (fst st) /\ dep pre (snd st) /\
                          (fst st = bfalse \/ snd st = band (fst st) (forced c (T (fst st)))))
                     (fun f => dep pre f /\ sub f W) _ _ H).
    - split; [apply dep_false|]. auto.
    - intros [o f] s' (D1 & D2 & _) E. unfold sccBody in E. destruct (bf_eqb f o); [discriminate|]. injection E as <-.
      cbn [fst snd] in *. split; auto. split; auto. apply dep_and; auto. apply (dep_forced c Hwf). now apply DT.
    - intros [o f] r (D1 & D2 & HF) E. unfold sccBody in E. destruct (bf_eqb_spec f o) as [->|]; [|discriminate]. injection E as <-.
      cbn [fst snd] in *. split; auto. destruct HF as [->|HF]; [apply sub_false|].
      apply (HW asm); auto. intros s Hs x Ex. rewrite HF, pos_and, andb_true_iff in Hs. destruct Hs as [_ Hs].
      destruct (forced_spec c Hwf (T o) s (DT o D1) Hs x) as (y & Hy). exists y.
      pose proof (env_mrg s x y Ex) as Ey.
      unfold T, sccTransitions in Hy. autorewrite with sem in Hy. rewrite Ey in Hy. cbn [negb orb] in Hy.
      rewrite trans_swap_pos in Hy by auto.
      repeat (rewrite andb_true_iff in Hy || rewrite orb_true_iff in Hy). rewrite negb_true_iff in Hy.
      destruct Hy as (_ & Hy1 & [Hy2|Hy2]); split; auto.
      + left. now apply (We s).
      + right. tauto.
  Qed.

  Lemma wait_win t fin fin' cheap esc finite i asm s s' :
    dep any fin -> dep any fin' -> dep any cheap -> dep any esc -> winT esc -> In asm (livenessAssumptions c) ->
    okS c s -> winS s -> waitFor c w goal t fin fin' cheap esc finite i asm s = Some s' -> winS s'.
  Proof.
    intros Df Df' Dc De We Ha O [Wf Wt Wp]. unfold waitFor.
    set (pr := nonTransitional (assumptionCounterPreVars c) i).
    set (po := nonTransitional (assumptionCounterPostVars c) i).
    assert (Dpr : dep any pr) by (apply dep_nonTransitional; intros v Hv; apply (counterPre c Hwf Hn) in Hv; apply Hv).
    assert (Dpo : dep any po) by (apply dep_nonTransitional; apply counterPost).
    destruct (sccLoop _ _ _ _ _ _ _ _ _) as [states|] eqn:E1; [|discriminate].
    destruct (scc_trap pr po fin fin' cheap esc asm (bnot (fPos (sFound s))) states Dpr Dpo Df Df' Dc De Ha
                (dep_not _ _ (ok_pos _ _ (os_found _ _ O))) We E1) as [Dst Sst].
    destruct (closure _ _) as [clos|]; [|discriminate]. intros E. injection E as <-.
    set (fi := finalTransitions c goal pr po fin fin' cheap esc asm states clos).
    assert (Wfi : winT fi).
    { intros a b H Eb. unfold fi, finalTransitions in H. autorewrite with sem in H. rewrite Eb in H. cbn [negb orb] in H.
      rewrite trans_swap_pos in H by auto.
      repeat (rewrite andb_true_iff in H || rewrite orb_true_iff in H).
      destruct H as (_ & _ & [[H _]|[[[[_ H] _] _] _]]); [now apply (We a)|auto]. }
    assert (F2 : winF (mkFound (bor (fPos (sFound s)) (band states (forced c fi))) (bor (fTrans (sFound s)) fi) (fData (sFound s) ++ [fi]))).
    { apply winF_add; auto. intros q. rewrite pos_and, andb_true_iff. intros [H _]. auto. }
    constructor; cbn; auto.
    - apply (set_in winT); auto. apply F2.
    - apply (set_in (fun f => sub f W)); auto. apply F2.
  Qed.

  Lemma waits_win t fin fin' cheap esc finite asms :
    dep any fin -> dep any fin' -> dep any cheap -> dep any esc -> winT esc -> incl asms (livenessAssumptions c) ->
    forall i s s', okS c s -> winS s -> waitLoop c w goal t fin fin' cheap esc finite i asms s = Some s' -> winS s' /\ okS c s'.
  Proof.
    intros Df Df' Dc De We. induction asms as [|a asms IH]; intros Hi i s s' O Ws E; cbn [waitLoop] in E.
    - injection E as <-. auto.
    - assert (Ha : In a (livenessAssumptions c)) by (apply Hi; now left).
      assert (Da : dep any a) by (rewrite Forall_forall in Dasms; auto).
      destruct (wait_one c Hwf Hn HI w goal Dgoal t fin fin' cheap esc finite Df Df' Dc De i a s Da O) as (s1 & E1 & O1 & _).
      rewrite E1 in E. apply (IH (fun x Hx => Hi x (or_intror Hx)) (S i) s1 s'); [exact O1| |exact E].
      exact (wait_win t fin fin' cheap esc finite i a s s1 Df Df' Dc De We Ha O Ws E1).
  Qed.

  Lemma winT_goal n t : winT (goalTransitions c w costs goal n t).
  Proof.
    unfold goalTransitions.
    assert (G : forall l acc, winT acc ->
      winT (fold_left (fun acc e => if tle w (mkTuple n (Some (fst e))) t
                            then bor acc (band (band (snd e) (safetySys c)) goal) else acc) l acc)).
    { induction l as [|e l IH]; intros acc D; cbn [fold_left]; auto. apply IH.
      destruct (tle _ _ _); auto. apply winT_or; auto. apply winT_and_r. intros a b H _. eauto. }
    apply G, winT_false.
  Qed.

  Lemma winT_ending t a s : okS c s -> winS s -> winT (endingTransitions c w costs goal t a s).
  Proof.
    intros O Ws. unfold endingTransitions.
    assert (G : forall l acc, winT acc ->
      winT (fold_left (fun acc e =>
        match mapFloor w (mkTuple (waitingOf t) (Some (a - fst e)%Z)) (sWP s) with
        | None => acc
        | Some f => bor acc (band (band (safetySys c) (swapPrePost c f)) (snd e))
        end) l acc)).
    { induction l as [|e l IH]; intros acc D; cbn [fold_left]; auto. apply IH.
      destruct (mapFloor _ _ _) as [f|] eqn:E; auto. apply mapFloor_in in E. destruct E as (u & E).
      apply winT_or; auto. apply winT_and_l, winT_and_r, winT_swap; [exact (os_wp c s O u f E)|exact (ws_wp s Ws u f E)]. }
    apply G, winT_goal.
  Qed.

  (** Quantifying a variable of the current state that the environment does not refer to. *)
  Lemma winT_exists vs : (forall v, In v vs -> exists k, v = 2 * k) -> (forall v, In v vs -> dep (fun u => u <> v) (safetyEnv c)) ->
    forall f, winT f -> winT (bexists vs f).
  Proof.
    intros Hev Hde f Hf s t H E. unfold trans in H. rewrite eval_exists in H. destruct H as (e & A & H).
    apply (Hf (fun k => e (2 * k)) t).
    - rewrite <- H. apply eval_ext. intros v. destruct (even_cases v) as [[k ->]|[k ->]]; [now rewrite tv_even|].
      rewrite tv_odd. rewrite <- (A (2 * k + 1)); [now rewrite tv_odd|]. intros I. apply Hev in I. destruct I. lia.
    - rewrite <- E. unfold trans.
      assert (G : forall l e e', (forall v, In v l -> dep (fun u => u <> v) (safetyEnv c)) -> agree_off l e e' ->
        eval (safetyEnv c) e = eval (safetyEnv c) e').
      { clear. induction l as [|v l IH]; intros e e' Hd A.
        - apply eval_ext. intros u. apply A. intros [].
        - rewrite (IH e (fun u => if Nat.eq_dec u v then e u else e' u)).
          + apply (Hd v); [now left|]. intros u N. now destruct (Nat.eq_dec u v).
          + intros u Hu. apply Hd. now right.
          + intros u N. destruct (Nat.eq_dec u v); auto. apply A. intros [->|I]; auto. }
      symmetry. apply (G vs); auto. intros v N.
      destruct (even_cases v) as [[k ->]|[k ->]]; [|now rewrite !tv_odd]. rewrite !tv_even. rewrite <- (A (2 * k) N). now rewrite tv_even.
  Qed.

  Lemma even_pre v : pre v -> exists k, v = 2 * k.
  Proof.
    intros [_ E]. destruct (even_cases v) as [[k ->]|[k ->]]; eauto. rewrite even_double1 in E. discriminate.
  Qed.

  Lemma winT_escapes t s : winS s -> winT (knownEscapes c w t s).
  Proof.
    intros Ws. unfold knownEscapes. destruct (mapFloor _ _ _) as [f|] eqn:E; [|apply winT_false].
    apply mapFloor_in in E. destruct E as (u & E).
    apply winT_exists.
    - intros v [<-|[]]. now apply even_pre.
    - intros v [<-|[]]. apply HEnv. now right.
    - apply winT_exists.
      + intros v Hv. now apply even_pre, (counterPre c Hwf Hn).
      + intros v Hv. apply HEnv. now left.
      + eapply ws_wt; eauto.
  Qed.

  Lemma infinite_win t s s' : okS c s -> winS s -> infiniteTuple c w goal t s = Some s' -> winS s'.
  Proof.
    intros O Ws. unfold infiniteTuple. destruct (Nat.eqb (waitingOf t) 0); [intros E; injection E as <-; auto|].
    pose proof (dep_inftyPre c HI) as D1. apply (preAny c) in D1. pose proof (dep_inftyPost c HI') as D2.
    assert (D3 : dep any (bor (band (safetySys c) goal) (knownEscapes c w t s))).
    { apply dep_or; [apply dep_and; auto; apply (Dsys c Hwf)|now apply dep_knownEscapes]. }
    assert (W3 : winT (bor (band (safetySys c) goal) (knownEscapes c w t s))).
    { apply winT_or; [|now apply winT_escapes]. apply winT_and_r. intros a b H _. eauto. }
    destruct (waitLoop _ _ _ _ _ _ _ _ _ _ _ _) as [s1|] eqn:E1; [|discriminate].
    destruct (waits_win t _ _ btrue _ false _ D1 D2 (dep_true _) D3 W3 (incl_refl _) 0 s s1 O Ws E1) as [W1 O1].
    destruct (reach _ _ _ _ _ _ _) as [fd|] eqn:E2; [|discriminate].
    assert (F : winF fd).
    { exact (reach_win (isInftyPre c) (fTrans (sFound s1)) btrue D1 (ok_trans _ _ (os_found _ _ O1)) (dep_true _)
        (wf_trans _ (ws_found _ W1)) true bfalse (sFound s1) fd (dep_false _) (sub_false _) (ws_found _ W1) E2). }
    pose proof (record_win t fd s1 W1 F) as R.
    destruct (bf_eqb _ _); intros E; injection E as <-; auto. destruct R. constructor; auto.
  Qed.

  Lemma waiting_win t s s' : okS c s -> winS s -> waitingTuple c w costs goal t s = Some s' -> winS s'.
  Proof.
    intros O Ws. unfold waitingTuple.
    pose proof (dep_inftyPre c HI) as D1. apply (preAny c), dep_not in D1. pose proof (dep_inftyPost c HI') as D2. apply dep_not in D2.
    pose proof (dep_cost0 c costs Dcosts) as D0.
    set (esc := bor (goalTransitions c w costs goal (waitingOf t - 1) t) (knownEscapes c w t s)).
    assert (D3 : dep any esc).
    { apply dep_or; [now apply dep_goalTransitions|now apply dep_knownEscapes]. }
    assert (W3 : winT esc) by (apply winT_or; [apply winT_goal|now apply winT_escapes]).
    destruct (waitLoop _ _ _ _ _ _ _ _ _ _ _ _) as [s1|] eqn:E1; [|discriminate].
    destruct (waits_win t _ _ (cost0 costs) esc true _ D1 D2 D0 D3 W3 (incl_refl _) 0 s s1 O Ws E1) as [W1 O1].
    destruct (reach _ _ _ _ _ _ _) as [fd|] eqn:E2; [|discriminate]. intros E. injection E as <-.
    apply record_win; auto.
    exact (reach_win (bnot (isInftyPre c)) (fTrans (sFound s1)) (cost0 costs) D1 (ok_trans _ _ (os_found _ _ O1)) D0
      (wf_trans _ (ws_found _ W1)) true _ (sFound s1) fd (ok_pos _ _ (os_found _ _ O1)) (wf_pos _ (ws_found _ W1)) (ws_found _ W1) E2).
  Qed.

  Lemma finite_win t a s s' : okS c s -> winS s -> finiteTuple c w costs goal t a s = Some s' -> winS s'.
  Proof.
    intros O Ws. unfold finiteTuple.
    destruct (reach _ _ _ _ _ _ _) as [fd|] eqn:E1; [|discriminate].
    assert (DG : dep any (band (preTransitional c) (bnot (isInftyPre c)))).
    { apply dep_and; [apply preAny, (dep_preTransitional c Hwf Hn)|apply dep_not, preAny, (dep_inftyPre c HI)]. }
    assert (F : winF fd).
    { exact (reach_win _ _ _ DG (dep_endingTransitions c Hwf w costs goal Dgoal Dcosts t a s O) (dep_cost0 c costs Dcosts)
        (winT_ending t a s O Ws) false bfalse (sFound s) fd (dep_false _) (sub_false _) (ws_found _ Ws) E1). }
    pose proof (record_win t fd s Ws F) as R.
    assert (O1 : okS c (record w t fd s)).
    { destruct (reach_ok c Hwf Hn HI _ _ _ DG (dep_endingTransitions c Hwf w costs goal Dgoal Dcosts t a s O) (dep_cost0 c costs Dcosts) false bfalse (sFound s) fd
        (dep_false _) (os_found c s O) E1) as [Of S1]. eapply record_ok; eauto. }
    assert (G : forall s2, winS s2 ->
      (if bf_eqb (mapLast (sWP s)) (fPos (sFound s2)) then Some s2
       else Some (mkSearch (insertAll w (newTuples costs t a) (sTodo s2)) (sFound s2) (sWT s2) (sWP s2))) = Some s' -> winS s').
    { intros s2 [A B C]. destruct (bf_eqb _ _); intros E; injection E as <-; constructor; auto. }
    destruct (Nat.eqb (waitingOf t) 0); [now apply G|].
    destruct (waitingTuple _ _ _ _ _ _) as [s2|] eqn:E2; [|discriminate]. apply G. eapply waiting_win; eauto.
  Qed.

  Lemma search_win fuel s : searchGoal c w costs goal fuel = Some s -> winS s.
  Proof.
    intros H. apply run_Runs in H.
    eapply (Runs_inv _ (fun s => okS c s /\ winS s) winS _ _ H).
    - split.
      + constructor; cbn; [constructor; cbn; [apply dep_false|apply dep_false| |constructor]|intros u f []|intros u f []].
        intros a b. rewrite trans_false. discriminate.
      + constructor; cbn; [constructor; cbn; [apply sub_false|apply winT_false|constructor]|intros u f []|intros u f []].
    - intros s1 s2 [O Ws] E. unfold tupleBody in E. destruct (sTodo s1) as [|t todo]; [discriminate|].
      set (s0 := mkSearch todo _ _ _) in E.
      assert (O0 : okS c s0) by (destruct O; constructor; auto).
      assert (W0 : winS s0) by (destruct Ws; constructor; auto).
      destruct (actionOf t) as [a|].
      + destruct (finiteTuple _ _ _ _ _ _ _) as [s3|] eqn:F; [|discriminate]. injection E as <-. split.
        * eapply finite_ok; eauto.
        * eapply finite_win; eauto.
      + destruct (infiniteTuple _ _ _ _ _) as [s3|] eqn:F; [|discriminate]. injection E as <-. split.
        * destruct (infinite_ok c Hwf Hn HI HI' w goal Dgoal Dasms t s0 O0) as [[F' _]|(s3' & F' & P & _)]; rewrite F' in F; injection F as <-; auto. apply P.
        * eapply infinite_win; eauto.
    - intros s1 s2 [O Ws] E. unfold tupleBody in E. destruct (sTodo s1) as [|t todo].
      + injection E as <-. auto.
      + destruct (match actionOf t with None => _ | Some a => _ end); discriminate.
  Qed.
End CTX.
