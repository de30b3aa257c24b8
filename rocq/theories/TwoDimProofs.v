(** * Proofs about --twoDimensionalCost: termination and safe transitions *)

From Coq Require Import String ZArith Arith List Bool Lia.
From Verif Require Import BDD Loop Spec VarTypes Synth Sem FixBase Explicit Parser TwoDim TwoDimBase.
Import ListNotations.
Local Open Scope list_scope.

(** Loops that compare the old and the current value. *)
Lemma fp2_total (body : BF * BF -> step (BF * BF) BF) (D : BF -> Prop) (F : BF -> BF) (mu : BF -> nat) n o0 v0 :
  (forall o v, body (o, v) = if bf_eqb v o then Done v else Cont (v, F v)) ->
  D o0 -> D v0 -> (forall v, D v -> D (F v)) -> (forall v, D v -> F v <> v -> mu (F v) < mu v) ->
  (forall v, D v -> mu v + 2 < 2 ^ n) ->
  exists r, run body n (o0, v0) = Some r /\ D r.
Proof.
  intros HB D0 D1 DF HM HN.
  destruct (run_total body (fun st => D (fst st) /\ D (snd st))
              (fun st => if bf_eq_dec (snd st) (F (fst st)) then mu (fst st) + 1 else mu (snd st) + 2) n (o0, v0))
    as (r & Er & Hr).
  - auto.
  - intros [o v] [Ho Hv]. rewrite HB. cbn [fst snd] in *. destruct (bf_eqb_spec v o) as [|N]; auto.
    cbn [fst snd]. split; auto. destruct (bf_eq_dec (F v) (F v)) as [_|]; [|congruence].
    destruct (bf_eq_dec v (F o)) as [E|]; [|lia]. rewrite E in N |- *. specialize (HM o Ho N). lia.
  - cbn [fst snd]. destruct (bf_eq_dec _ _); [specialize (HN o0 D0)|specialize (HN v0 D1)]; lia.
  - exists r. split; auto.
    eapply (Runs_inv body (fun st => D (fst st) /\ D (snd st)) D); [exact Hr|auto| |].
    + intros [o v] s' [Ho Hv]. rewrite HB. destruct (bf_eqb v o); [discriminate|]. intros E. injection E as <-. cbn in *. auto.
    + intros [o v] q [Ho Hv]. rewrite HB. destruct (bf_eqb v o); [|discriminate]. intros E. injection E as <-. auto.
Qed.

Section CTX.
  Variable c : ctx.
  Hypothesis Hwf : wf c.
  Hypothesis Hn : 1 <= nvars c.
  Notation pre := (isPreV c).
  Notation any := (isAnyV c).
  Let Hk := wf_kinds _ Hwf.

  Lemma Dsys : dep any (safetySys c). Proof. apply wf_safetySys; auto. Qed.
  Lemma Denv : dep any (safetyEnv c). Proof. apply (dep_Se c). apply wf_safetyEnv; auto. Qed.

  Lemma typed_pre ty v : inherits ty Pre = true -> In ty [CurrentLivenessAssumptionCounterPre; IsInftyCostPre] ->
    In v (varsOf (varTypes c) [ty]) -> isPreV c v.
  Proof.
    intros _ Hty H. apply in_varsOf in H. destruct H as (L & ty' & [<-|[]] & H).
    split; auto. rewrite nvars_spec in L by auto.
    destruct (even_cases v) as [[k ->]|[k ->]]; [apply even_double|exfalso].
    assert (Hk' : k < nvars c) by lia. pose proof (type_even c Hk k Hk') as T. rewrite type_odd in H by auto.
    clear -Hty T H. destruct Hty as [<-|[<-|[]]]; destruct (nth (2 * k) (varTypes c) NoneVariableType); cbn in *; discriminate.
  Qed.

  Lemma typed_post ty v : In ty [CurrentLivenessAssumptionCounterPost; IsInftyCostPost] ->
    In v (varsOf (varTypes c) [ty]) -> isAnyV c v.
  Proof. intros _ H. apply in_varsOf in H. apply H. Qed.

  Lemma counterPre v : In v (assumptionCounterPreVars c) -> isPreV c v.
  Proof. apply typed_pre; cbn; auto. Qed.
  Lemma counterPost v : In v (assumptionCounterPostVars c) -> isAnyV c v.
  Proof. apply typed_post; cbn; auto. Qed.

  Lemma dep_preTransitional : dep pre (preTransitional c).
  Proof.
    unfold preTransitional.
    assert (G : forall l acc, (forall v, In v l -> isPreV c v) -> dep pre acc ->
              dep pre (fold_left (fun acc v => band acc (bnot (bvar v))) l acc)).
    { induction l as [|v l IH]; intros acc H D; cbn [fold_left]; auto.
      apply IH; [intros u Hu; apply H; now right|]. apply dep_and; auto. apply dep_not, dep_var, H. now left. }
    apply G; [apply counterPre|apply dep_true].
  Qed.

  Lemma dep_nonTransitional (Q : nat -> Prop) vars i : (forall v, In v vars -> Q v) -> dep Q (nonTransitional vars i).
  Proof.
    intros H. unfold nonTransitional.
    assert (G : forall l acc, (forall e, In e l -> Q (snd e)) -> dep Q acc -> dep Q (fold_left (encodeStep i) l acc)).
    { induction l as [|v l IH]; intros acc H' D; cbn [fold_left]; auto.
      apply IH; [intros u Hu; apply H'; now right|]. unfold encodeStep. apply dep_and; auto.
      destruct (Nat.testbit _ _); [|apply dep_not]; apply dep_var, H'; now left. }
    apply G; [|apply dep_true]. intros [a b] He. cbn. apply H. eapply in_combine_r; eauto.
  Qed.

  (** Exactly one variable says that the action cost is infinite. *)
  Hypothesis HI : isPreV c (nth 0 (varsOf (varTypes c) [IsInftyCostPre]) 0).
  Hypothesis HI' : isAnyV c (nth 0 (varsOf (varTypes c) [IsInftyCostPost]) 0).

  Lemma dep_inftyPre : dep pre (isInftyPre c).
  Proof. now apply dep_var. Qed.
  Lemma dep_inftyPost : dep any (isInftyPost c).
  Proof. now apply dep_var. Qed.

  Lemma dep_forced f : dep any f -> dep pre (forced c f).
  Proof. intros D. apply dep_faPostIn; auto. apply dep_exPostOut; auto. Qed.

  Lemma forced_spec f s : dep any f -> pos (forced c f) s = true -> forall x, exists y, trans f s (mrg c x y) = true.
  Proof.
    intros D. unfold forced, pos.
    fold (trans (bforall (varCubePostInput c) (bexists (varCubePostOutput c) f)) s s).
    rewrite faPostIn_trans; auto; [|apply isPrePostIn_isAny, dep_exPostOut; auto].
    intros H x. specialize (H x). apply exPostOut_trans in H; auto. destruct H as (y & H). exists y.
    rewrite <- H. apply trans_eq. intros k. unfold mrg. now destruct (isOut c k).
  Qed.

  (** ** Waiting for an assumption *)
  Section SCC.
    Variables pr po fin fin' cheap esc asm : BF.
    Hypothesis Dpr : dep any pr.
    Hypothesis Dpo : dep any po.
    Hypothesis Dfin : dep any fin.
    Hypothesis Dfin' : dep any fin'.
    Hypothesis Dcheap : dep any cheap.
    Hypothesis Desc : dep any esc.
    Hypothesis Dasm : dep any asm.

    Ltac deps := repeat first [apply dep_and | apply dep_or | apply dep_not | assumption | apply Dsys | apply Denv
      | apply (swapAny c Hwf) | now apply (preAny c)].

    Lemma scc_total start : dep pre start ->
      exists r, sccLoop c pr po fin fin' cheap esc asm start = Some r /\ dep pre r.
    Proof.
      intros D. unfold sccLoop.
      apply (fp2_total _ (dep pre)
               (fun v => band v (forced c (sccTransitions c pr po fin fin' cheap esc asm v))) (card c)).
      - reflexivity.
      - apply dep_false.
      - exact D.
      - intros v Dv. apply dep_and; auto. apply dep_forced. unfold sccTransitions. deps.
      - intros v Dv N. apply card_lt; auto.
        + apply dep_and; auto. apply dep_forced. unfold sccTransitions. deps.
        + apply sub_and_l.
      - intros v Dv. pose proof (card_bound c v). pose proof (pow4 c Hwf Hn). lia.
    Qed.

    Lemma len_pre : length (varVectorPre c) = length (varVectorPost c).
    Proof. pose proof (vectors_spec c Hk) as H. induction H; cbn; auto. Qed.

    Lemma swapf_inter xs : forall L, (forall x, In x xs -> x < L) -> forall m, (forall x, In x xs -> x < m) -> forall v, v < m -> m <= L ->
      swapf xs (seq L (length xs)) v < m \/ (L <= swapf xs (seq L (length xs)) v < L + length xs).
    Proof.
      induction xs as [|x xs IH]; intros L HL m Hm v Hv HmL; cbn [length seq swapf].
      - auto.
      - destruct (Nat.eqb_spec v x) as [->|].
        + right. lia.
        + destruct (Nat.eqb_spec v L) as [->|]; [lia|].
          destruct (IH (S L)) with (m := m) (v := v) as [H|H]; auto.
          * intros y Hy. specialize (HL y (or_intror Hy)). lia.
          * intros y Hy. apply Hm. now right.
          * right. lia.
    Qed.

    Lemma dep_compose r : dep any r -> dep any (compose c r).
    Proof.
      intros D. unfold compose. set (L := length (varTypes c)).
      assert (Hb : forall v, In v (varVectorPre c) \/ In v (varVectorPost c) -> v < L).
      { intros v [H|H]; [unfold varVectorPre in H|unfold varVectorPost in H]; apply in_varsOf in H; apply H. }
      eapply dep_exists with (P := fun v => v < L \/ In v (intermediateVars c)); [|intros v [H|H] N; [exact H|contradiction]].
      assert (HQ : forall xs, length xs = length (varVectorPre c) -> (forall x, In x xs -> x < L) ->
                dep (fun v => v < L \/ In v (intermediateVars c)) (bswap xs (intermediateVars c) r)).
      { intros xs Hl Hx. eapply dep_swap; [exact D|]. intros v Hv. unfold intermediateVars. rewrite <- Hl.
        destruct (swapf_inter xs L Hx L Hx v Hv (le_n _)) as [H|H]; auto. right. apply in_seq. exact H. }
      apply dep_and; apply HQ; auto. symmetry. apply len_pre.
    Qed.

    Lemma closure_total r : dep any r -> exists r', closure c r = Some r' /\ dep any r'.
    Proof.
      intros D. unfold closure.
      apply (fp2_total _ (dep any) (fun v => bor v (compose c v)) (fun v => 2 ^ length (varTypes c) - tcard c v)).
      - reflexivity.
      - apply dep_false.
      - exact D.
      - intros v Dv. apply dep_or; auto. now apply dep_compose.
      - intros v Dv N.
        assert (tcard c v < tcard c (bor v (compose c v))).
        { apply tcard_lt; auto.
          - apply dep_or; auto. now apply dep_compose.
          - intros e He. rewrite eval_or, He. reflexivity. }
        pose proof (tcard_bound c (bor v (compose c v))). lia.
      - intros v _. unfold fpFuel. cbn [Nat.pow].
        assert (4 <= 2 ^ length (varTypes c)).
        { change 4 with (2 ^ 2). apply Nat.pow_le_mono_r; [lia|]. rewrite nvars_spec by auto. lia. }
        lia.
    Qed.
  End SCC.

  Ltac deps := repeat first [apply dep_and | apply dep_or | apply dep_not | assumption | apply Dsys | apply Denv
      | apply (swapAny c Hwf) | apply dep_inftyPost | apply dep_true | apply dep_false | now apply (preAny c)
      | apply (preAny c), dep_inftyPre | apply (preAny c), dep_preTransitional ].

  (** ** What holds for everything that has been found *)

  (** Transitions that obey the safety guarantees if the environment obeys its assumptions. *)
  Definition safeT (T : BF) : Prop :=
    forall s t, trans T s t = true -> trans (safetyEnv c) s t = true -> trans (safetySys c) s t = true.

  Lemma safeT_or f g : safeT f -> safeT g -> safeT (bor f g).
  Proof. intros H1 H2 s t. rewrite trans_or, orb_true_iff. intros [H|H]; auto. Qed.

  Record okF (fd : found) : Prop := mkOkF {
    ok_pos : dep pre (fPos fd);
    ok_trans : dep any (fTrans fd);
    ok_safe : safeT (fTrans fd);
    ok_data : Forall (fun f => dep any f /\ safeT f) (fData fd) }.

  Lemma okF_add fd won listed : okF fd -> dep pre won -> dep any listed -> safeT listed ->
    okF (mkFound (bor (fPos fd) won) (bor (fTrans fd) listed) (fData fd ++ [listed])).
  Proof.
    intros [] Dw Dl Hs. constructor; cbn.
    - now apply dep_or.
    - now apply dep_or.
    - now apply safeT_or.
    - apply Forall_app. split; auto.
  Qed.

  (** Positions from which the found transitions can be followed without infinite action costs. *)
  Definition supported (fd : found) : Prop :=
    sub (fPos fd) (reachWon c (band (bnot (isInftyPre c)) (band (safetySys c) (fTrans fd)))).

  Lemma dep_supp f : dep any f -> dep any (band (bnot (isInftyPre c)) (band (safetySys c) f)).
  Proof. intros D. deps. Qed.

  Lemma supported_add fd won listed : okF fd -> dep any listed -> supported fd ->
    sub won (reachWon c (band (bnot (isInftyPre c)) (band (safetySys c) listed))) ->
    supported (mkFound (bor (fPos fd) won) (bor (fTrans fd) listed) (fData fd ++ [listed])).
  Proof.
    intros O Dl HS Hw. unfold supported. cbn [fPos fTrans].
    assert (D1 : dep any (fTrans fd)) by apply O.
    assert (M : forall f, dep any f -> tsub f (bor (fTrans fd) listed) ->
              sub (reachWon c (band (bnot (isInftyPre c)) (band (safetySys c) f)))
                  (reachWon c (band (bnot (isInftyPre c)) (band (safetySys c) (bor (fTrans fd) listed))))).
    { intros f Df Hf. apply reachWon_mono; auto.
      - now apply dep_supp.
      - apply dep_supp. now apply dep_or.
      - intros s t. rewrite !trans_and, !andb_true_iff. intuition. }
    apply sub_or.
    - eapply sub_trans; [exact HS|]. apply M; auto. intros s t H. now rewrite trans_or, H.
    - eapply sub_trans; [exact Hw|]. apply M; auto. intros s t H. rewrite trans_or, H. apply orb_true_r.
  Qed.

  (** ** Reachability games *)
  Section REACH.
    Variables guard ending cheap : BF.
    Hypothesis Dg : dep any guard.
    Hypothesis De : dep any ending.
    Hypothesis Dc : dep any cheap.

    Notation T f := (reachStep c guard ending cheap f).
    Definition wonOf (onTop : bool) f := if onTop then band (reachWon c (T f)) (preTransitional c) else reachWon c (T f).
    Definition listedOf (onTop : bool) f := if onTop then band (band (T f) (reachWon c (T f))) (preTransitional c) else T f.

    Lemma reach_added onTop f fd : dep pre f -> okF fd ->
      okF (mkFound (bor (fPos fd) (wonOf onTop f)) (bor (fTrans fd) (listedOf onTop f)) (fData fd ++ [listedOf onTop f])) /\
      (tsub guard (bnot (isInftyPre c)) -> supported fd ->
       supported (mkFound (bor (fPos fd) (wonOf onTop f)) (bor (fTrans fd) (listedOf onTop f)) (fData fd ++ [listedOf onTop f]))).
    Proof.
      intros Df O.
      assert (DT : dep any (T f)) by (apply dep_reachStep; auto; now apply preAny).
      assert (DW : dep pre (reachWon c (T f))) by now apply dep_reachWon.
      assert (ST : safeT (T f)).
      { intros s t H _. apply reachStep_spec in H; auto. tauto. }
      assert (D1 : dep pre (wonOf onTop f)).
      { unfold wonOf. destruct onTop; auto. apply dep_and; auto. apply dep_preTransitional. }
      assert (D2 : dep any (listedOf onTop f)).
      { unfold listedOf. destruct onTop; auto. deps. }
      assert (S2 : safeT (listedOf onTop f)).
      { unfold listedOf. destruct onTop; auto. intros s t. rewrite !trans_and, !andb_true_iff. intros [[H _] _]. auto. }
      split; [now apply okF_add|].
      intros HG HS. apply supported_add; auto.
      intros s. rewrite reachWon_spec; [|auto|now apply dep_supp]. intros H x E.
      assert (W : pos (reachWon c (T f)) s = true /\ (onTop = true -> pos (preTransitional c) s = true)).
      { unfold wonOf in H. destruct onTop; [|split; auto; discriminate]. rewrite pos_and, andb_true_iff in H. tauto. }
      destruct W as [W W']. pose proof W as W0. rewrite reachWon_spec in W by auto.
      destruct (W x E) as (y & Hy). exists y.
      pose proof Hy as Hy'. apply reachStep_spec in Hy'; auto. destruct Hy' as (K1 & K2 & _).
      rewrite !trans_and, !andb_true_iff. split; [now apply HG|]. split; auto.
      unfold listedOf. destruct onTop; auto. rewrite !trans_and, Hy.
      rewrite (pos_trans c) by auto. rewrite (pos_trans c) by apply dep_preTransitional. rewrite W0, W'; auto.
    Qed.

    Lemma reach_ok onTop start fd fd' : dep pre start -> okF fd ->
      reach c guard ending cheap onTop start fd = Some fd' -> okF fd' /\ sub (fPos fd) (fPos fd').
    Proof.
      intros Ds O H. apply run_Runs in H.
      eapply (Runs_inv _ (fun st : BF * BF * found => let '(o, n, f) := st in dep pre n /\ okF f /\ sub (fPos fd) (fPos f))
                       (fun f => okF f /\ sub (fPos fd) (fPos f)) _ _ H).
      - split; auto. split; auto. apply sub_refl.
      - intros [[o n] f] [[o' n'] f'] (Dn & Of & Hs) E. cbn [reachBody] in E. destruct (bf_eqb n o); [discriminate|].
        injection E as <- <- <-.
        split; [|split].
        + apply dep_reachF; auto.
        + apply (reach_added onTop n f Dn Of).
        + cbn. eapply sub_trans; [exact Hs|apply sub_or_l].
      - intros [[o n] f] r (Dn & Of & Hs) E. cbn [reachBody] in E. destruct (bf_eqb n o); [|discriminate].
        injection E as <-. auto.
    Qed.

    Lemma reach_ends onTop start fd : dep pre start -> okF fd ->
      sub (reachF c guard ending cheap start) (reachF c guard ending cheap (reachF c guard ending cheap start)) ->
      exists fd', reach c guard ending cheap onTop start fd = Some fd' /\
        (tsub guard (bnot (isInftyPre c)) -> supported fd -> supported fd').
    Proof.
      intros Ds O Hs.
      destruct (reach_total c Hwf Hn guard ending cheap Dg De Dc onTop start fd
        (fun ps tr dt => okF (mkFound ps tr dt) /\ (tsub guard (bnot (isInftyPre c)) -> supported fd -> supported (mkFound ps tr dt))))
        as (fd' & E & _ & H); auto.
      - destruct fd; auto.
      - intros f ps tr dt Df [O' H']. cbv zeta.
        destruct (reach_added onTop f (mkFound ps tr dt) Df O') as [A1 A2]. cbn [fPos fTrans fData] in A1, A2.
        split; [exact A1|]. intros HG HS. apply A2; auto.
      - exists fd'. split; auto.
    Qed.
  End REACH.

  (** ** One cost tuple *)
  Variable w : weights.
  Variable costs : costMap.
  Variable goal : BF.
  Hypothesis Dgoal : dep any goal.
  Hypothesis Dcosts : Forall (fun e => dep any (snd e)) costs.
  Hypothesis Dasms : Forall (dep any) (livenessAssumptions c).

  Lemma dep_cost0 : dep any (cost0 costs).
  Proof.
    unfold cost0. clear -Dcosts. induction costs as [|[k f] m IH]; cbn; [apply dep_false|].
    inversion Dcosts; subst. destruct k; cbn; auto.
  Qed.

  Definition okM (Q : nat -> Prop) (m : tmap) : Prop := forall u f, In (u, f) m -> dep Q f.

  Lemma okM_set (Q : nat -> Prop) t f m : okM Q m -> dep Q f -> okM Q (mapSet w t f m).
  Proof. intros H D u g I. apply mapSet_in in I. destruct I as [->|(u' & I)]; eauto. Qed.

  Record okS (s : search) : Prop := mkOkS {
    os_found : okF (sFound s);
    os_wt : okM any (sWT s);
    os_wp : okM pre (sWP s) }.

  (** One step to a state with the same todo list, more positions, and where only the entry of [t] has been set. *)
  Definition atKey (t : tuple) (m : tmap) (s : search) : Prop := sWP s = m \/ exists f, sWP s = m ++ [(t, f)].
  Definition below (m : tmap) (t : tuple) : Prop := forall u g, In (u, g) m -> tlt w u t = true.
  Definition keyed (t : tuple) (s s' : search) : Prop :=
    sTodo s' = sTodo s /\ sub (fPos (sFound s)) (fPos (sFound s')) /\
    (forall m, below m t -> atKey t m s -> atKey t m s') /\
    (forall P : tmap -> Prop, (forall m f, P m -> P (mapSet w t f m)) -> P (sWP s) -> P (sWP s')).

  Lemma set_key t m f s : below m t -> atKey t m s -> mapSet w t f (sWP s) = m ++ [(t, f)].
  Proof.
    intros Hm [E|(g & E)]; rewrite E; [now apply mapSet_last|now apply mapSet_again].
  Qed.

  Lemma keyed_set t s fd wt : sub (fPos (sFound s)) (fPos fd) ->
    keyed t s (mkSearch (sTodo s) fd wt (mapSet w t (fPos fd) (sWP s))).
  Proof.
    intros H. split; [reflexivity|]. split; [exact H|]. split; [|cbn; auto]. intros m Hm A. right. exists (fPos fd). cbn.
    now apply set_key.
  Qed.

  Lemma keyed_refl t s : keyed t s s.
  Proof. split; [reflexivity|]. split; [apply sub_refl|auto]. Qed.
  Lemma keyed_trans t a b d : keyed t a b -> keyed t b d -> keyed t a d.
  Proof.
    intros (E1 & S1 & M1 & P1) (E2 & S2 & M2 & P2). split; [congruence|]. split; [exact (sub_trans _ _ _ S1 S2)|].
    split; [intros m Hm A; apply M2; auto; now apply M1|]. intros P HP H0. apply P2; auto. now apply P1.
  Qed.

  Section WAIT.
    Variables (t : tuple) (fin fin' cheap esc : BF) (finite : bool).
    Hypothesis Dfin : dep any fin.
    Hypothesis Dfin' : dep any fin'.
    Hypothesis Dcheap : dep any cheap.
    Hypothesis Desc : dep any esc.

    Lemma wait_one i asm s : dep any asm -> okS s ->
      exists s', waitFor c w goal t fin fin' cheap esc finite i asm s = Some s' /\ okS s' /\ keyed t s s' /\
        (tsub fin (bnot (isInftyPre c)) -> supported (sFound s) -> supported (sFound s')).
    Proof.
      intros Dasm [Of Owt Owp]. unfold waitFor.
      set (pr := nonTransitional (assumptionCounterPreVars c) i).
      set (po := nonTransitional (assumptionCounterPostVars c) i).
      assert (Dpr : dep any pr) by (apply dep_nonTransitional; intros v Hv; apply counterPre in Hv; apply Hv).
      assert (Dpo : dep any po) by (apply dep_nonTransitional; apply counterPost).
      assert (Dp : dep pre (fPos (sFound s))) by apply Of.
      destruct (scc_total pr po fin fin' cheap esc asm Dpr Dpo Dfin Dfin' Dcheap Desc Dasm (bnot (fPos (sFound s))))
        as (st & -> & Dst); [now apply dep_not|].
      set (ex := if finite then _ else _).
      assert (Dex : dep any ex).
      { subst ex. destruct finite; [|apply dep_false]. destruct (mapFloor w t (sWP s)) as [f|] eqn:E; [|apply dep_false].
        apply mapFloor_in in E. destruct E as (u & E). apply (preAny c). eapply Owp; eauto. }
      destruct (closure_total (internalTransitions c pr po fin fin' cheap asm ex st)) as (cl & -> & Dcl).
      { unfold internalTransitions. deps. }
      set (fi := finalTransitions c goal pr po fin fin' cheap esc asm st cl).
      assert (Dfi : dep any fi) by (unfold fi, finalTransitions; deps).
      assert (Sfi : safeT fi).
      { intros a b H E. unfold fi, finalTransitions in H. autorewrite with sem in H. rewrite E in H. cbn [negb orb] in H.
        rewrite !andb_true_iff in H. tauto. }
      assert (Dw : dep pre (band st (forced c fi))) by (apply dep_and; auto; now apply dep_forced).
      eexists. split; [reflexivity|]. cbn [sFound sWP].
      pose proof (okF_add _ _ _ Of Dw Dfi Sfi) as O2.
      split; [|split].
      - constructor; cbn; auto.
        + apply okM_set; auto. apply O2.
        + apply okM_set; auto. apply O2.
      - apply (keyed_set t s (mkFound (bor (fPos (sFound s)) (band st (forced c fi))) (bor (fTrans (sFound s)) fi) (fData (sFound s) ++ [fi]))).
        apply sub_or_l.
      - intros HF HS. apply supported_add; auto.
        intros q. rewrite pos_and, andb_true_iff. intros [_ H]. rewrite reachWon_spec; [|auto|now apply dep_supp].
        intros x E. destruct (forced_spec fi q Dfi H x) as (y & Hy). exists y.
        assert (E' : trans (safetyEnv c) q (mrg c x y) = true).
        { rewrite (safeE_in c (wf_safetyEnv _ Hwf) q x y x), <- E. apply trans_eq. intros k. unfold mrg. now destruct (isOut c k). }
        rewrite !trans_and, !andb_true_iff. split; [|split; auto].
        apply HF. unfold fi, finalTransitions in Hy. autorewrite with sem in Hy. rewrite !andb_true_iff in Hy. tauto.
    Qed.

    Lemma wait_all asms : Forall (dep any) asms -> forall i s, okS s ->
      exists s', waitLoop c w goal t fin fin' cheap esc finite i asms s = Some s' /\ okS s' /\ keyed t s s' /\
        (tsub fin (bnot (isInftyPre c)) -> supported (sFound s) -> supported (sFound s')).
    Proof.
      induction 1 as [|a asms Da Das IH]; intros i s O; cbn [waitLoop].
      - exists s. split; auto. split; auto. split; [apply keyed_refl|auto].
      - destruct (wait_one i a s Da O) as (s1 & -> & O1 & K1 & U1).
        destruct (IH (S i) s1 O1) as (s2 & E & O2 & K2 & U2).
        exists s2. split; auto. split; auto. split; [eapply keyed_trans; eauto|auto].
    Qed.
  End WAIT.

  Lemma dep_goalTransitions n t : dep any (goalTransitions c w costs goal n t).
  Proof.
    unfold goalTransitions.
    assert (G : forall l acc, Forall (fun e : Z * BF => dep any (snd e)) l -> dep any acc ->
      dep any (fold_left (fun acc e => if tle w (mkTuple n (Some (fst e))) t
                            then bor acc (band (band (snd e) (safetySys c)) goal) else acc) l acc)).
    { induction l as [|e l IH]; intros acc F D; cbn [fold_left]; auto. inversion F; subst. apply IH; auto.
      destruct (tle _ _ _); auto. deps. }
    apply G; auto. apply dep_false.
  Qed.

  Lemma dep_endingTransitions t a s : okS s -> dep any (endingTransitions c w costs goal t a s).
  Proof.
    intros O. unfold endingTransitions.
    assert (G : forall l acc, Forall (fun e : Z * BF => dep any (snd e)) l -> dep any acc ->
      dep any (fold_left (fun acc e =>
        match mapFloor w (mkTuple (waitingOf t) (Some (a - fst e)%Z)) (sWP s) with
        | None => acc
        | Some f => bor acc (band (band (safetySys c) (swapPrePost c f)) (snd e))
        end) l acc)).
    { induction l as [|e l IH]; intros acc F D; cbn [fold_left]; auto. inversion F; subst. apply IH; auto.
      destruct (mapFloor _ _ _) as [f|] eqn:E; auto. apply mapFloor_in in E. destruct E as (u & E).
      pose proof (os_wp s O u f E). deps. }
    apply G; auto. apply dep_goalTransitions.
  Qed.

  Lemma dep_knownEscapes t s : okS s -> dep any (knownEscapes c w t s).
  Proof.
    intros O. unfold knownEscapes. destruct (mapFloor _ _ _) as [f|] eqn:E; [|apply dep_false].
    apply mapFloor_in in E. destruct E as (u & E). pose proof (os_wt s O u f E) as D.
    eapply dep_exists; [|intros v Hv _; exact Hv]. eapply dep_exists; [exact D|intros v Hv _; exact Hv].
  Qed.

  Lemma record_ok t fd s : okS s -> okF fd -> sub (fPos (sFound s)) (fPos fd) ->
    okS (record w t fd s) /\ keyed t s (record w t fd s).
  Proof.
    intros O Of H. split; [|now apply keyed_set].
    constructor; cbn; auto; apply okM_set; try apply O; apply Of.
  Qed.

  (** What a tuple does to the state. *)
  Definition processed (t : tuple) (s s' : search) : Prop :=
    okS s' /\ sub (fPos (sFound s)) (fPos (sFound s')) /\
    (forall m, below m t -> sWP s = m -> sWP s' = m ++ [(t, fPos (sFound s'))]) /\
    (forall P : tmap -> Prop, (forall m f, P m -> P (mapSet w t f m)) -> P (sWP s) -> P (sWP s')).

  Lemma record_processed t fd s s' : okS s' -> keyed t s s' -> okF fd -> sub (fPos (sFound s')) (fPos fd) ->
    processed t s (record w t fd s') /\ sTodo (record w t fd s') = sTodo s.
  Proof.
    intros O (K1 & K2 & K3 & K4) Of H. split; [|exact K1].
    split; [now apply record_ok|]. split; [cbn; eapply sub_trans; eauto|]. split; [|cbn; intros P HP H0; apply HP; now apply K4].
    intros m Hm E. cbn. apply set_key; auto. apply K3; auto. now left.
  Qed.

  Lemma infinite_ok t s : okS s ->
    infiniteTuple c w goal t s = Some s /\ waitingOf t = 0 \/
    exists s', infiniteTuple c w goal t s = Some s' /\ processed t s s' /\
      (sTodo s' = sTodo s \/
       fPos (sFound s') <> mapLast (sWP s) /\ sTodo s' = tinsert w (mkTuple (S (waitingOf t)) (actionOf t)) (sTodo s)).
  Proof.
    intros O. unfold infiniteTuple. destruct (Nat.eqb_spec (waitingOf t) 0) as [|N]; [now left|right].
    destruct (wait_all t (isInftyPre c) (isInftyPost c) btrue (bor (band (safetySys c) goal) (knownEscapes c w t s)) false
                ltac:(deps) ltac:(deps) ltac:(deps) ltac:(deps; now apply dep_knownEscapes) _ Dasms 0 s O)
      as (s1 & -> & O1 & K1 & _).
    pose proof (os_found _ O1) as Of1. pose proof (ok_trans _ Of1) as D1.
    destruct (reach_ends (isInftyPre c) (fTrans (sFound s1)) btrue ltac:(deps) D1 ltac:(deps) true bfalse (sFound s1))
      as (fd & E & _).
    { apply dep_false. } { exact Of1. }
    { apply reach_start_empty; auto; deps. }
    rewrite E. destruct (reach_ok (isInftyPre c) (fTrans (sFound s1)) btrue ltac:(deps) D1 ltac:(deps) true bfalse (sFound s1) fd ltac:(deps) Of1 E) as [Of2 S2].
    destruct (record_processed t fd s s1 O1 K1 Of2 S2) as [P T].
    destruct (bf_eqb_spec (mapLast (sWP s)) (fPos fd)) as [Eq|Ne].
    - eexists. split; [reflexivity|]. split; [exact P|now left].
    - eexists. split; [reflexivity|]. split.
      + destruct P as ([P1 P2 P3] & P4 & P5). split; [constructor; auto|]. auto.
      + right. cbn [sFound sTodo record] in *. split; [congruence|]. now rewrite T.
  Qed.

  Lemma waiting_ok t s s' : okS s -> waitingTuple c w costs goal t s = Some s' ->
    exists s1 fd, s' = record w t fd s1 /\ okS s1 /\ keyed t s s1 /\ okF fd /\ sub (fPos (sFound s1)) (fPos fd).
  Proof.
    intros O. unfold waitingTuple. pose proof dep_cost0 as D0.
    destruct (wait_all t (bnot (isInftyPre c)) (bnot (isInftyPost c)) (cost0 costs)
                (bor (goalTransitions c w costs goal (waitingOf t - 1) t) (knownEscapes c w t s)) true
                ltac:(deps) ltac:(deps) D0
                ltac:(apply dep_or; [apply dep_goalTransitions|now apply dep_knownEscapes]) _ Dasms 0 s O)
      as (s1 & -> & O1 & K1 & _).
    pose proof (os_found _ O1) as Of1. pose proof (ok_trans _ Of1) as D1.
    destruct (reach _ _ _ _ _ _ _) as [fd|] eqn:E; [|discriminate].
    intros H. injection H as <-.
    destruct (reach_ok (bnot (isInftyPre c)) (fTrans (sFound s1)) (cost0 costs) ltac:(deps) D1 D0 _ _ _ _ (ok_pos _ Of1) Of1 E) as [Of2 S2].
    exists s1, fd. auto.
  Qed.

  Lemma waiting_ends t s : okS s -> supported (sFound s) ->
    exists s', waitingTuple c w costs goal t s = Some s' /\ supported (sFound s').
  Proof.
    intros O U. unfold waitingTuple. pose proof dep_cost0 as D0.
    destruct (wait_all t (bnot (isInftyPre c)) (bnot (isInftyPost c)) (cost0 costs)
                (bor (goalTransitions c w costs goal (waitingOf t - 1) t) (knownEscapes c w t s)) true
                ltac:(deps) ltac:(deps) D0
                ltac:(apply dep_or; [apply dep_goalTransitions|now apply dep_knownEscapes]) _ Dasms 0 s O)
      as (s1 & -> & O1 & K1 & U1).
    specialize (U1 (tsub_refl _) U).
    pose proof (os_found _ O1) as Of1. pose proof (ok_trans _ Of1) as D1.
    destruct (reach_ends (bnot (isInftyPre c)) (fTrans (sFound s1)) (cost0 costs) ltac:(deps) D1 D0 true (fPos (sFound s1)) (sFound s1))
      as (fd & E & UF).
    { apply Of1. } { exact Of1. }
    { apply reach_start_closed; auto; [deps|apply Of1|].
      eapply sub_trans; [exact U1|]. apply reachWon_mono; auto.
      - now apply dep_supp.
      - apply dep_reachStep; auto; [deps|apply preAny, Of1].
      - intros a b. rewrite reachStep_spec; [|exact Hwf|apply Of1]. rewrite !trans_and, !andb_true_iff. tauto. }
    rewrite E. eexists. split; [reflexivity|]. cbn. apply UF; auto. apply tsub_refl.
  Qed.

  Definition finiteNext (t : tuple) (a : Z) (s s' : search) : Prop :=
    processed t s s' /\
    (sTodo s' = sTodo s \/
     fPos (sFound s') <> mapLast (sWP s) /\ sTodo s' = insertAll w (newTuples costs t a) (sTodo s)).

  Lemma start_guard : dep any (band (preTransitional c) (bnot (isInftyPre c))).
  Proof. deps. Qed.

  Lemma finite_ok t a s s' : okS s -> finiteTuple c w costs goal t a s = Some s' -> finiteNext t a s s'.
  Proof.
    intros O. unfold finiteTuple. pose proof dep_cost0 as D0. pose proof (dep_endingTransitions t a s O) as DE.
    destruct (reach _ _ _ _ _ _ _) as [fd|] eqn:E; [|discriminate].
    destruct (reach_ok _ _ _ start_guard DE D0 false bfalse (sFound s) fd ltac:(deps) (os_found _ O) E) as [Of S1].
    destruct (record_ok t fd s O Of S1) as [O1 K1].
    assert (G : forall s2, processed t s s2 /\ sTodo s2 = sTodo s ->
      (if bf_eqb (mapLast (sWP s)) (fPos (sFound s2)) then Some s2
       else Some (mkSearch (insertAll w (newTuples costs t a) (sTodo s2)) (sFound s2) (sWT s2) (sWP s2))) = Some s' ->
      finiteNext t a s s').
    { intros s2 [P T] H. destruct (bf_eqb_spec (mapLast (sWP s)) (fPos (sFound s2))) as [Eq|Ne]; injection H as <-.
      - split; auto.
      - split.
        + destruct P as ([P1 P2 P3] & P4 & P5). split; [constructor; auto|]. auto.
        + right. cbn. split; [congruence|]. now rewrite T. }
    destruct (Nat.eqb (waitingOf t) 0).
    - apply G. apply record_processed; auto. apply keyed_refl.
    - destruct (waitingTuple _ _ _ _ _ _) as [s2|] eqn:E2; [|discriminate].
      destruct (waiting_ok t _ _ O1 E2) as (s3 & fd' & -> & O3 & K3 & Of3 & S3).
      apply G. apply record_processed; auto. eapply keyed_trans; eauto.
  Qed.

  Lemma finite_ends t a s : okS s -> supported (sFound s) ->
    exists s', finiteTuple c w costs goal t a s = Some s' /\ supported (sFound s').
  Proof.
    intros O U. unfold finiteTuple. pose proof dep_cost0 as D0. pose proof (dep_endingTransitions t a s O) as DE.
    destruct (reach_ends _ _ _ start_guard DE D0 false bfalse (sFound s) ltac:(deps) (os_found _ O)) as (fd & E & UF).
    { apply reach_start_empty; auto. apply start_guard. }
    rewrite E.
    destruct (reach_ok _ _ _ start_guard DE D0 false bfalse (sFound s) fd ltac:(deps) (os_found _ O) E) as [Of S1].
    destruct (record_ok t fd s O Of S1) as [O1 K1].
    assert (U1 : supported fd).
    { apply UF; auto. intros x y. rewrite trans_and, andb_true_iff. tauto. }
    assert (G : forall s2, supported (sFound s2) -> exists s',
      (if bf_eqb (mapLast (sWP s)) (fPos (sFound s2)) then Some s2
       else Some (mkSearch (insertAll w (newTuples costs t a) (sTodo s2)) (sFound s2) (sWT s2) (sWP s2))) = Some s' /\
      supported (sFound s')).
    { intros s2 U2. destruct (bf_eqb _ _); eexists; (split; [reflexivity|]); auto. }
    destruct (Nat.eqb (waitingOf t) 0).
    - now apply G.
    - destruct (waiting_ends t (record w t fd s) O1 U1) as (s2 & -> & U2). now apply G.
  Qed.

  (** ** Safety of everything that is listed *)

  Lemma search_ok fuel s : searchGoal c w costs goal fuel = Some s -> okS s.
  Proof.
    intros H. apply run_Runs in H.
    eapply (Runs_inv _ okS okS _ _ H).
    - constructor; cbn; [constructor; cbn; [apply dep_false|apply dep_false| |constructor]|intros u f []|intros u f []].
      intros a b. rewrite trans_false. discriminate.
    - intros s1 s2 O E. unfold tupleBody in E. destruct (sTodo s1) as [|t todo]; [discriminate|].
      set (s0 := mkSearch todo _ _ _) in E.
      assert (O0 : okS s0) by (destruct O; constructor; auto).
      destruct (actionOf t) as [a|].
      + destruct (finiteTuple _ _ _ _ _ _ _) as [s3|] eqn:F; [|discriminate]. injection E as <-.
        apply (finite_ok t a s0 s3 O0 F).
      + destruct (infinite_ok t s0 O0) as [[F _]|(s3 & F & P & _)]; rewrite F in E; injection E as <-; auto. apply P.
    - intros s1 s2 O E. unfold tupleBody in E. destruct (sTodo s1) as [|t todo].
      + injection E as <-. auto.
      + destruct (match actionOf t with None => _ | Some a => _ end); discriminate.
  Qed.

  (** ** Termination *)
  Hypothesis Haction : (0 < actionWeight w)%Z.
  Hypothesis Hwaiting : (0 <= waitingWeight w)%Z.
  Hypothesis Hcosts : Forall (fun e => (0 <= fst e)%Z) costs.

  Lemma comb_finite n a : combinedOf w (mkTuple n (Some a)) = Some (waitingWeight w * Z.of_nat n + actionWeight w * a)%Z.
  Proof. unfold combinedOf. cbn. destruct (Z.ltb_spec 0 (actionWeight w)); [auto|lia]. Qed.
  Lemma comb_inf n : combinedOf w (mkTuple n None) = None.
  Proof. unfold combinedOf. cbn. destruct (Z.ltb_spec 0 (actionWeight w)); [auto|lia]. Qed.

  Lemma inf_last t u : actionOf t = None -> tlt w t u = true -> actionOf u = None.
  Proof.
    destruct t as [n x], u as [n' x']; cbn. intros ->. destruct x' as [a|]; auto.
    rewrite tlt_spec, comb_inf, comb_finite. cbn. intros [H|[H _]]; discriminate.
  Qed.

  Lemma later_wait n x : tlt w (mkTuple n x) (mkTuple (S n) x) = true.
  Proof.
    apply tlt_spec. destruct x as [a|].
    - rewrite !comb_finite. cbn [xlt].
      destruct (Z.ltb_spec (waitingWeight w * Z.of_nat n + actionWeight w * a) (waitingWeight w * Z.of_nat (S n) + actionWeight w * a)) as [|L]; auto.
      right. split; [f_equal; nia|]. cbn. destruct (waitingPreferred w); right + left; split + idtac; auto; lia.
    - rewrite !comb_inf. right. split; auto. cbn. destruct (waitingPreferred w); [left|right]; auto.
  Qed.

  Lemma later_action n n' a k : (0 < k)%Z -> n <= n' -> tlt w (mkTuple n (Some a)) (mkTuple n' (Some (k + a)%Z)) = true.
  Proof.
    intros Hk' L. apply tlt_spec. left. rewrite !comb_finite. cbn. apply Z.ltb_lt. nia.
  Qed.

  Lemma new_later t a u : actionOf t = Some a -> In u (newTuples costs t a) -> tlt w t u = true.
  Proof.
    destruct t as [n x]; cbn. intros ->. intros [<-|H]; [apply later_wait|].
    apply in_flat_map in H. destruct H as ([k f] & Hin & H). cbn [fst] in H.
    rewrite Forall_forall in Hcosts. specialize (Hcosts _ Hin). cbn in Hcosts.
    destruct (Z.eqb_spec k 0); [destruct H|]. destruct H as [<-|[<-|[]]]; apply later_action; lia.
  Qed.

  Lemma new_length t a : length (newTuples costs t a) <= 2 * length costs + 1.
  Proof.
    unfold newTuples. cbn [length]. clear. induction costs as [|[k f] m IH]; cbn [flat_map length]; [lia|].
    rewrite app_length. cbn [fst]. destruct (k =? 0)%Z; cbn [length]; lia.
  Qed.

  Record looping (s : search) : Prop := mkLooping {
    lo_ok : okS s;
    lo_sorted : sorted w (sTodo s);
    lo_below : forall t, In t (sTodo s) -> below (sWP s) t;
    lo_last : mapLast (sWP s) = fPos (sFound s);
    lo_supp : (exists t a, In t (sTodo s) /\ actionOf t = Some a) -> supported (sFound s) }.

  Definition measure (s : search) : nat :=
    (2 ^ nvars c - card c (fPos (sFound s))) * (2 * length costs + 2) + length (sTodo s).

  Lemma measure_less s s' extra n : okF (sFound s) -> okF (sFound s') -> sub (fPos (sFound s)) (fPos (sFound s')) ->
    length (sTodo s) = S n -> (length (sTodo s') <= n \/ fPos (sFound s') <> fPos (sFound s) /\ length (sTodo s') <= extra + n) ->
    extra <= 2 * length costs + 1 -> measure s' < measure s.
  Proof.
    intros O O' Hs E H Hx. unfold measure.
    pose proof (card_bound c (fPos (sFound s'))) as B.
    assert (L : card c (fPos (sFound s)) <= card c (fPos (sFound s'))).
    { destruct (bf_eq_dec (fPos (sFound s)) (fPos (sFound s'))) as [->|N]; auto.
      apply Nat.lt_le_incl, card_lt; auto; [apply O|apply O']. }
    destruct H as [H|[N H]].
    - nia.
    - assert (card c (fPos (sFound s)) < card c (fPos (sFound s'))).
      { apply card_lt; auto; [apply O|apply O']. }
      nia.
  Qed.

  Lemma body_looping s : looping s ->
    match tupleBody c w costs goal s with
    | Cont s' => looping s' /\ measure s' < measure s
    | Done _ => True
    | Abort => False
    end.
  Proof.
    intros [O Hs Hb Hl Hu]. unfold tupleBody. destruct (sTodo s) as [|t todo] eqn:E; auto.
    set (s0 := mkSearch todo (sFound s) (sWT s) (sWP s)).
    assert (O0 : okS s0) by (destruct O; constructor; auto).
    destruct Hs as [Hs1 Hs2].
    assert (Hbt : below (sWP s0) t) by (apply Hb; now left).
    (* the new entry is below everything that is later than [t] *)
    assert (Key : forall s' f u, sWP s' = sWP s0 ++ [(t, f)] -> tlt w t u = true -> below (sWP s') u).
    { intros s' f u E' Hu' v g I. rewrite E' in I. apply in_app_iff in I. destruct I as [I|[I|[]]].
      - eapply tlt_trans; [|exact Hu']. eapply Hbt; eauto.
      - injection I as <- <-. exact Hu'. }
    destruct (actionOf t) as [a|] eqn:A.
    - destruct (finite_ends t a s0 O0) as (s' & F & U).
      { apply Hu. exists t, a. split; [now left|auto]. }
      rewrite F. destruct (finite_ok t a s0 s' O0 F) as [(O' & S' & K' & _) T'].
      specialize (K' (sWP s0) Hbt eq_refl).
      assert (L : sorted w (sTodo s') /\ forall u, In u (sTodo s') -> tlt w t u = true).
      { destruct T' as [->|[_ ->]]; [cbn; auto|].
        destruct (insertAll_spec w (newTuples costs t a) (sTodo s0) Hs2) as (I1 & _ & I3).
        split; auto. intros u Hu'. apply I3 in Hu'. destruct Hu' as [H|H]; [eapply new_later; eauto|auto]. }
      destruct L as [L1 L2]. split.
      + constructor; auto.
        * intros u Hu'. eapply Key; eauto.
        * rewrite K'. apply mapLast_app.
      + apply (measure_less s s' (2 * length costs + 1) (length todo)); auto.
        * apply O.
        * apply O'.
        * now rewrite E.
        * destruct T' as [->|[Ne ->]]; [now left|right].
          split; [cbn in Ne; congruence|].
          destruct (insertAll_spec w (newTuples costs t a) (sTodo s0) Hs2) as (_ & I2 & _).
          pose proof (new_length t a). cbn [sTodo s0] in *. lia.
    - assert (NF : forall u, In u todo -> actionOf u = None) by (intros u H; apply (inf_last t u A); auto).
      destruct (infinite_ok t s0 O0) as [[F W]|(s' & F & (O' & S' & K' & _) & T')]; rewrite F.
      + split.
        * constructor; cbn; auto.
          -- intros u H. apply Hb. now right.
          -- intros (u & a & H & H'). rewrite (NF u H) in H'. discriminate.
        * unfold measure. cbn. rewrite E. cbn. lia.
      + specialize (K' (sWP s0) Hbt eq_refl).
        assert (L : sorted w (sTodo s') /\ forall u, In u (sTodo s') -> tlt w t u = true).
        { destruct T' as [->|[_ ->]]; [cbn; auto|]. split; [now apply tinsert_sorted|].
          intros u H. apply tinsert_in in H. destruct H as [->|H]; auto.
          destruct t as [n x]. cbn in A |- *. subst x. apply later_wait. }
        destruct L as [L1 L2]. split.
        * constructor; auto.
          -- intros u Hu'. eapply Key; eauto.
          -- rewrite K'. apply mapLast_app.
          -- intros (u & a & H & H'). rewrite (inf_last t u A (L2 u H)) in H'. discriminate.
        * apply (measure_less s s' 1 (length todo)); auto; [apply O|apply O'|now rewrite E| |lia].
          destruct T' as [->|[Ne ->]]; [now left|right]. split; [cbn in Ne; congruence|].
          apply tinsert_length.
  Qed.

  Lemma search_ends : exists n, forall fuel, n <= fuel -> exists s, searchGoal c w costs goal fuel = Some s.
  Proof.
    exists (measure (startSearch w costs)). intros fuel Hf.
    destruct (run_total (tupleBody c w costs goal) looping measure fuel (startSearch w costs)) as (r & Er & _).
    - destruct (insertAll_spec w (map (fun e : Z * BF => mkTuple 0 (Some (fst e))) costs) [] I) as (I1 & _ & I3).
      constructor.
      + constructor; cbn; [constructor; cbn; [apply dep_false|apply dep_false| |constructor]|intros u f []|intros u f []].
        intros a b. rewrite trans_false. discriminate.
      + now apply tinsert_sorted.
      + intros u _ v g [].
      + reflexivity.
      + intros _. apply sub_false.
    - exact body_looping.
    - eapply Nat.le_lt_trans; [exact Hf|]. apply Nat.pow_gt_lin_r. lia.
    - eauto.
  Qed.
End CTX.
