(** * Proofs about --twoDimensionalCost: the extended context and the loops *)

From Coq Require Import String ZArith Arith List Bool Lia.
From Verif Require Import BDD Loop Spec VarTypes Synth Sem FixBase Explicit Parser TwoDim.
Import ListNotations.
Local Open Scope list_scope.

(** ** The extended context *)

Lemma typesOf_app a b : typesOf (a ++ b) = typesOf a ++ typesOf b.
Proof. unfold typesOf. apply flat_map_app. Qed.

(** [c'] has all variables of [c] and additional ones; the formulas that describe the game are the same,
    up to guarantees and the initial condition for the system. *)
Record extends (c c' : ctx) (ks : list VariableType) : Prop := mkExt {
  ex_types : varTypes c' = varTypes c ++ typesOf ks;
  ex_asm : livenessAssumptions c' = livenessAssumptions c;
  ex_initEnv : initEnv c' = initEnv c;
  ex_initSys : initSys c' = initSys c;
  ex_safetyEnv : safetyEnv c' = safetyEnv c;
  ex_safetySys : safetySys c' = safetySys c }.

Lemma extends_counter c c' ks i : extends c c' ks ->
  extends c (addCounter c' i) (ks ++ [CurrentLivenessAssumptionCounterPre]).
Proof.
  intros []. constructor; cbn; auto. rewrite ex_types0, typesOf_app, <- app_assoc. reflexivity.
Qed.

Lemma extends_counters c l : forall c' ks, extends c c' ks ->
  extends c (fold_left addCounter l c') (ks ++ map (fun _ => CurrentLivenessAssumptionCounterPre) l) /\
  livenessGuarantees (fold_left addCounter l c') = livenessGuarantees c'.
Proof.
  induction l as [|i l IH]; intros c' ks H; cbn [fold_left map].
  - rewrite app_nil_r. auto.
  - destruct (IH _ _ (extends_counter c c' ks i H)) as [E G]. rewrite <- app_assoc in E. split; [exact E|].
    rewrite G. reflexivity.
Qed.

Definition helperKinds (c : ctx) : list VariableType :=
  map (fun _ => CurrentLivenessAssumptionCounterPre) (helperBits c) ++ [IsInftyCostPre].

Lemma extend_spec c w : extends c (extendCtx c w) (helperKinds c) /\
  livenessGuarantees (extendCtx c w) = map (fun g => band g (swapPrePost c w)) (livenessGuarantees c).
Proof.
  unfold extendCtx.
  destruct (extends_counters c (helperBits c) (strengthenGoals c w) []) as [[] G].
  { constructor; cbn; auto. now rewrite app_nil_r. }
  split; [|exact G].
  constructor; cbn [addInfty varTypes livenessAssumptions initEnv initSys safetyEnv safetySys]; auto.
  rewrite ex_types0. unfold helperKinds. cbn [app]. rewrite typesOf_app, <- app_assoc. reflexivity.
Qed.

Lemma helperKinds_pre c : forallb isPreKind (helperKinds c) = true.
Proof.
  unfold helperKinds. rewrite forallb_app. apply andb_true_iff. split; [|reflexivity].
  apply forallb_forall. intros x H. apply in_map_iff in H. destruct H as (y & <- & _). reflexivity.
Qed.

Section EXT.
  Variables (c c' : ctx) (ks : list VariableType).
  Hypothesis Hwf : wf c.
  Hypothesis HE : extends c c' ks.
  Hypothesis HK : forallb isPreKind ks = true.

  Lemma ext_kinds : exists kinds, varTypes c' = typesOf kinds /\ forallb isPreKind kinds = true.
  Proof.
    destruct (wf_kinds _ Hwf) as (k0 & E & F). exists (k0 ++ ks). rewrite typesOf_app, <- E, forallb_app, F, HK.
    split; [apply (ex_types _ _ _ HE)|reflexivity].
  Qed.

  Lemma ext_len : length (varTypes c') = length (varTypes c) + 2 * length ks.
  Proof. rewrite (ex_types _ _ _ HE), app_length, length_typesOf. reflexivity. Qed.

  Lemma ext_any v : isAnyV c v -> isAnyV c' v.
  Proof. unfold isAnyV. rewrite ext_len. lia. Qed.
  Lemma ext_pre v : isPreV c v -> isPreV c' v.
  Proof. unfold isPreV. rewrite ext_len. intros []. split; auto. lia. Qed.
  Lemma ext_out v : isAnyV c v -> isOut c' (Nat.div2 v) = isOut c (Nat.div2 v).
  Proof.
    intros H. unfold isOut. rewrite (ex_types _ _ _ HE). unfold isAnyV in H.
    rewrite app_nth1; auto. rewrite (nvars_spec c (wf_kinds _ Hwf)) in *.
    destruct (even_cases v) as [[k ->]|[k ->]]; rewrite ?div2_double1, ?Nat.div2_double; lia.
  Qed.
  Lemma ext_preIn v : isPreInV c v -> isPreInV c' v.
  Proof. intros [H O]. split; [now apply ext_pre|]. rewrite ext_out; auto. apply H. Qed.
  Lemma ext_prePostIn v : isPrePostInV c v -> isPrePostInV c' v.
  Proof.
    intros [H O]. split; [apply (ext_any v H)|]. destruct O as [O|O]; auto. right. rewrite ext_out; auto.
  Qed.

  Lemma ext_wf : Forall (dep (isAnyV c')) (livenessGuarantees c') -> livenessGuarantees c' <> [] -> wf c'.
  Proof.
    intros HG HN. constructor; auto.
    - apply ext_kinds.
    - rewrite (ex_initEnv _ _ _ HE). eapply dep_weaken; [apply ext_preIn|apply wf_initEnv; auto].
    - rewrite (ex_initSys _ _ _ HE). eapply dep_weaken; [apply ext_pre|apply wf_initSys; auto].
    - rewrite (ex_safetyEnv _ _ _ HE). eapply dep_weaken; [apply ext_prePostIn|apply wf_safetyEnv; auto].
    - rewrite (ex_safetySys _ _ _ HE). eapply dep_weaken; [apply ext_any|apply wf_safetySys; auto].
    - rewrite (ex_asm _ _ _ HE). eapply Forall_impl; [|apply wf_asm; exact Hwf].
      intros f. apply dep_weaken, ext_any.
    - rewrite (ex_asm _ _ _ HE). apply wf_asm_ne; auto.
  Qed.
End EXT.

Lemma extend_wf c w : wf c -> dep (isPreV c) w -> wf (extendCtx c w).
Proof.
  intros Hwf Dw. destruct (extend_spec c w) as [HE HG].
  apply (ext_wf c _ _ Hwf HE (helperKinds_pre c)).
  - rewrite HG. apply Forall_forall. intros f H. apply in_map_iff in H. destruct H as (g & <- & H).
    eapply dep_weaken; [apply (ext_any c _ _ HE)|].
    apply dep_and.
    + pose proof (wf_gua _ Hwf) as F. rewrite Forall_forall in F. auto.
    + apply (dep_swapPrePost c (wf_kinds _ Hwf)). now apply isPre_isAny.
  - rewrite HG. intros H. apply map_eq_nil in H. now apply (wf_gua_ne _ Hwf).
Qed.

(** ** Orders *)

Definition zle (a b : xcost) : Prop := xlt b a = false.

Lemma xlt_irrefl a : xlt a a = false.
Proof. destruct a; cbn; auto. apply Z.ltb_irrefl. Qed.
Lemma xlt_trans a b d : xlt a b = true -> xlt b d = true -> xlt a d = true.
Proof. destruct a, b, d; cbn; auto; try discriminate. rewrite !Z.ltb_lt. lia. Qed.
Lemma xlt_asym a b : xlt a b = true -> xlt b a = false.
Proof. destruct a, b; cbn; auto. rewrite Z.ltb_lt, Z.ltb_ge. lia. Qed.
Lemma xlt_eq a b : xlt a b = false -> xlt b a = false -> a = b.
Proof. destruct a, b; cbn; auto; try discriminate. rewrite !Z.ltb_ge. intros. f_equal. lia. Qed.

Section ORDER.
  Variable w : weights.

  Lemma tlt_spec a b : tlt w a b = true <->
    xlt (combinedOf w a) (combinedOf w b) = true \/
    combinedOf w a = combinedOf w b /\
    (if waitingPreferred w
     then waitingOf a < waitingOf b \/ waitingOf a = waitingOf b /\ xlt (actionOf a) (actionOf b) = true
     else xlt (actionOf a) (actionOf b) = true \/ actionOf a = actionOf b /\ waitingOf a < waitingOf b).
  Proof.
    unfold tlt. destruct (xlt (combinedOf w a) (combinedOf w b)) eqn:E1; [tauto|].
    destruct (xlt (combinedOf w b) (combinedOf w a)) eqn:E2.
    - split; [discriminate|]. intros [H|[H _]]; [discriminate|]. rewrite H, xlt_irrefl in E2. discriminate.
    - pose proof (xlt_eq _ _ E1 E2) as E. destruct (waitingPreferred w).
      + destruct (Nat.ltb_spec (waitingOf a) (waitingOf b)) as [L|L]; [tauto|].
        destruct (Nat.ltb_spec (waitingOf b) (waitingOf a)) as [L'|L'].
        * split; [discriminate|]. intros [H|[_ [H|[H _]]]]; [discriminate|lia|lia].
        * assert (waitingOf a = waitingOf b) by lia. split; [tauto|].
          intros [H'|[_ [H'|[_ H']]]]; [discriminate|lia|auto].
      + destruct (xlt (actionOf a) (actionOf b)) eqn:A1; [tauto|].
        destruct (xlt (actionOf b) (actionOf a)) eqn:A2.
        * split; [discriminate|]. intros [H|[_ [H|[H _]]]]; try discriminate.
          rewrite H, xlt_irrefl in A2. discriminate.
        * pose proof (xlt_eq _ _ A1 A2). rewrite Nat.ltb_lt. split; [tauto|].
          intros [H'|[_ [H'|[_ H']]]]; [discriminate|discriminate|auto].
  Qed.

  Lemma tlt_irrefl a : tlt w a a = false.
  Proof.
    destruct (tlt w a a) eqn:E; auto. apply tlt_spec in E. rewrite !xlt_irrefl in E.
    destruct (waitingPreferred w); intuition (try discriminate; try lia).
  Qed.

  Lemma tlt_trans a b d : tlt w a b = true -> tlt w b d = true -> tlt w a d = true.
  Proof.
    rewrite !tlt_spec. intros [H|[H1 H2]] [H'|[H1' H2']].
    - left. eapply xlt_trans; eauto.
    - left. now rewrite <- H1'.
    - left. now rewrite H1.
    - right. split; [congruence|]. destruct (waitingPreferred w).
      + destruct H2 as [H2|[H2 H3]], H2' as [H2'|[H2' H3']]; try (left; lia).
        right. split; [lia|]. eapply xlt_trans; eauto.
      + destruct H2 as [H2|[H2 H3]], H2' as [H2'|[H2' H3']].
        * left. eapply xlt_trans; eauto.
        * left. now rewrite <- H2'.
        * left. now rewrite H2.
        * right. split; [congruence|lia].
  Qed.

  Lemma tlt_asym a b : tlt w a b = true -> tlt w b a = false.
  Proof.
    intros H. destruct (tlt w b a) eqn:E; auto.
    pose proof (tlt_trans _ _ _ H E) as F. rewrite tlt_irrefl in F. discriminate.
  Qed.

  Lemma tlt_total a b : tlt w a b = false -> tlt w b a = false -> a = b.
  Proof.
    intros H1 H2.
    assert (E : combinedOf w a = combinedOf w b).
    { apply xlt_eq.
      - destruct (xlt (combinedOf w a) (combinedOf w b)) eqn:E; auto.
        assert (tlt w a b = true) by (apply tlt_spec; auto). congruence.
      - destruct (xlt (combinedOf w b) (combinedOf w a)) eqn:E; auto.
        assert (tlt w b a = true) by (apply tlt_spec; auto). congruence. }
    assert (A : ~ tlt w a b = true) by congruence. assert (B : ~ tlt w b a = true) by congruence.
    rewrite tlt_spec in A, B.
    assert (W : waitingOf a = waitingOf b /\ actionOf a = actionOf b).
    { destruct (waitingPreferred w).
      - assert (waitingOf a = waitingOf b).
        { destruct (Nat.lt_trichotomy (waitingOf a) (waitingOf b)) as [L|[L|L]]; auto; [elim A|elim B]; auto. }
        split; auto. apply xlt_eq.
        + destruct (xlt (actionOf a) (actionOf b)) eqn:X; auto. elim A. auto.
        + destruct (xlt (actionOf b) (actionOf a)) eqn:X; auto. elim B. auto.
      - assert (actionOf a = actionOf b).
        { apply xlt_eq.
          + destruct (xlt (actionOf a) (actionOf b)) eqn:X; auto. elim A. auto.
          + destruct (xlt (actionOf b) (actionOf a)) eqn:X; auto. elim B. auto. }
        split; auto.
        destruct (Nat.lt_trichotomy (waitingOf a) (waitingOf b)) as [L|[L|L]]; auto; [elim A|elim B]; auto. }
    destruct a, b; cbn in *. destruct W; congruence.
  Qed.

  (** Sorted lists. *)
  Fixpoint sorted (l : list tuple) : Prop :=
    match l with
    | [] => True
    | t :: r => (forall u, In u r -> tlt w t u = true) /\ sorted r
    end.

  Lemma tinsert_in t l u : In u (tinsert w t l) <-> u = t \/ In u l.
  Proof.
    induction l as [|x l IH]; cbn; [intuition congruence|].
    destruct (tlt w t x) eqn:E1; [cbn; intuition congruence|].
    destruct (tlt w x t) eqn:E2; cbn.
    - rewrite IH. intuition congruence.
    - rewrite (tlt_total _ _ E1 E2). intuition congruence.
  Qed.

  Lemma tinsert_sorted t l : sorted l -> sorted (tinsert w t l).
  Proof.
    induction l as [|x l IH]; cbn; intros H.
    - split; [|exact I]. intros u [].
    - destruct H as [H1 H2]. destruct (tlt w t x) eqn:E1.
      + cbn. split; [|auto]. intros u [<-|H]; auto. eapply tlt_trans; eauto.
      + destruct (tlt w x t) eqn:E2; cbn; auto.
        split; [|auto]. intros u H. apply tinsert_in in H. destruct H as [->|H]; auto.
  Qed.

  Lemma tinsert_length t l : length (tinsert w t l) <= S (length l).
  Proof.
    induction l as [|x l IH]; cbn; [lia|]. destruct (tlt w t x); cbn; [lia|]. destruct (tlt w x t); cbn; lia.
  Qed.

  Lemma insertAll_spec l : forall todo, sorted todo ->
    sorted (insertAll w l todo) /\ length (insertAll w l todo) <= length l + length todo /\
    forall u, In u (insertAll w l todo) <-> In u l \/ In u todo.
  Proof.
    unfold insertAll. induction l as [|t l IH]; intros todo H; cbn [fold_left].
    - split; [exact H|]. split; [cbn; lia|]. cbn. tauto.
    - destruct (IH (tinsert w t todo) (tinsert_sorted t todo H)) as (S1 & S2 & S3). split; auto. split.
      + pose proof (tinsert_length t todo). cbn. lia.
      + intros u. rewrite S3, tinsert_in. cbn. intuition congruence.
  Qed.

  (** Maps whose keys are all below a new one. *)
  Lemma mapSet_last t f m : (forall u g, In (u, g) m -> tlt w u t = true) -> mapSet w t f m = m ++ [(t, f)].
  Proof.
    induction m as [|[u g] m IH]; intros H; cbn; auto.
    assert (E : tlt w u t = true) by (apply (H u g); now left).
    rewrite (tlt_asym _ _ E), E, IH; auto. intros u' g' I. apply (H u' g'). now right.
  Qed.

  Lemma mapSet_again t f g m : (forall u h, In (u, h) m -> tlt w u t = true) ->
    mapSet w t f (m ++ [(t, g)]) = m ++ [(t, f)].
  Proof.
    induction m as [|[u h] m IH]; intros H; cbn.
    - now rewrite tlt_irrefl.
    - assert (E : tlt w u t = true) by (apply (H u h); now left).
      rewrite (tlt_asym _ _ E), E, IH; auto. intros u' g' I. apply (H u' g'). now right.
  Qed.

  Lemma mapSet_in t f m u g : In (u, g) (mapSet w t f m) -> g = f \/ exists u', In (u', g) m.
  Proof.
    induction m as [|[u' h] m IH]; cbn.
    - intros [H|[]]. injection H as <- <-. auto.
    - destruct (tlt w t u'); [|destruct (tlt w u' t)]; cbn.
      + intros [H|[H|H]]; [injection H as <- <-; auto|right; eauto|right; eauto].
      + intros [H|H]; [right; eauto|]. destruct (IH H) as [|(u2 & K)]; auto. right. eauto.
      + intros [H|H]; [injection H as <- <-; auto|right; eauto].
  Qed.

  Lemma mapFloor_in t m f : mapFloor w t m = Some f -> exists u, In (u, f) m.
  Proof.
    induction m as [|[u g] m IH]; cbn; [discriminate|]. destruct (tlt w t u); [discriminate|].
    destruct (mapFloor w t m) as [h|].
    - intros H. destruct (IH H) as (u' & K). eauto.
    - intros H. injection H as <-. eauto.
  Qed.

  Lemma mapLast_app m t f : mapLast (m ++ [(t, f)]) = f.
  Proof. unfold mapLast. rewrite rev_app_distr. reflexivity. Qed.

  Lemma mapLast_in m : mapLast m = bfalse \/ exists u, In (u, mapLast m) m.
  Proof.
    unfold mapLast. destruct (rev m) as [|[u f] r] eqn:E; auto. right. exists u. apply in_rev. rewrite E. now left.
  Qed.
End ORDER.

(** ** Numbers of transitions *)

Definition tcard (c : ctx) (f : BF) : nat :=
  length (filter (fun l => eval f (ofVec l)) (vectors (length (varTypes c)))).

Lemma tcard_bound c f : tcard c f <= 2 ^ length (varTypes c).
Proof. unfold tcard. rewrite <- vectors_length. apply filter_length_all. Qed.

Lemma tcard_lt c f g : dep (isAnyV c) f -> dep (isAnyV c) g ->
  (forall e, eval f e = true -> eval g e = true) -> f <> g -> tcard c f < tcard c g.
Proof.
  intros Df Dg Hle Hne. apply filter_length_lt; auto.
  set (n := length (varTypes c)).
  destruct (existsb (fun l => negb (eval f (ofVec l)) && eval g (ofVec l)) (vectors n)) eqn:E.
  - apply existsb_exists in E. destruct E as (l & Hl & E). apply andb_true_iff in E.
    destruct E as [E1 E2]. apply negb_true_iff in E1. exists l. auto.
  - exfalso. apply Hne. apply bf_ext. intros e.
    destruct (eval f e) eqn:Ef; [now rewrite Hle|].
    destruct (eval g e) eqn:Eg; auto. exfalso.
    assert (existsb (fun l => negb (eval f (ofVec l)) && eval g (ofVec l)) (vectors n) = true); [|congruence].
    apply existsb_exists. exists (toVec n e). split; [apply toVec_in|].
    rewrite (Df (ofVec (toVec n e)) e), (Dg (ofVec (toVec n e)) e), Ef, Eg; auto;
      intros k Hk'; now apply ofVec_toVec.
Qed.

(** ** The loops *)

Section LOOPS.
  Variable c : ctx.
  Hypothesis Hwf : wf c.
  Hypothesis Hn : 1 <= nvars c.

  Notation pre := (isPreV c).
  Notation any := (isAnyV c).
  Let Hk := wf_kinds _ Hwf.

  Lemma preAny f : dep pre f -> dep any f.
  Proof. now apply isPre_isAny. Qed.
  Lemma swapAny f : dep any f -> dep any (swapPrePost c f).
  Proof. now apply dep_swapPrePost. Qed.

  Lemma pow4 : 2 ^ nvars c + 4 < 2 ^ fpFuel c.
  Proof.
    unfold fpFuel. rewrite nvars_spec by auto. destruct (nvars c) as [|n]; [lia|]. clear.
    assert (1 <= 2 ^ n) by (apply Nat.neq_0_lt_0, Nat.pow_nonzero; lia).
    replace (S (2 * S n)) with (S (S (S (n + n)))) by lia. cbn [Nat.pow]. rewrite Nat.pow_add_r.
    nia.
  Qed.

  (** Reachability games. *)
  Variables guard ending cheap : BF.
  Hypothesis Dg : dep any guard.
  Hypothesis De : dep any ending.
  Hypothesis Dc : dep any cheap.

  Definition reachF (f : BF) : BF := reachWon c (reachStep c guard ending cheap f).

  Lemma dep_reachStep f : dep any f -> dep any (reachStep c guard ending cheap f).
  Proof.
    intros D. unfold reachStep. apply dep_and; auto. apply dep_and; [apply wf_safetySys; auto|].
    apply dep_or; auto. apply dep_and; auto. now apply swapAny.
  Qed.

  Lemma dep_reachWon f : dep any f -> dep pre (reachWon c f).
  Proof.
    intros D. unfold reachWon. apply dep_faPostIn; auto. apply dep_or.
    - apply dep_not. apply wf_safetyEnv; auto.
    - apply dep_exPostOut; auto.
  Qed.

  Lemma reachWon_spec f s : dep any f -> pos (reachWon c f) s = true <->
    forall x, trans (safetyEnv c) s x = true -> exists y, trans f s (mrg c x y) = true.
  Proof.
    intros D. unfold reachWon, pos.
    fold (trans (bforall (varCubePostInput c) (bor (bnot (safetyEnv c)) (bexists (varCubePostOutput c) f))) s s).
    rewrite faPostIn_trans; auto.
    2:{ apply dep_or; [apply dep_not; apply (dep_Se c (wf_safetyEnv _ Hwf))|].
        apply isPrePostIn_isAny. apply dep_exPostOut; auto. }
    assert (EM : forall x y f, trans f s (mrg c (mrg c x s) y) = trans f s (mrg c x y)).
    { intros x y h. apply trans_eq. intros k. unfold mrg. now destruct (isOut c k). }
    assert (EE : forall x, trans (safetyEnv c) s (mrg c x s) = trans (safetyEnv c) s x).
    { intros x. rewrite (safeE_in c (wf_safetyEnv _ Hwf) s x s x). apply trans_eq.
      intros k. unfold mrg. now destruct (isOut c k). }
    split; intros H x.
    - intros E. specialize (H x). rewrite trans_or, trans_not, orb_true_iff, negb_true_iff in H.
      rewrite EE, E in H. destruct H as [H|H]; [discriminate|].
      apply exPostOut_trans in H; auto. destruct H as (y & H). rewrite EM in H. eauto.
    - rewrite trans_or, trans_not, orb_true_iff, negb_true_iff, EE.
      destruct (trans (safetyEnv c) s x) eqn:E; auto. right. apply exPostOut_trans; auto.
      destruct (H x E) as (y & Hy). exists y. now rewrite EM.
  Qed.

  Lemma reachWon_mono f g : dep any f -> dep any g -> tsub f g -> sub (reachWon c f) (reachWon c g).
  Proof.
    intros Df Dg' H s. rewrite !reachWon_spec by auto. intros K x E. destruct (K x E) as (y & Hy). eauto.
  Qed.

  Lemma reachStep_spec f s t : dep pre f -> trans (reachStep c guard ending cheap f) s t = true <->
    trans guard s t = true /\ trans (safetySys c) s t = true /\
    (trans ending s t = true \/ trans cheap s t = true /\ pos f t = true).
  Proof.
    intros D. unfold reachStep. autorewrite with sem. rewrite trans_swap_pos by auto.
    rewrite !andb_true_iff, orb_true_iff, andb_true_iff. tauto.
  Qed.

  Lemma dep_reachF f : dep pre f -> dep pre (reachF f).
  Proof. intros D. apply dep_reachWon, dep_reachStep. now apply preAny. Qed.

  Lemma reachF_mono f g : dep pre f -> dep pre g -> sub f g -> sub (reachF f) (reachF g).
  Proof.
    intros Df Dg' H. apply reachWon_mono; try (apply dep_reachStep; now apply preAny).
    intros s t. rewrite !reachStep_spec by auto. intuition.
  Qed.

  (** The loop ends if the second iterate is above the first, and adds positions with winning
      transitions only. *)
  Lemma reach_total (onTop : bool) start fd (P : BF -> BF -> list BF -> Prop) :
    dep pre start -> sub (reachF start) (reachF (reachF start)) ->
    P (fPos fd) (fTrans fd) (fData fd) ->
    (forall f ps tr dt, dep pre f -> P ps tr dt ->
       let T := reachStep c guard ending cheap f in
       let won := if onTop then band (reachWon c T) (preTransitional c) else reachWon c T in
       let listed := if onTop then band (band T (reachWon c T)) (preTransitional c) else T in
       P (bor ps won) (bor tr listed) (dt ++ [listed])) ->
    exists fd', reach c guard ending cheap onTop start fd = Some fd' /\ P (fPos fd') (fTrans fd') (fData fd').
  Proof.
    intros Ds Hs HP Hstep.
    assert (G : forall n old new fd, dep pre old -> dep pre new -> sub old new -> new = reachF old ->
              2 ^ nvars c - card c old <= n -> P (fPos fd) (fTrans fd) (fData fd) ->
              exists k fd', k <= S n /\ stepsTo (reachBody c guard ending cheap onTop) k (old, new, fd) fd' /\
                exists r : found, reachBody c guard ending cheap onTop fd' = Done r /\ P (fPos r) (fTrans r) (fData r)).
    { induction n as [|n IH]; intros old new fd0 Do Dn Hon En Hm HP0.
      - exists 0, (old, new, fd0). split; [lia|]. split; [constructor|].
        assert (E : new = old).
        { destruct (bf_eq_dec new old) as [|N]; auto. exfalso.
          assert (card c old < card c new) by (apply card_lt; auto).
          pose proof (card_bound c new). lia. }
        exists fd0. split; auto. cbn. destruct (bf_eqb_spec new old); congruence.
      - destruct (bf_eq_dec new old) as [E|N].
        + exists 0, (old, new, fd0). split; [lia|]. split; [constructor|].
          exists fd0. split; auto. cbn. destruct (bf_eqb_spec new old); congruence.
        + assert (card c old < card c new) by (apply card_lt; auto).
          destruct (IH new (reachF new)
                      (mkFound (bor (fPos fd0) (if onTop then band (reachF new) (preTransitional c) else reachF new))
                               (bor (fTrans fd0) (if onTop then band (band (reachStep c guard ending cheap new) (reachF new)) (preTransitional c)
                                                  else reachStep c guard ending cheap new))
                               (fData fd0 ++ [if onTop then band (band (reachStep c guard ending cheap new) (reachF new)) (preTransitional c)
                                                  else reachStep c guard ending cheap new])))
            as (k & st & Hkn & Hst & Hr).
          * auto.
          * now apply dep_reachF.
          * rewrite En at 1. apply reachF_mono; auto.
          * reflexivity.
          * pose proof (card_bound c new). lia.
          * apply (Hstep new); auto.
          * exists (S k), st. split; [lia|]. split; [|exact Hr].
            eapply st_S; [|exact Hst]. cbn [reachBody]. destruct (bf_eqb_spec new old); [contradiction|].
            reflexivity. }
    assert (R : forall k st r, k < 2 ^ fpFuel c ->
              stepsTo (reachBody c guard ending cheap onTop) k (btrue, start, fd) st ->
              reachBody c guard ending cheap onTop st = Done r -> reach c guard ending cheap onTop start fd = Some r).
    { intros k st r Hlt Hst Hd. unfold reach, run.
      pose proof (loop_Runs (reachBody c guard ending cheap onTop) (fpFuel c) (btrue, start, fd)) as L.
      assert (HR : Runs (reachBody c guard ending cheap onTop) (btrue, start, fd) r).
      { clear -Hst Hd. induction Hst; [now constructor|]. eapply Runs_cont; eauto. }
      assert (HD : forall j a b, stepsTo (reachBody c guard ending cheap onTop) j a b -> forall k' d r', 
                 stepsTo (reachBody c guard ending cheap onTop) k' a d -> reachBody c guard ending cheap onTop d = Done r' -> j <= k').
      { clear. intros j a b H. induction H as [a|j a b d E H IH]; intros k' e r' H' Hr; [lia|].
        inversion H'; subst; [congruence|]. rewrite E in H0. injection H0 as <-. specialize (IH _ _ _ H1 Hr). lia. }
      destruct (loop _ _ _) as [s'|r'|].
      - pose proof (HD _ _ _ L _ _ _ Hst Hd). lia.
      - f_equal. eapply Runs_det; eauto.
      - destruct L as (j & s' & Hj & Ha). exfalso. clear -Ha. destruct s' as [[o n] f]. cbn in Ha.
        destruct (bf_eqb n o); discriminate. }
    pose proof pow4 as P4.
    destruct (bf_eq_dec start btrue) as [E0|N0].
    { exists fd. split; auto. apply (R 0 (btrue, start, fd)); [lia|constructor|].
      cbn. destruct (bf_eqb_spec start btrue); congruence. }
    set (nf := fun new (fd0 : found) =>
                      (mkFound (bor (fPos fd0) (if onTop then band (reachF new) (preTransitional c) else reachF new))
                               (bor (fTrans fd0) (if onTop then band (band (reachStep c guard ending cheap new) (reachF new)) (preTransitional c)
                                                  else reachStep c guard ending cheap new))
                               (fData fd0 ++ [if onTop then band (band (reachStep c guard ending cheap new) (reachF new)) (preTransitional c)
                                                  else reachStep c guard ending cheap new]))).
    assert (HP1 : P (fPos (nf start fd)) (fTrans (nf start fd)) (fData (nf start fd))) by (apply (Hstep start); auto).
    assert (B1 : reachBody c guard ending cheap onTop (btrue, start, fd) = Cont (start, reachF start, nf start fd)).
    { cbn. destruct (bf_eqb_spec start btrue); [contradiction|reflexivity]. }
    destruct (bf_eq_dec (reachF start) start) as [E1|N1].
    { exists (nf start fd). split; auto. apply (R 1 (start, reachF start, nf start fd)); [lia| |].
      - eapply st_S; [exact B1|constructor].
      - cbn. destruct (bf_eqb_spec (reachF start) start); congruence. }
    set (P1 := reachF start) in *.
    assert (D1 : dep pre P1) by now apply dep_reachF.
    assert (HP2 : P (fPos (nf P1 (nf start fd))) (fTrans (nf P1 (nf start fd))) (fData (nf P1 (nf start fd))))
      by (apply (Hstep P1); auto).
    assert (B2 : reachBody c guard ending cheap onTop (start, P1, nf start fd) = Cont (P1, reachF P1, nf P1 (nf start fd))).
    { cbn [reachBody]. destruct (bf_eqb_spec P1 start); [contradiction|reflexivity]. }
    destruct (G (2 ^ nvars c) P1 (reachF P1) (nf P1 (nf start fd))) as (k & st & Hkn & Hst & r & Hd & Hr); auto.
    { now apply dep_reachF. }
    { lia. }
    exists r. split; auto. apply (R (S (S k)) st); auto; [lia|].
    eapply st_S; [exact B1|]. eapply st_S; [exact B2|]. exact Hst.
  Qed.

  Lemma reach_start_empty : sub (reachF bfalse) (reachF (reachF bfalse)).
  Proof.
    apply reachF_mono; [apply dep_false|apply dep_reachF, dep_false|apply sub_false].
  Qed.

  Lemma reach_start_closed start : dep pre start -> sub start (reachF start) ->
    sub (reachF start) (reachF (reachF start)).
  Proof. intros D H. apply reachF_mono; auto. now apply dep_reachF. Qed.
End LOOPS.
