(** * Proofs about --twoDimensionalCost: whole runs *)

From Coq Require Import String ZArith Arith List Bool Lia.
From Verif Require Import BDD Loop Spec VarTypes Synth Sem FixBase SynthProofs Verdict Explicit Parser TwoDim TwoDimBase TwoDimProofs TwoDimSound.
Import ListNotations.
Local Open Scope list_scope.

(** Contexts of loaded specifications: inputs and outputs only. *)
Definition ordinary (c : ctx) : Prop := Forall (fun ty => In ty [PreInput; PostInput; PreOutput; PostOutput]) (varTypes c).

Section EXT.
  Variable c : ctx.
  Variable w : BF.
  Hypothesis Hwf : wf c.
  Hypothesis Hord : ordinary c.
  Hypothesis Dw : dep (isPreV c) w.
  Notation c' := (extendCtx c w).
  Let HE := proj1 (extend_spec c w).
  Let Hwf' := extend_wf c w Hwf Dw.
  Let Hk' := wf_kinds _ Hwf'.

  Lemma helper_new ty v : In ty [CurrentLivenessAssumptionCounterPre; IsInftyCostPre; IsInftyCostPost] ->
    In v (varsOf (varTypes c') [ty]) -> length (varTypes c) <= v < length (varTypes c').
  Proof.
    intros Hty H. apply in_varsOf in H. destruct H as (L & ty' & [<-|[]] & H). split; auto.
    destruct (Nat.lt_ge_cases v (length (varTypes c))) as [G|]; auto. exfalso.
    rewrite (ex_types _ _ _ HE), app_nth1 in H by auto.
    pose proof (nth_In (varTypes c) NoneVariableType G) as I. unfold ordinary in Hord. rewrite Forall_forall in Hord. apply Hord in I.
    destruct Hty as [<-|[<-|[<-|[]]]]; destruct I as [E|[E|[E|[E|[]]]]]; rewrite <- E in H; vm_compute in H; discriminate.
  Qed.

  Lemma last_types : exists l, varTypes c' = l ++ [IsInftyCostPre; IsInftyCostPost].
  Proof.
    rewrite (ex_types _ _ _ HE). unfold helperKinds. rewrite typesOf_app.
    exists (varTypes c ++ typesOf (map (fun _ => CurrentLivenessAssumptionCounterPre) (helperBits c))).
    rewrite <- app_assoc. reflexivity.
  Qed.

  Lemma first_in (l : list nat) v : In v l -> In (nth 0 l 0) l.
  Proof. destruct l; [intros []|]. intros _. now left. Qed.

  Lemma infty_in : In (nth 0 (varsOf (varTypes c') [IsInftyCostPre]) 0) (varsOf (varTypes c') [IsInftyCostPre]).
  Proof.
    destruct last_types as (l & E). apply (first_in _ (length l)). apply in_varsOf. rewrite E. split.
    - rewrite app_length. cbn. lia.
    - exists IsInftyCostPre. split; [now left|]. rewrite nth_middle. reflexivity.
  Qed.
  Lemma infty_in' : In (nth 0 (varsOf (varTypes c') [IsInftyCostPost]) 0) (varsOf (varTypes c') [IsInftyCostPost]).
  Proof.
    destruct last_types as (l & E). apply (first_in _ (S (length l))). apply in_varsOf. rewrite E. split.
    - rewrite app_length. cbn. lia.
    - exists IsInftyCostPost. split; [now left|]. rewrite app_nth2 by lia. replace (S (length l) - length l) with 1 by lia. reflexivity.
  Qed.

  Lemma run_n : 1 <= nvars c'.
  Proof. rewrite (ext_nvars c c' _ Hwf HE (helperKinds_pre c)). unfold helperKinds. rewrite app_length. cbn. lia. Qed.
  Lemma run_HI : isPreV c' (nth 0 (varsOf (varTypes c') [IsInftyCostPre]) 0).
  Proof. apply (typed_pre c' Hwf' run_n IsInftyCostPre); [reflexivity|cbn; auto|]. apply infty_in. Qed.
  Lemma run_HI' : isAnyV c' (nth 0 (varsOf (varTypes c') [IsInftyCostPost]) 0).
  Proof. pose proof infty_in' as H. apply in_varsOf in H. apply H. Qed.

  Lemma run_env v : In v (assumptionCounterPreVars c') \/ v = nth 0 (varsOf (varTypes c') [IsInftyCostPre]) 0 ->
    dep (fun u => u <> v) (safetyEnv c').
  Proof.
    intros H. assert (G : length (varTypes c) <= v).
    { destruct H as [H| ->]; [apply (helper_new CurrentLivenessAssumptionCounterPre)|apply (helper_new IsInftyCostPre)]; cbn; auto.
      apply infty_in. }
    rewrite (ex_safetyEnv _ _ _ HE). eapply dep_weaken; [|apply (dep_Se c), wf_safetyEnv; auto].
    intros u Hu. unfold isAnyV in Hu. lia.
  Qed.

  Lemma run_asms : Forall (dep (isAnyV c')) (livenessAssumptions c').
  Proof. apply Hwf'. Qed.
  Lemma run_goals : Forall (dep (isAnyV c')) (livenessGuarantees c').
  Proof. apply Hwf'. Qed.
  Lemma run_w : dep (isPreV c') w.
  Proof. eapply dep_weaken; [apply (ext_pre c c' _ HE)|exact Dw]. Qed.

  Lemma run_goal g : In g (livenessGuarantees c') -> forall s t, trans g s t = true -> pos w t = true.
  Proof.
    rewrite (proj2 (extend_spec c w)). intros H s t. apply in_map_iff in H. destruct H as (g0 & <- & _).
    rewrite trans_and, andb_true_iff, trans_swap_pos by (auto; apply Hwf). tauto.
  Qed.
End EXT.

(** ** Costs *)
Lemma costAdd_Forall (P : Z * BF -> Prop) k f m : (forall g, P (k, g) -> P (k, bor g f)) -> P (k, f) -> Forall P m -> Forall P (costAdd k f m).
Proof.
  intros Ho Hf. induction 1 as [|[k' g] m Hg F IH]; cbn [costAdd]; [constructor; auto|].
  destruct (Z.ltb_spec k k'); [constructor; auto|]. destruct (Z.ltb_spec k' k); constructor; auto.
  assert (k = k') as <- by lia. auto.
Qed.

Lemma dep_noCost P m : Forall (fun e : Z * BF => dep P (snd e)) m -> dep P (noCostAssigned m).
Proof.
  intros F. unfold noCostAssigned. assert (G : dep P btrue) by apply dep_true. revert G. generalize btrue as acc.
  induction F as [|e m He F IH]; intros acc G; cbn [fold_left]; auto. apply IH. apply dep_and; auto. now apply dep_not.
Qed.

Lemma dep_allCosts P m : Forall (fun e : Z * BF => dep P (snd e)) m -> Forall (fun e : Z * BF => dep P (snd e)) (allCosts m).
Proof.
  intros F. unfold allCosts. apply costAdd_Forall; auto; cbn.
  - intros g Hg. apply dep_or; auto. now apply dep_noCost.
  - now apply dep_noCost.
Qed.

Lemma allCosts_nonneg m : Forall (fun e : Z * BF => (0 <= fst e)%Z) m -> Forall (fun e : Z * BF => (0 <= fst e)%Z) (allCosts m).
Proof. intros F. unfold allCosts. apply costAdd_Forall; auto. cbn. lia. Qed.

(** ** The loop over the goals *)
Section GOALS.
  Variable c : ctx.
  Variables (robotics : bool) (w : weights) (costs : costMap) (winning : BF).

  Lemma goals_inv (Q : BF -> Prop) fuel : forall goals j init data init' data',
    (forall g s, In g goals -> searchGoal c w costs g fuel = Some s -> Forall Q (fData (sFound s))) ->
    Forall (fun e => Q (snd e)) data ->
    goalsLoop fuel robotics c w costs winning j goals init data = Some (init', data') -> Forall (fun e => Q (snd e)) data'.
  Proof.
    induction goals as [|g goals IH]; intros j init data init' data' H F E; cbn [goalsLoop] in E.
    - injection E as <- <-. auto.
    - destruct (searchGoal _ _ _ _ _) as [s|] eqn:Es; [|discriminate]. apply IH in E; auto.
      + intros g' s' Hg'. apply H. now right.
      + apply Forall_app. split; auto. apply Forall_map. eapply (H g); eauto. now left.
  Qed.

  (** The initial states are among those of the specification. *)
  Lemma goals_init (D : nat -> Prop) fuel : forall goals j init data init' data', sub init (initSys c) -> dep D init ->
    (forall g s, In g goals -> searchGoal c w costs g fuel = Some s -> dep D (updateInit robotics c winning (sWP s))) ->
    goalsLoop fuel robotics c w costs winning j goals init data = Some (init', data') -> sub init' (initSys c) /\ dep D init'.
  Proof.
    induction goals as [|g goals IH]; intros j init data init' data' H Di Hd E; cbn [goalsLoop] in E.
    - injection E as <- <-. auto.
    - destruct (searchGoal _ _ _ _ _) as [s|] eqn:Es; [|discriminate]. apply IH in E; auto.
      + destruct (Nat.eqb j 0); auto. unfold updateInit. intros q. rewrite pos_and, andb_true_iff. tauto.
      + destruct (Nat.eqb j 0); auto. apply (Hd g); auto. now left.
      + intros g' s' Hg'. apply Hd. now right.
  Qed.

  Lemma goals_end goals : (forall g, In g goals -> exists n, forall fuel, n <= fuel -> exists s, searchGoal c w costs g fuel = Some s) ->
    exists n, forall fuel, n <= fuel -> forall j init data, exists r, goalsLoop fuel robotics c w costs winning j goals init data = Some r.
  Proof.
    induction goals as [|g goals IH]; intros H.
    - exists 0. intros fuel _ j init data. eexists. reflexivity.
    - destruct IH as (n & Hn); [intros g' Hg'; apply H; now right|].
      destruct (H g) as (n' & Hn'); [now left|]. exists (Nat.max n n'). intros fuel Hf j init data. cbn [goalsLoop].
      destruct (Hn' fuel) as (s & ->); [lia|]. apply Hn. lia.
  Qed.
End GOALS.

(** ** Initial states *)
Lemma dep_determinize c (Q : nat -> Prop) f : (forall v, In v (helperPreVars c) -> Q v) -> dep Q f -> dep Q (determinizeHelpers c f).
Proof.
  intros H. unfold determinizeHelpers. revert f. induction (helperPreVars c) as [|v l IH]; intros f D; cbn [fold_left]; auto.
  apply IH; [intros u Hu; apply H; now right|].
  assert (Qv : Q v) by (apply H; now left).
  assert (Dv : dep Q (bvar v)) by now apply dep_var.
  apply dep_and; auto. apply dep_or; [now apply dep_not|]. apply dep_and; auto. apply dep_not.
  eapply dep_exists; [apply dep_and; [exact D|apply dep_not, Dv]|]. intros u Hu _. exact Hu.
Qed.

Lemma dep_updateInit robotics c w m (Q : nat -> Prop) : (forall v, In v (helperPreVars c) -> Q v) ->
  dep Q (initSys c) -> dep Q w -> (forall u f, In (u, f) m -> dep Q f) -> dep Q (updateInit robotics c w m).
Proof.
  intros Hh Di Dw Hm. unfold updateInit. apply dep_and; auto.
  assert (G : forall l acc, (forall u f, In (u, f) l -> dep Q f) -> dep Q (fst acc) -> dep Q (snd acc) ->
    dep Q (snd (fold_left (initStep robotics c w) l acc))).
  { induction l as [|[u f] l IH]; intros [cov upd] Hl D1 D2; cbn [fold_left]; auto.
    assert (Dn : dep Q (determinizeHelpers c f)) by (apply dep_determinize; auto; eapply Hl; now left).
    apply IH; [intros; eapply Hl; right; eauto| |]; unfold initStep; cbn [fst snd] in *.
    - apply dep_or; auto. destruct robotics.
      + eapply dep_exists; [apply dep_and; [exact Dw|exact Dn]|intros v Hv _; exact Hv].
      + eapply dep_exists; [apply dep_and; [apply dep_and; [exact Dw|exact Dn]|exact Di]|intros v Hv _; exact Hv].
    - apply dep_or; auto. apply dep_and; [now apply dep_and|now apply dep_not]. }
  apply G; auto; apply dep_false.
Qed.

Lemma helpers_pre c v : wf c -> 1 <= nvars c -> In v (helperPreVars c) -> isPreV c v.
Proof.
  intros Hwf Hn H. unfold helperPreVars in H. apply in_varsOf in H. destruct H as (L & ty & Hty & H).
  apply (typed_pre c Hwf Hn ty); [destruct Hty as [<-|[<-|[]]]; reflexivity|exact Hty|].
  apply in_varsOf. split; auto. exists ty. split; [now left|exact H].
Qed.

(** ** Runs *)
Section RUN.
  Variable c : ctx.
  Hypothesis Hwf : wf c.
  Hypothesis Hord : ordinary c.
  Variables (robotics : bool) (w : weights) (costs : costMap).
  Hypothesis Dcosts : Forall (fun e => dep (isAnyV c) (snd e)) costs.

  (** What a strategy consists of. *)
  Record good (W : BF) (c' : ctx) (data : list (nat * BF)) : Prop := mkGood {
    gd_wf : wf c';
    gd_w : dep (isPreV c') W;
    gd_ext : extends c (extendCtx c W) (helperKinds c);
    gd_types : varTypes c' = varTypes c ++ typesOf (helperKinds c);
    gd_env : safetyEnv c' = safetyEnv c;
    gd_sys : safetySys c' = safetySys c;
    gd_initE : initEnv c' = initEnv c;
    gd_initS : sub (initSys c') (initSys c);
    gd_goals : livenessGuarantees c' = map (fun g => band g (swapPrePost c W)) (livenessGuarantees c);
    gd_data : Forall (fun e => dep (isAnyV c') (snd e) /\ forall s t, trans (snd e) s t = true -> trans (safetyEnv c) s t = true ->
                trans (safetySys c) s t = true /\ pos W t = true) data }.

  Lemma run_good fuel W d r : computeWinningPositions c = Some (W, d) ->
    computeCostOptimal fuel robotics c w costs W = Some r ->
    match r with
    | CostConflict k k' => overlap costs = Some (k, k')
    | CostStrategy c' data => overlap costs = None /\ good W c' data
    end.
  Proof.
    intros EW. destruct (compute_spec c Hwf) as (W0 & d0 & E0 & Hs). rewrite EW in E0. injection E0 as <- <-.
    pose proof (solved_pre c Hwf W d Hs) as DW. unfold computeCostOptimal.
    destruct (overlap costs) as [[k k']|]; [intros E; injection E as <-; auto|].
    pose proof (extend_wf c W Hwf DW) as Hwf'. destruct (extend_spec c W) as [HE HG].
    pose proof (run_n c W Hwf) as Hn. pose proof (run_HI c W Hwf DW) as HI. pose proof (run_HI' c W) as HI'.
    assert (Dall : Forall (fun e : Z * BF => dep (isAnyV (extendCtx c W)) (snd e)) (allCosts costs)).
    { apply dep_allCosts. eapply Forall_impl; [|exact Dcosts]. intros e He. eapply dep_weaken; [|exact He]. apply (ext_any c _ _ HE). }
    destruct (goalsLoop _ _ _ _ _ _ _ _ _ _) as [[init data]|] eqn:EL; [|discriminate].
    intros E. injection E as <-. split; auto.
    pose proof (run_goals c W Hwf DW) as DG. pose proof (run_asms c W Hwf DW) as DA. pose proof (run_w c W DW) as DW'.
    rewrite Forall_forall in DG.
    assert (SO : forall g s, In g (livenessGuarantees (extendCtx c W)) ->
       searchGoal (extendCtx c W) w (allCosts costs) g fuel = Some s -> okS (extendCtx c W) s).
    { intros g s Hg. apply (search_ok _ Hwf' Hn HI HI' w (allCosts costs) g); auto. }
    assert (I12 : sub init (initSys (extendCtx c W)) /\ dep (isPreV (extendCtx c W)) init).
    { refine (goals_init (extendCtx c W) robotics w (allCosts costs) W (isPreV (extendCtx c W)) fuel
        _ _ _ _ _ _ (sub_refl _) (wf_initSys _ Hwf') _ EL).
      intros g s Hg Es. pose proof (SO g s Hg Es) as O. apply dep_updateInit; auto; [|apply Hwf'|apply O].
      intros v. now apply helpers_pre. }
    destruct I12 as [I1 I2].
    assert (F : Forall (fun e : nat * BF => dep (isAnyV (extendCtx c W)) (snd e) /\
        forall s t, trans (snd e) s t = true -> trans (safetyEnv c) s t = true ->
                trans (safetySys c) s t = true /\ pos W t = true) data).
    { apply (goals_inv (extendCtx c W) robotics w (allCosts costs) W
        (fun f => dep (isAnyV (extendCtx c W)) f /\ forall s t, trans f s t = true -> trans (safetyEnv c) s t = true ->
                trans (safetySys c) s t = true /\ pos W t = true) fuel _ _ _ _ _ _) with (3 := EL); [|constructor].
      intros g s Hg Es. pose proof (SO g s Hg Es) as O.
      assert (Ws : winS (extendCtx c W) W s).
      { refine (search_win _ Hwf' Hn HI HI' W _ _ w (allCosts costs) g (DG g Hg) Dall DA _ fuel s Es).
        - intros asm U Ha DU HT. rewrite (ex_asm _ _ _ HE) in Ha.
          apply (trap_winning c (extendCtx c W) _ Hwf HE (helperKinds_pre c) W d Hs asm U); auto.
        - now apply run_env.
        - now apply (run_goal c W Hwf DW). }
      pose proof (ok_data _ _ (os_found _ _ O)) as D1. pose proof (wf_data _ _ _ (ws_found _ _ _ Ws)) as D2.
      rewrite Forall_forall in D1, D2. apply Forall_forall. intros f Hf. destruct (D1 f Hf) as [A1 A2]. split; auto.
      intros a b H E. rewrite <- (ex_safetyEnv _ _ _ HE) in E. split; [|now apply (D2 f Hf a b)].
      rewrite <- (ex_safetySys _ _ _ HE). now apply A2. }
    destruct HE. constructor; cbn; auto.
    - destruct Hwf'. constructor; auto.
    - constructor; auto.
    - now rewrite <- ex_initSys.
  Qed.

  Hypothesis Haction : (0 < actionWeight w)%Z.
  Hypothesis Hwaiting : (0 <= waitingWeight w)%Z.
  Hypothesis Hcosts : Forall (fun e => (0 <= fst e)%Z) costs.

  Lemma run_ends W d : computeWinningPositions c = Some (W, d) ->
    exists n, forall fuel, n <= fuel -> exists r, computeCostOptimal fuel robotics c w costs W = Some r.
  Proof.
    intros EW. destruct (compute_spec c Hwf) as (W0 & d0 & E0 & Hs). rewrite EW in E0. injection E0 as <- <-.
    pose proof (solved_pre c Hwf W d Hs) as DW. unfold computeCostOptimal.
    destruct (overlap costs) as [[k k']|]; [exists 0; eauto|].
    pose proof (extend_wf c W Hwf DW) as Hwf'. destruct (extend_spec c W) as [HE HG].
    pose proof (run_n c W Hwf) as Hn. pose proof (run_HI c W Hwf DW) as HI. pose proof (run_HI' c W) as HI'.
    assert (Dall : Forall (fun e : Z * BF => dep (isAnyV (extendCtx c W)) (snd e)) (allCosts costs)).
    { apply dep_allCosts. eapply Forall_impl; [|exact Dcosts]. intros e He. eapply dep_weaken; [|exact He]. apply (ext_any c _ _ HE). }
    pose proof (run_goals c W Hwf DW) as DG. pose proof (run_asms c W Hwf DW) as DA. rewrite Forall_forall in DG.
    destruct (goals_end (extendCtx c W) robotics w (allCosts costs) W (livenessGuarantees (extendCtx c W))) as (n & H).
    { intros g Hg. apply search_ends; auto. now apply allCosts_nonneg. }
    exists n. intros fuel Hf. destruct (H fuel Hf 0 (initSys (extendCtx c W)) []) as ([init data] & ->). eauto.
  Qed.
End RUN.
