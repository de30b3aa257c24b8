(** * Analysis of the assumptions *)

From Coq Require Import String Ascii DecimalString Arith List Bool Lia.
From Verif Require Import BDD Loop Spec AssumeSpec VarTypes Synth Sem FixBase GameSound GameComplete SynthProofs SolversProofs Verdict
  AnalyzeProofs FileSpec Parser FileProofs Assume AssumeDist.
Import ListNotations.
Local Open Scope list_scope.

(** ** Fewer assumptions *)

(** [g'] differs from [g] only in having at most the assumptions of [g]. *)
Record fewer (g g' : game) : Prop := mkFewer {
  fw_out : g_out g = g_out g';
  fw_initE : forall s, g_initE g s = g_initE g' s;
  fw_initS : forall s, g_initS g s = g_initS g' s;
  fw_safeE : forall s t, g_safeE g s t = true -> g_safeE g' s t = true;
  fw_safeS : forall s t, g_safeS g s t = g_safeS g' s t;
  fw_liveA : incl (g_liveA g') (g_liveA g);
  fw_liveG : g_liveG g = g_liveG g'
}.
Section FEWER.
  Variables g g' : game.
  Hypothesis H : fewer g g'.
  Lemma fewer_history_from f s x n : history_from g f s x n = history_from g' f s x n.
  Proof.
    induction n as [|n IH]; cbn [history_from]; auto. rewrite IH. unfold merge. now rewrite (fw_out _ _ H).
  Qed.
  Lemma fewer_history f x n : history g f x n = history g' f x n.
  Proof.
    induction n as [|n IH]; cbn [history]; unfold merge; rewrite (fw_out _ _ H); [reflexivity|].
    rewrite IH. reflexivity.
  Qed.
  Lemma fewer_live pi : safe_and_live g' pi -> safe_and_live g pi.
  Proof.
    intros [H1 H2]. split.
    - intros n Hn. rewrite (fw_safeS _ _ H). apply H1. intros m Hm. apply (fw_safeE _ _ H). auto.
    - intros HE HA p Hp. rewrite (fw_liveG _ _ H) in Hp. apply H2; auto.
      + intros n. now apply (fw_safeE _ _ H).
      + intros q Hq. apply HA. now apply (fw_liveA _ _ H).
  Qed.
  Lemma fewer_winning s : winning g' s -> winning g s.
  Proof.
    intros (f & Hf). exists f. intros x. apply fewer_live. specialize (Hf x).
    eapply safe_and_live_ext; [|exact Hf]. intros n. unfold play_from. now rewrite fewer_history_from.
  Qed.
  Lemma fewer_realizable : realizable g' -> realizable g.
  Proof.
    intros (f & Hf). exists f. intros x. specialize (Hf x).
    assert (P : forall n, play g f x n = play g' f x n) by (intros n; unfold play; now rewrite fewer_history).
    unfold objective in *. rewrite P, (fw_initE _ _ H). intros HE. destruct (Hf HE) as [H1 H2].
    split; [now rewrite (fw_initS _ _ H)|]. apply fewer_live. eapply safe_and_live_ext; [|exact H2]. auto.
  Qed.
  Lemma fewer_within goal : (forall s, winning g s <-> winning g' s) -> forall k s, within g' goal k s -> within g goal k s.
  Proof.
    intros HW. induction k as [|k IH]; intros s Hs; [contradiction|]. destruct Hs as (p & Hp & X & Hs & HX).
    exists p. split; [now apply (fw_liveA _ _ H)|]. exists X. split; auto. intros s1 H1 x. destruct (HX s1 H1 x) as (y & Hy).
    exists y. assert (M : merge g x y = merge g' x y) by (unfold merge; now rewrite (fw_out _ _ H)). rewrite M.
    intros HS. apply (fw_safeE _ _ H) in HS. destruct (Hy HS) as [E1 E2]. rewrite (fw_safeS _ _ H). split; auto.
    destruct E2 as [[[E2 E3]|E2]|E2]; auto. rewrite <- HW in E3. auto.
  Qed.
End FEWER.

(** ** The same winning positions *)
Section DIST.
  Variable c : ctx.

  Lemma asmLoopD_sim j live asms : forall good all data,
    match asmLoopD c live asms good all, asmLoop c j live asms good data with
    | Some (a, _), Some (b, _) => a = b
    | None, None => True
    | _, _ => False
    end.
  Proof.
    induction asms as [|a asms IH]; intros good all data; cbn [asmLoopD asmLoop]; auto.
    destruct (nu0Loop c live a) as [[nu0 paths]|]; auto. apply IH.
  Qed.
  Lemma mu1D_sim j live data n :
    match run (mu1BodyD c) n (bfalse, (live, ([], []))), run (mu1Body c j) n (bfalse, (live, data)) with
    | Some (a, _), Some (b, _) => a = b
    | None, None => True
    | _, _ => False
    end.
  Proof.
    assert (G : match run (mu1BodyD c) n (bfalse, (live, ([], []))), run (mu1Body c j) n (bfalse, (live, data)) with
      | Some a, Some b => fst a = fst b | None, None => True | _, _ => False end).
    { apply (run_sim _ _ (fun a b => fst a = fst b /\ fst (snd a) = fst (snd b)) (fun a b => fst a = fst b)); auto.
      intros [mu1 [l1 [d1 s1]]] [mu2 [l2 d2]]. cbn [fst snd]. intros [-> ->]. unfold mu1BodyD, mu1Body.
      pose proof (asmLoopD_sim j (bor l2 (swapPrePost c mu2)) (livenessAssumptions c) mu2 bfalse d2) as S.
      destruct (asmLoopD _ _ _ _ _) as [[x all]|], (asmLoop _ _ _ _ _ _) as [[y d]|]; try contradiction; auto.
      subst y. unfold fpUpdate. destruct (bf_eqb mu2 x); cbn; auto. }
    destruct (run (mu1BodyD c) _ _) as [[? ?]|], (run (mu1Body c j) _ _) as [[? ?]|]; auto.
  Qed.
  Lemma goalLoopD_sim nu2 goals : forall j next dists strats data,
    match goalLoopD c nu2 goals next dists strats, goalLoop c nu2 j goals next data with
    | Some (a, _), Some (b, _) => a = b
    | None, None => True
    | _, _ => False
    end.
  Proof.
    induction goals as [|g goals IH]; intros j next dists strats data; cbn [goalLoopD goalLoop]; auto.
    unfold mu1Loop. pose proof (mu1D_sim j (band g (swapPrePost c nu2)) data (fpFuel c)) as S.
    destruct (run (mu1BodyD c) _ _) as [[x [? [? ?]]]|], (run (mu1Body c j) _ _) as [[y [? ?]]|]; try contradiction; auto.
    subst y. apply IH.
  Qed.
  Lemma computeDistances_sim :
    match computeDistances c, computeWinningPositions c with
    | Some (a, _), Some (b, _) => a = b
    | None, None => True
    | _, _ => False
    end.
  Proof.
    assert (G : match computeDistances c, computeWinningPositions c with
      | Some a, Some b => fst a = fst b | None, None => True | _, _ => False end).
    { apply (run_sim _ _ (fun a b => fst a = fst b) (fun a b => fst a = fst b)); auto.
      intros [a d] [b d']. cbn [fst]. intros ->. unfold nu2BodyD, nu2Body. cbn [fst].
      pose proof (goalLoopD_sim b (livenessGuarantees c) 0 btrue [] [] []) as S.
      destruct (goalLoopD _ _ _ _ _ _) as [[x ?]|], (goalLoop _ _ _ _ _ _) as [[y ?]|]; try contradiction; auto.
      subst y. unfold fpUpdate. destruct (bf_eqb b x); cbn; auto. }
    destruct (computeDistances c) as [[? ?]|], (computeWinningPositions c) as [[? ?]|]; auto.
  Qed.

  Lemma computeDistances_exact : wf c -> exists w d, computeDistances c = Some (w, d) /\ exactW c w.
  Proof.
    intros Hwf. destruct (compute_spec c Hwf) as (w & d & E & S). pose proof computeDistances_sim as X.
    rewrite E in X. destruct (computeDistances c) as [[a [x y]]|]; [|contradiction]. subst a.
    exists w, (x, y). split; auto. eapply solved_exact; eauto.
  Qed.

  (** Without any liveness assumption nothing is winning. *)
  Lemma computeDistances_none : (exists kinds, varTypes c = typesOf kinds /\ forallb isPreKind kinds = true) ->
    livenessAssumptions c = [] -> livenessGuarantees c <> [] ->
    exists d, computeDistances c = Some (bfalse, d).
  Proof.
    intros Hk HA HG.
    assert (M : forall live, exists d, run (mu1BodyD c) (fpFuel c) (bfalse, (live, ([], []))) = Some (bfalse, d)).
    { intros live.
      destruct (fp_inc c Hk (mu1BodyD c) (fun v _ => v)
        (fun v d => (bor (fst d) (swapPrePost c v), (fst (snd d) ++ [v], snd (snd d) ++ [bfalse])))
        (fun v _ => v = bfalse) bfalse (live, ([], []))) as (v & d & -> & _ & E & _); eauto.
      intros v [l [d1 d2]] ->. split; [|split; [apply dep_false|split; [apply dep_false|split; [intros s H; exact H|auto]]]].
      unfold mu1BodyD. rewrite HA. reflexivity. }
    assert (G : forall nu2 goals next dists strats, (goals = [] -> next = bfalse) ->
      exists d, goalLoopD c nu2 goals next dists strats = Some (bfalse, d)).
    { intros nu2. induction goals as [|g goals IH]; intros next dists strats Hn; cbn [goalLoopD].
      - rewrite Hn by auto. eauto.
      - destruct (M (band g (swapPrePost c nu2))) as ((l & d1 & d2) & ->). apply IH. intros _.
        apply bf_ext. intros e. now rewrite eval_and, eval_false, andb_false_r. }
    unfold computeDistances.
    set (dn := fun v => match goalLoopD c v (livenessGuarantees c) btrue [] [] with Some (_, d) => d | None => ([], []) end).
    destruct (fp_dec c Hk (nu2BodyD c) (fun _ _ => bfalse) (fun v _ => dn v) (fun v _ => v = btrue \/ v = bfalse) btrue ([], []))
      as (v & d & _ & <- & E & _); auto.
    - intros v d Hv. split; [|split; [destruct Hv; subst; [apply dep_true|apply dep_false]|split; [apply dep_false|split; [apply sub_false|auto]]]].
      unfold nu2BodyD, dn. cbn [fst]. destruct (G v (livenessGuarantees c) btrue [] []) as (d' & ->); [intros E; contradiction|]. reflexivity.
    - eauto.
  Qed.
End DIST.

(** ** The set of the most general strategy *)
Lemma run_inv {S R} (body : S -> step S R) (Inv : S -> Prop) (Q : R -> Prop) n s r :
  run body n s = Some r -> Inv s ->
  (forall s, Inv s -> match body s with Cont s' => Inv s' | Done r => Q r | Abort => True end) -> Q r.
Proof.
  intros E H0 Hs. apply run_Runs in E. destruct (Runs_last body Inv s r E H0) as (t & Ht & Et).
  - intros a b Ha Eb. specialize (Hs a Ha). now rewrite Eb in Hs.
  - specialize (Hs t Ht). now rewrite Et in Hs.
Qed.

Section REACH.
  Variable c : ctx.
  Hypothesis Hwf : wf c.
  Let Hk := wf_kinds c Hwf.
  Local Notation pre := (dep (isPreV c)).
  Local Notation any := (dep (isAnyV c)).

  Lemma asmLoopD_dep live asms : any live -> Forall any asms -> forall good all good' all',
    pre good -> any all -> asmLoopD c live asms good all = Some (good', all') -> pre good' /\ any all'.
  Proof.
    intros Hl. induction 1 as [|a asms Ha HA IH]; intros good all good' all' Hg Hall E; cbn [asmLoopD] in E.
    - injection E as <- <-. auto.
    - rewrite (proj1 (nu0Loop_spec c Hwf live a Hl Ha)) in E. eapply IH in E; auto.
      + apply dep_or; auto. now apply pre_nuX.
      + apply dep_or; auto. apply dep_pathsX; auto; [apply (wf_safetySys c Hwf)|apply isPre_isAny; now apply pre_nuX].
  Qed.
  Lemma computeDistances_any w d strats : computeDistances c = Some (w, (d, strats)) ->
    Forall (Forall any) strats.
  Proof.
    assert (M : forall live n mu1 l dist strat, any live ->
      run (mu1BodyD c) n (bfalse, (live, ([], []))) = Some (mu1, (l, (dist, strat))) -> pre mu1 /\ Forall any strat).
    { intros live n mu1 l dist strat Hl E.
      refine (run_inv (mu1BodyD c) (fun st => pre (fst st) /\ any (fst (snd st)) /\ Forall any (snd (snd (snd st))))
        (fun st => pre (fst st) /\ Forall any (snd (snd (snd st)))) _ _ _ E _ _).
      - split; [apply dep_false|]. cbn. auto.
      - intros [m [li [ds st]]] (I1 & I2 & I3). cbn [fst snd] in *. unfold mu1BodyD.
        destruct (asmLoopD _ _ _ _ _) as [[good all]|] eqn:EA; auto.
        apply asmLoopD_dep in EA; auto using dep_false; [|apply dep_or; auto; now apply any_swap, isPre_isAny|apply (wf_asm c Hwf)].
        destruct EA as [E1 E2]. unfold fpUpdate. destruct (bf_eqb m good); cbn [fst snd];
          repeat match goal with |- _ /\ _ => split end; auto; try (apply Forall_app; auto);
          apply dep_or; auto; now apply any_swap, isPre_isAny. }
    assert (G : forall nu2 goals next dists strats next' d' s', pre nu2 -> Forall any goals -> Forall (Forall any) strats ->
      pre next -> goalLoopD c nu2 goals next dists strats = Some (next', (d', s')) -> pre next' /\ Forall (Forall any) s').
    { intros nu2 goals next dists strats0 next' d' s' Hn HG. revert next dists strats0. induction HG as [|g goals Hg HG IH];
        intros next dists strats0 HS Hx E; cbn [goalLoopD] in E.
      - injection E as <- <- <-. auto.
      - destruct (run (mu1BodyD c) _ _) as [[mu1 [l [dist strat]]]|] eqn:EM; [|discriminate].
        apply M in EM; [|apply dep_and; auto; now apply any_swap, isPre_isAny]. destruct EM as [E1 E2].
        eapply IH in E; auto; [|apply dep_and; auto]. apply Forall_app; auto. }
    intros E. unfold computeDistances in E.
    refine (run_inv (nu2BodyD c) (fun st => pre (fst st)) (fun st => Forall (Forall any) (snd (snd st))) _ _ _ E (dep_true _) _).
    intros [nu2 d0] I. cbn [fst] in I. unfold nu2BodyD. cbn [fst].
    destruct (goalLoopD _ _ _ _ _ _) as [[next [d' s']]|] eqn:EG; auto.
    apply G in EG; auto using dep_true; [|apply (wf_gua c Hwf)]. destruct EG as [E1 E2].
    unfold fpUpdate. destruct (bf_eqb nu2 next); auto.
  Qed.

  Lemma generalStrategy_any its : Forall any its -> any (generalStrategy c its).
  Proof.
    unfold generalStrategy. intros H.
    enough (G : forall st, any (fst st) /\ any (snd st) -> any (snd (fold_left (generalStep c) its st))).
    { apply G. split; apply dep_false. }
    induction H as [|it its Hi H IH]; intros [cov st] [H1 H2]; cbn [fold_left fst snd] in *; auto.
    apply IH. unfold generalStep. cbn [fst snd].
    assert (any (band (bexists (varCubePostOutput c) it) (bnot cov))).
    { apply dep_and; [|now apply dep_not]. eapply dep_exists; [exact Hi|auto]. }
    split; apply dep_or; auto. now apply dep_and.
  Qed.

  Lemma postImage_pre f : any f -> pre (postImage c f).
  Proof.
    intros H. unfold postImage, swapPrePost. eapply dep_swap; [apply (dep_exPre c Hwf); exact H|].
    intros v [Hv E]. destruct (even_cases v) as [[k ->]|[k ->]]; [rewrite even_double in E; discriminate|].
    unfold isAnyV in Hv. rewrite (nvars_spec c Hk) in Hv.
    destruct (swapf_spec _ _ (vectors_spec c Hk) k) as [_ S2]. rewrite S2.
    destruct (in_dec Nat.eq_dec (2 * k) (varVectorPre c)) as [_|N].
    - split; [rewrite (nvars_spec c Hk); lia|apply even_double].
    - elim N. apply (in_varVectorPre c Hk). lia.
  Qed.

  Lemma innerLoops_total gs : Forall (fun e => any (fst e) /\ any (snd e)) gs -> forall all points, pre all -> pre points ->
    exists all' points', innerLoops c gs all points = Some (all', points') /\ pre all' /\ pre points' /\ sub all all'.
  Proof.
    induction 1 as [|[goal strategy] gs [H1 H2] H IH]; intros all points HA HP; cbn [innerLoops].
    - exists all, points. repeat (split; auto). apply sub_refl.
    - cbn [fst snd] in *.
      destruct (fp_inc c Hk (innerBody c goal strategy) (fun mu _ => bor mu (postImage c (band mu strategy)))
        (fun mu p => bor p (postImage c (band (band mu strategy) goal))) (fun mu p => pre mu /\ pre p) points points)
        as (v & d & [V1 V2] & _ & E & _); auto.
      { intros v d [V1 V2]. assert (any (band v strategy)) by (apply dep_and; auto; now apply isPre_isAny).
        assert (pre (bor v (postImage c (band v strategy)))) by (apply dep_or; auto; now apply postImage_pre).
        split; [reflexivity|]. split; auto. split; auto. split; [apply sub_or_l|]. intros _. split; auto.
        apply dep_or; auto. apply postImage_pre. now apply dep_and. }
      rewrite E. destruct (IH (bor all v) (bor d (postImage c (band (band v strategy) goal)))) as (all' & p' & EI & P1 & P2 & P3).
      + now apply dep_or.
      + apply dep_or; auto. apply postImage_pre. apply dep_and; auto. apply dep_and; auto. now apply isPre_isAny.
      + exists all', p'. repeat (split; auto). eapply sub_trans; [apply sub_or_l|exact P3].
  Qed.
  Lemma generalReach_total strats : Forall (Forall any) strats -> exists r, generalReach c strats = Some r.
  Proof.
    intros HS. unfold generalReach. set (gs := combine _ _).
    assert (Forall (fun e => any (fst e) /\ any (snd e)) gs) as HG.
    { apply Forall_forall. intros [g s] Hin. cbn [fst snd]. unfold gs in Hin.
      pose proof (in_combine_l _ _ _ _ Hin) as L. pose proof (in_combine_r _ _ _ _ Hin) as R. split.
      - pose proof (wf_gua c Hwf) as G. rewrite Forall_forall in G. auto.
      - apply in_map_iff in R. destruct R as (its & <- & Hi). apply generalStrategy_any. rewrite Forall_forall in HS. auto. }
    assert (pre (band (initEnv c) (initSys c))) as HI.
    { apply dep_and; [apply dep_weaken with (2 := wf_initEnv c Hwf); now intros v [H _]|apply (wf_initSys c Hwf)]. }
    set (F := fun mu p => match innerLoops c gs mu p with Some (a, _) => a | None => mu end).
    set (D := fun mu p => match innerLoops c gs mu p with Some (_, q) => q | None => p end).
    destruct (fp_inc c Hk (outerBody c gs) F D (fun mu p => pre mu /\ pre p) (band (initEnv c) (initSys c)) (band (initEnv c) (initSys c)))
      as (v & d & _ & _ & E & _); auto.
    - intros v d [V1 V2]. unfold outerBody, F, D.
      destruct (innerLoops_total gs HG v d V1 V2) as (a & p & -> & P1 & P2 & P3). auto 6.
    - rewrite E. eauto.
  Qed.
End REACH.

(** ** Reports *)
Lemma others_drop {A} i (l : list A) : others i l = drop i l.
Proof.
  unfold others, drop.
  assert (G : forall (l : list A) k, k <= i ->
    map snd (filter (fun e => negb (Nat.eqb (fst e) i)) (combine (seq k (List.length l)) l)) = firstn (i - k) l ++ skipn (S (i - k)) l).
  { assert (F : forall (l : list A) k, i < k ->
      map snd (filter (fun e => negb (Nat.eqb (fst e) i)) (combine (seq k (List.length l)) l)) = l).
    { induction l0 as [|a l0 IH]; intros k Hlt; cbn [List.length seq combine filter map fst]; auto.
      destruct (Nat.eqb_spec k i); [lia|]. cbn [negb map snd]. f_equal. apply IH. lia. }
    induction l0 as [|a l0 IH]; intros k Hle; cbn [List.length seq combine filter map fst].
    - now rewrite firstn_nil, skipn_nil.
    - destruct (Nat.eqb_spec k i) as [->|Hne]; cbn [negb map snd].
      + rewrite Nat.sub_diag. cbn [firstn skipn app]. apply F. lia.
      + rewrite IH by lia. replace (i - k) with (S (i - S k)) by lia. reflexivity. }
  rewrite G by lia. now rewrite Nat.sub_0_r.
Qed.
Lemma drop_map {A B} (f : A -> B) i l : drop i (map f l) = map f (drop i l).
Proof. unfold drop. now rewrite map_app, firstn_map, skipn_map. Qed.
Lemma drop_incl {A} i (l : list A) : incl (drop i l) l.
Proof.
  unfold drop. intros x Hx. rewrite <- (firstn_skipn i l). apply in_app_iff in Hx. apply in_app_iff. destruct Hx as [Hx|Hx]; auto.
  right. clear -Hx. revert l Hx. induction i as [|i IH]; intros [|a l] Hx; try contradiction; [now right|now apply IH].
Qed.
Lemma drop_length {A} i (l : list A) : i < List.length l -> S (List.length (drop i l)) = List.length l.
Proof. intros H. unfold drop. rewrite app_length, firstn_length, skipn_length. lia. Qed.

Lemma trans_bandAll l s t : trans (bandAll l) s t = forallb (fun p => p s t) (map trans l).
Proof.
  unfold trans. rewrite bandAll_eval. induction l as [|a l IH]; cbn [forallb map]; auto. now rewrite IH.
Qed.

(** What the parser provides. *)
Record described (c : ctx) (p : parts) : Prop := mkDescribed {
  ds_wf : wf c;
  ds_safety : safetyEnv c = bandAll (p_safety p);
  ds_dep : Forall (dep (isPrePostInV c)) (p_safety p);
  ds_names : List.length (p_safetyNames p) = List.length (p_safety p);
  ds_liveNames : List.length (p_liveNames p) = List.length (livenessAssumptions c)
}.

Lemma with_wf c safety live : wf c -> dep (isPrePostInV c) safety -> Forall (dep (isAnyV c)) live -> live <> [] ->
  wf (withAssumptions c safety live).
Proof.
  intros Hwf Hs Hl Hn. constructor.
  - exact (wf_kinds c Hwf).
  - exact (wf_initEnv c Hwf).
  - exact (wf_initSys c Hwf).
  - exact Hs.
  - exact (wf_safetySys c Hwf).
  - exact Hl.
  - exact (wf_gua c Hwf).
  - exact Hn.
  - exact (wf_gua_ne c Hwf).
Qed.

Lemma needed_spec reach ref : forall new k0,
  fst (needed ref new reach k0) = true <->
  exists i, i < List.length new /\ nth (Nat.min (List.length ref - 1) (k0 + i)) ref bfalse <> nth i new bfalse.
Proof.
  induction new as [|d new IH]; intros k0; cbn [needed].
  - split; [discriminate|]. intros (i & Hi & _). cbn in Hi. lia.
  - specialize (IH (S k0)). destruct (needed ref new reach (S k0)) as [here general]. cbn [fst] in IH.
    destruct (bf_eqb_spec (nth (Nat.min (List.length ref - 1) k0) ref bfalse) d) as [E|N]; cbn [fst].
    + rewrite IH. split.
      * intros (i & Hi & HN). exists (S i). cbn [List.length nth]. split; [lia|]. now rewrite Nat.add_succ_r.
      * intros ([|i] & Hi & HN); cbn [List.length nth] in *; [rewrite Nat.add_0_r in HN; contradiction|].
        exists i. split; [lia|]. now rewrite Nat.add_succ_r in HN.
    + split; auto. intros _. exists 0. cbn [List.length nth]. rewrite Nat.add_0_r. split; [lia|auto].
Qed.
Lemma easierGoals_spec c ref new reach :
  NoDup (map fst (easierGoals c ref new reach)) /\
  forall j, In j (map fst (easierGoals c ref new reach)) <->
    j < List.length (livenessGuarantees c) /\ fst (needed (nth j ref []) (nth j new []) reach 0) = true.
Proof.
  unfold easierGoals.
  assert (E : forall l, map fst (flat_map (fun j => let '(here, general) := needed (nth j ref []) (nth j new []) reach 0 in
                     if here then [(j, negb general)] else []) l) =
    filter (fun j => fst (needed (nth j ref []) (nth j new []) reach 0)) l).
  { induction l as [|j l IH]; auto. cbn [flat_map filter]. rewrite map_app, IH.
    destruct (needed _ _ _ _) as [here general]. cbn [fst]. now destruct here. }
  rewrite E. split; [apply NoDup_filter, seq_NoDup|]. intros j. rewrite filter_In, in_seq. intuition lia.
Qed.
Lemma nth_stored c z g m : forall i, i <= m -> nth i (stored c z g (S m)) bfalse = iterY c z g (S i).
Proof.
  intros i Hi. unfold stored.
  rewrite nth_indep with (d' := (fun k => iterY c z g (S k)) 0) by (rewrite map_length, seq_length; lia).
  rewrite (map_nth (fun k => iterY c z g (S k))), seq_nth by lia. reflexivity.
Qed.
Lemma nth_combine_stored c z : forall gs ms j g, Forall2 (fun g m => isMuY c z g (iterY c z g m)) gs ms ->
  nth_error gs j = Some g -> exists m, isMuY c z g (iterY c z g m) /\
    nth j (map (fun e => stored c z (fst e) (S (snd e))) (combine gs ms)) [] = stored c z g (S m).
Proof.
  intros gs ms j g HF. revert j. induction HF as [|g1 m1 gs ms HM HF IH]; intros [|j] E; try discriminate.
  - injection E as ->. exists m1. auto.
  - apply IH in E. exact E.
Qed.
Lemma isMuY_stable c z g m k : isMuY c z g (iterY c z g m) -> m <= k -> iterY c z g k = iterY c z g m.
Proof.
  intros [E _] L. induction L as [|k L IH]; auto.
  change (stepY c z g (iterY c z g k) = iterY c z g m). now rewrite IH.
Qed.

Section REPORT.
  Variables (c c' : ctx) (refW w : BF).
  Hypothesis Hwf : wf c.
  Hypothesis Hwf' : wf c'.
  Hypothesis Hcheck : initialCheck c' w = initialCheck c w.
  Hypothesis Hvars : varTypes c' = varTypes c.
  Hypothesis HR : exactW c refW.
  Hypothesis HW : exactW c' w.
  Hypothesis HF : fewer (game_of c) (game_of c').
  Let Hk := wf_kinds c Hwf.
  Local Notation pre := (dep (isPreV c)).

  Lemma report_pre : pre w.
  Proof. destruct HW as [H _]. unfold isPreV in *. rewrite Hvars in H. exact H. Qed.
  Lemma report_sub s : pos w s = true -> pos refW s = true.
  Proof. rewrite (exact_winning c' w HW), (exact_winning c refW HR). apply (fewer_winning _ _ HF). Qed.
  Lemma blt_pre a b : pre a -> pre b -> sub a b ->
    (blt a b = true <-> exists s, pos b s = true /\ pos a s = false).
  Proof.
    intros Ha Hb Hs. unfold blt. rewrite andb_true_iff, negb_true_iff. split.
    - intros [_ H]. apply bf_eqb_neq in H.
      destruct (find (fun l => pos b (ofVec l) && negb (pos a (ofVec l))) (vectors (nvars c))) as [l|] eqn:F.
      + apply find_some in F. destruct F as [_ F]. exists (ofVec l). apply andb_true_iff in F. now rewrite negb_true_iff in F.
      + exfalso. apply H. apply (sub_antisym c); auto. intros s Hbs.
        pose proof (find_none _ _ F _ (toVec_in (nvars c) s)) as N. cbv beta in N.
        assert (E : forall f, pre f -> pos f (ofVec (toVec (nvars c) s)) = pos f s).
        { intros f Hf. apply (pos_ext c Hk); auto. intros k Hlt. now apply ofVec_toVec. }
        rewrite !E, Hbs in N by auto. cbn in N. now destruct (pos a s).
    - intros (s & H1 & H2). split; [|apply bf_eqb_neq; intros ->; congruence].
      apply bleq_spec. intros e He.
      set (s' := fun k => e (2 * k)).
      assert (X : forall f, pre f -> eval f e = pos f s').
      { intros f Hf. unfold pos. apply Hf. intros v [_ Hv]. unfold tv. rewrite Hv.
        destruct (even_cases v) as [[k ->]|[k ->]]; [now rewrite Nat.div2_double|rewrite even_double1 in Hv; discriminate]. }
      rewrite X in He by auto. rewrite X by auto. now apply Hs.
  Qed.

  Lemma report_means (same : bool) (P : Prop) ref reach new : (same = true <-> P) ->
    means (game_of c) (game_of c') P (reportOf c same refW ref reach w new).
  Proof.
    intros HP. unfold reportOf. rewrite <- Hcheck.
    pose proof (initialCheck_spec c' Hwf' w HW) as HC.
    destruct (isTrue (initialCheck c' w)) eqn:T.
    2:{ destruct HC as [[E _]|[_ D]].
        - unfold verdictOf in E. rewrite T in E. destruct (negb _); discriminate.
        - cbn [means]. intros (f & Hf). destruct (D f) as (x & Hx). apply Hx, Hf. }
    assert (RZ : realizable (game_of c')).
    { destruct HC as [[_ R]|[E _]]; auto. unfold verdictOf in E. rewrite T in E. destruct (negb _); discriminate. }
    pose proof report_pre as Pw. assert (pre refW) as Pr by apply HR.
    assert (Hi : pre (initEnv c)) by (apply dep_weaken with (2 := wf_initEnv c Hwf); now intros v [H _]).
    pose proof (exact_winning c' w HW) as EW. pose proof (exact_winning c refW HR) as ER.
    assert (NW : forall s, pos w s = false <-> ~ winning (game_of c') s) by (intros s; rewrite <- EW, not_true_iff_false; tauto).
    pose proof (blt_pre w refW Pw Pr report_sub) as B1.
    assert (S2 : sub (band w (initEnv c)) (band refW (initEnv c))).
    { intros s. rewrite !pos_and, !andb_true_iff. intros [H1 H2]. split; auto. now apply report_sub. }
    pose proof (blt_pre (band w (initEnv c)) (band refW (initEnv c)) (dep_and _ _ _ Pw Hi) (dep_and _ _ _ Pr Hi) S2) as B2.
    assert (Same : blt w refW = false -> forall s, winning (game_of c) s <-> winning (game_of c') s).
    { intros B s. rewrite <- ER, <- EW. split; [|apply report_sub]. intros H. destruct (pos w s) eqn:E; auto.
      exfalso. assert (blt w refW = true) by (apply B1; eauto). congruence. }
    destruct (blt w refW) eqn:L1.
    - destruct (proj1 B1 eq_refl) as (s & H1 & H2). destruct (blt (band w (initEnv c)) (band refW (initEnv c))) eqn:L2.
      + split; auto. destruct (proj1 B2 eq_refl) as (s2 & K1 & K2). exists s2.
        rewrite pos_and in K1, K2. apply andb_true_iff in K1. destruct K1 as [K1 K3]. rewrite K3, andb_true_r in K2.
        split; [exact K3|]. split; [now apply ER|now apply NW].
      + split; auto. split; [exists s; split; [now apply ER|now apply NW]|].
        intros s2 K1 K2. apply EW. destruct (pos w s2) eqn:E; auto. exfalso.
        assert (false = true); [|discriminate]. apply B2. exists s2. rewrite !pos_and, E. apply ER in K2. rewrite K2.
        cbn [game_of g_initE] in K1. now rewrite K1.
    - specialize (Same eq_refl). destruct same.
      + cbn [means]. split; auto. split; auto. now apply HP.
      + assert (~ P) by (intros X; apply HP in X; discriminate).
        destruct (easierGoals c ref new reach); cbn [means]; auto.
  Qed.

  Lemma report_lists (same : bool) ref st reach new st' : livenessGuarantees c' = livenessGuarantees c ->
    computeDistances c = Some (refW, (ref, st)) -> computeDistances c' = Some (w, (new, st')) ->
    lists (game_of c) (game_of c') (reportOf c same refW ref reach w new).
  Proof.
    intros HG E E'. unfold reportOf. destruct (isTrue (initialCheck c w)); [|exact I].
    destruct (blt w refW) eqn:L1; [destruct (blt (band w (initEnv c)) _); exact I|]. destruct same; [exact I|].
    pose proof report_pre as Pw. assert (pre refW) as Pr by apply HR.
    assert (ES : w = refW).
    { apply (sub_antisym c); auto; [intros s; apply report_sub|]. intros s Hs. destruct (pos w s) eqn:Ew; auto.
      exfalso. pose proof (proj2 (blt_pre w refW Pw Pr report_sub)) as B. rewrite L1 in B. discriminate B. eauto. }
    assert (SW : forall s, winning (game_of c) s <-> winning (game_of c') s).
    { intros s. rewrite <- (exact_winning c' w HW), <- (exact_winning c refW HR), ES. reflexivity. }
    destruct (computeDistances_stored c Hwf _ _ _ E) as (_ & ms & ER & HM).
    destruct (computeDistances_stored c' Hwf' _ _ _ E') as (_ & ms' & EN & HM'). rewrite HG in EN, HM'.
    destruct (easierGoals_spec c ref new reach) as [ND HI].
    assert (EQ : forall j, In j (map fst (easierGoals c ref new reach)) <-> easier (game_of c) (game_of c') j).
    { intros j. rewrite HI. unfold easier. cbn [game_of g_liveG].
      destruct (nth_error (livenessGuarantees c) j) as [g|] eqn:Ej.
      2:{ apply nth_error_None in Ej. split; [intros [H _]; lia|]. intros (goal & k & s & H & _).
          rewrite nth_error_map in H. apply nth_error_None in Ej. rewrite Ej in H. discriminate. }
      assert (Lj : j < List.length (livenessGuarantees c)) by (apply nth_error_Some; congruence).
      assert (Hin : In g (livenessGuarantees c)) by (eapply nth_error_In; eauto).
      assert (Hin' : In g (livenessGuarantees c')) by (now rewrite HG).
      assert (Ag : dep (isAnyV c) g) by (now apply (any_gua c Hwf)).
      assert (Ag' : dep (isAnyV c') g) by (now apply (any_gua c' Hwf')).
      destruct (nth_combine_stored c refW _ _ _ _ HM Ej) as (m & Hm & Nm).
      destruct (nth_combine_stored c' w _ _ _ _ HM' Ej) as (m' & Hm' & Nm').
      rewrite ER, EN, Nm, Nm', needed_spec.
      pose proof (level_spec c Hwf refW g HR Ag) as LV. pose proof (level_spec c' Hwf' w g HW Ag') as LV'.
      assert (Len : forall c z m, List.length (stored c z g (S m)) = S m) by (intros; unfold stored; now rewrite map_length, seq_length).
      assert (Ref : forall i, nth (Nat.min (List.length (stored c refW g (S m)) - 1) i) (stored c refW g (S m)) bfalse = iterY c refW g (S i)).
      { intros i. rewrite Len. replace (S m - 1) with m by lia. destruct (Nat.le_gt_cases i m) as [Hi|Hi].
        - rewrite Nat.min_r by lia. now apply nth_stored.
        - rewrite Nat.min_l by lia. rewrite nth_stored by lia. rewrite !isMuY_stable with (m := m) (k := S _); auto; lia. }
      assert (Sub : forall k s, pos (iterY c' w g k) s = true -> pos (iterY c refW g k) s = true).
      { intros k s. rewrite LV, LV'. now apply fewer_within. }
      assert (Pi' : forall k, pre (iterY c' w g k)).
      { intros k. assert (dep (isPreV c') (iterY c' w g k)) as P by (apply pre_iterY; auto; apply HW).
        unfold isPreV in *. rewrite Hvars in P. exact P. }
      assert (Pi : forall k, pre (iterY c refW g k)) by (intros k; apply pre_iterY; auto).
      (* the limit *)
      assert (Top' : iterY c' w g m' = w).
      { destruct (compute_spec c' Hwf') as (w1 & d1 & EC & SO). pose proof (computeDistances_sim c') as X. rewrite EC, E' in X. subst w1.
        assert (Pw' : dep (isPreV c') w) by apply HW.
        pose proof (muY_spec c' Hwf' w g Pw' Ag') as MS. rewrite (muY_eq c' Hwf' w d1 g SO Hin') in MS.
        now apply (isMuY_unique c' Hwf' w g). }
      assert (Top : forall k s, pos (iterY c refW g k) s = true -> pos refW s = true).
      { destruct (compute_spec c Hwf) as (w1 & d1 & EC & SO). pose proof (computeDistances_sim c) as X. rewrite EC, E in X. subst w1.
        intros k s. rewrite <- (muY_eq c Hwf refW d1 g SO Hin) at 2. apply iterY_least; auto; [apply pre_muY; auto|].
        rewrite muY_fix by auto. apply sub_refl. }
      split.
      - intros (_ & i & Hi & HN). rewrite Len in Hi. cbn [Nat.add] in HN. rewrite Ref, nth_stored in HN by lia.
        exists (trans g), (S i). rewrite nth_error_map, Ej.
        assert (B : blt (iterY c' w g (S i)) (iterY c refW g (S i)) = true).
        { unfold blt. rewrite andb_true_iff, negb_true_iff. split; [|apply bf_eqb_neq; congruence].
          apply bleq_spec. intros e He. pose proof (Sub (S i) (fun k => e (2 * k))) as SB.
          assert (X : forall f, pre f -> eval f e = pos f (fun k => e (2 * k))).
          { intros f Hf. unfold pos. apply Hf. intros v [_ Hv]. unfold tv. rewrite Hv.
            destruct (even_cases v) as [[k ->]|[k ->]]; [now rewrite Nat.div2_double|rewrite even_double1 in Hv; discriminate]. }
          rewrite X in He by auto. rewrite X by auto. auto. }
        apply blt_pre in B; auto. destruct B as (s & B1 & B2). exists s. split; [reflexivity|]. split; [now apply LV|].
        rewrite <- LV'. congruence. intros s. apply Sub.
      - intros (goal & k & s & Eg & H1 & H2). split; auto. rewrite nth_error_map, Ej in Eg. cbn in Eg. injection Eg as <-.
        destruct k as [|i]; [contradiction|]. exists i. rewrite Len.
        assert (Hi : S i < S m' ).
        { destruct (Nat.lt_ge_cases (S i) (S m')) as [|Hge]; auto. exfalso. apply H2, LV'.
          rewrite isMuY_stable with (m := m') by (auto; lia). rewrite Top'. apply LV, Top in H1. now rewrite ES. }
        split; [lia|]. cbn [Nat.add]. rewrite Ref, nth_stored by lia. intros HQ. apply H2, LV'. rewrite <- HQ. now apply LV. }
    destruct (easierGoals c ref new reach) as [|a l] eqn:EG; cbn [lists].
    - intros j Hj. apply EQ in Hj. contradiction.
    - split; [discriminate|]. auto.
  Qed.
End REPORT.

Lemma reportLoop_spec f names (Q : nat -> report -> Prop) : forall is,
  (forall i, In i is -> i < List.length names /\ exists r, f i = Some r /\ Q i r) ->
  exists l, reportLoop f names is = Some l /\
    Forall2 (fun i e => nth_error names i = Some (fst e) /\ Q i (snd e)) is l.
Proof.
  induction is as [|i is IH]; intros H; cbn [reportLoop].
  - exists []. split; auto.
  - destruct IH as (l & -> & HL); [intros j Hj; apply H; now right|].
    destruct (H i (or_introl eq_refl)) as (Hi & r & -> & HQ).
    destruct (nth_error names i) as [n|] eqn:E; [|apply nth_error_None in E; lia].
    exists ((n, r) :: l). split; auto.
Qed.
Lemma forall2_seq {B} (R : nat -> B -> Prop) : forall l n k, Forall2 R (seq k n) l ->
  List.length l = n /\ forall i b, nth_error l i = Some b -> R (k + i) b.
Proof.
  induction l as [|a l IH]; intros [|n] k H; cbn [seq] in H; inversion H as [|x y xs ys HR HF]; subst.
  - split; auto. intros [|i] b E; discriminate.
  - destruct (IH n (S k) HF) as [E1 E2].
    split; [cbn; lia|]. intros [|i] b E; cbn in E.
    + injection E as <-. now rewrite Nat.add_0_r.
    + rewrite Nat.add_succ_r. now apply (E2 i b).
Qed.

Lemma means_ext g g1 g2 P r : fewer g1 g2 -> fewer g2 g1 -> means g g1 P r -> means g g2 P r.
Proof.
  intros F1 F2.
  assert (R : realizable g1 <-> realizable g2) by (split; [apply (fewer_realizable _ _ F2)|apply (fewer_realizable _ _ F1)]).
  assert (W : forall s, winning g1 s <-> winning g2 s) by (intros s; split; [apply (fewer_winning _ _ F2)|apply (fewer_winning _ _ F1)]).
  destruct r; cbn [means]; rewrite R; intros H; auto.
  - destruct H as [H (s & H1 & H2 & H3)]. split; auto. exists s. rewrite <- W. auto.
  - destruct H as [H [(s & H1 & H2) H3]]. split; auto. split.
    + exists s. rewrite <- W. auto.
    + intros s' K1 K2. rewrite <- W. auto.
  - destruct H as [H [H1 H2]]. split; auto. split; auto. intros s. rewrite H1. apply W.
  - destruct H as [H [H1 H2]]. split; auto. split; auto. intros s. rewrite H1. apply W.
  - destruct H as [H [H1 H2]]. split; auto. split; auto. intros s. rewrite H1. apply W.
Qed.

Lemma lists_ext g g1 g2 r : fewer g1 g2 -> fewer g2 g1 -> lists g g1 r -> lists g g2 r.
Proof.
  intros F1 F2.
  assert (W : forall s, winning g1 s <-> winning g2 s) by (intros s; split; [apply (fewer_winning _ _ F2)|apply (fewer_winning _ _ F1)]).
  assert (E : forall j, easier g g1 j <-> easier g g2 j).
  { intros j. unfold easier. split; intros (goal & k & s & H1 & H2 & H3); exists goal, k, s; (split; [auto|split; [auto|]]);
      intros H; apply H3; revert H; [apply (fewer_within _ _ F1)|apply (fewer_within _ _ F2)]; auto. intros; symmetry; auto. }
  destruct r; cbn [lists]; auto.
  - intros (H1 & H2 & H3). split; auto. split; auto. intros j. now rewrite H3.
  - intros H j. rewrite <- E. auto.
Qed.

Section ANALYSIS.
  Variables (c : ctx) (p : parts).
  Hypothesis HD : described c p.
  Let Hwf := ds_wf c p HD.
  Let g := game_of c.
  Let withoutSafety i := with_assumptions g (drop i (map trans (p_safety p))) (g_liveA g).
  Let withoutLive i := with_assumptions g [] (drop i (g_liveA g)).

  Lemma safe_split s t : g_safeE g s t = forallb (fun q => q s t) (map trans (p_safety p)).
  Proof. unfold g. cbn [game_of g_safeE]. rewrite (ds_safety c p HD). apply trans_bandAll. Qed.

  Lemma fewer_safety i : fewer g (withoutSafety i).
  Proof.
    constructor; auto.
    - intros s t. rewrite safe_split. cbn [withoutSafety with_assumptions g_safeE]. rewrite !forallb_forall.
      intros H q Hq. apply H. now apply (drop_incl i).
    - cbn. apply incl_refl.
  Qed.
  Lemma fewer_live_asm i : fewer g (withoutLive i).
  Proof.
    constructor; auto. cbn. apply drop_incl.
  Qed.

  Theorem analysis_spec :
    (~ realizable g -> analyzeAssumptions c p = Some StartUnrealizable) /\
    (realizable g -> exists s l, analyzeAssumptions c p = Some (Reports s l) /\
       map fst s = p_safetyNames p /\ map fst l = p_liveNames p /\
       (forall i n r, nth_error s i = Some (n, r) ->
          means g (withoutSafety i) (forall s t, g_safeE g s t = g_safeE (withoutSafety i) s t) r /\
          lists g (withoutSafety i) r) /\
       (2 <= List.length (g_liveA g) -> forall i n r, nth_error l i = Some (n, r) ->
          means g (withoutLive i) False r /\ lists g (withoutLive i) r) /\
       (List.length (g_liveA g) = 1 -> forall i n r, nth_error l i = Some (n, r) ->
          (r = Crucial <-> exists s, g_initE g s = true))).
  Proof.
    destruct (computeDistances_exact c Hwf) as (refW & [ref strats] & E & HX).
    pose proof (initialCheck_spec c Hwf refW HX) as HC. unfold analyzeAssumptions. rewrite E.
    split.
    { intros NR. destruct HC as [[_ R]|[V _]]; [contradiction|]. unfold verdictOf in V.
      destruct (isTrue (initialCheck c refW)); auto. destruct (negb _); discriminate. }
    intros RZ.
    destruct HC as [[V _]|[_ D]].
    2:{ exfalso. destruct RZ as (f & Hf). destruct (D f) as (x & Hx). apply Hx, Hf. }
    assert (isTrue (initialCheck c refW) = true) as ->.
    { unfold verdictOf in V. destruct (isTrue (initialCheck c refW)); auto. destruct (negb _); discriminate. }
    destruct (generalReach_total c Hwf strats (computeDistances_any c Hwf refW ref strats E)) as (reach & ->).
    match goal with |- context [reportLoop ?F (p_safetyNames p) _] => set (SR := F) end.
    match goal with |- context [reportLoop ?F (p_liveNames p) _] => set (LR := F) end.
    destruct (reportLoop_spec SR (p_safetyNames p)
      (fun i r => means g (withoutSafety i) (forall s t, g_safeE g s t = g_safeE (withoutSafety i) s t) r /\ lists g (withoutSafety i) r)
      (seq 0 (List.length (p_safety p)))) as (sl & ES & HS).
    { intros i Hi. apply in_seq in Hi. rewrite (ds_names c p HD). split; [lia|].
      set (safety := conjunction (others i (p_safety p))).
      set (c' := withAssumptions c safety (livenessAssumptions c)).
      assert (DS : dep (isPrePostInV c) safety).
      { unfold safety. rewrite others_drop. apply dep_bandAll. apply Forall_forall. intros b Hb. apply drop_incl in Hb.
        pose proof (ds_dep c p HD) as X. rewrite Forall_forall in X. auto. }
      assert (Hwf' : wf c') by (apply with_wf; auto; [apply (wf_asm c Hwf)|apply (wf_asm_ne c Hwf)]).
      destruct (computeDistances_exact c' Hwf') as (w & [new st] & E' & HX').
      exists (reportOf c (bf_eqb (safetyEnv c) safety) refW ref reach w new). split.
      { unfold SR. fold safety. fold c'. now rewrite E'. }
      assert (SE : forall s t, g_safeE (game_of c') s t = g_safeE (withoutSafety i) s t).
      { intros s t. cbn [game_of c' withAssumptions safetyEnv g_safeE withoutSafety with_assumptions].
        unfold safety. rewrite others_drop, drop_map. apply trans_bandAll. }
      assert (F1 : fewer (game_of c') (withoutSafety i)).
      { constructor; auto; [intros s t; now rewrite SE|apply incl_refl]. }
      assert (F2 : fewer (withoutSafety i) (game_of c')).
      { constructor; auto; [intros s t; now rewrite SE|apply incl_refl]. }
      assert (F0 : fewer (game_of c) (game_of c')).
      { constructor; auto; [|apply incl_refl]. intros s t Hst. rewrite SE. now apply (fw_safeE _ _ (fewer_safety i)). }
      split; [|apply lists_ext with (g1 := game_of c'); auto;
               exact (report_lists c c' refW w Hwf Hwf' eq_refl HX HX' F0 _ ref strats reach new st eq_refl E E')].
      apply means_ext with (g1 := game_of c'); auto.
      refine (report_means c c' refW w Hwf Hwf' eq_refl eq_refl HX HX' F0 _ _ ref reach new _).
      - rewrite bf_eqb_eq. split.
        + intros Heq s t. rewrite <- SE. unfold g. cbn [game_of g_safeE c' withAssumptions safetyEnv]. now rewrite Heq.
        + intros Heq. apply bf_ext. intros e.
          assert (AN : dep (isAnyV c) (safetyEnv c) /\ dep (isAnyV c) safety).
          { split; [apply dep_weaken with (2 := wf_safetyEnv c Hwf)|apply dep_weaken with (2 := DS)]; now intros v [Hv _]. }
          set (s := fun k => e (2 * k)). set (t := fun k => e (2 * k + 1)).
          assert (X : forall f, eval f e = trans f s t).
          { intros f. unfold trans. apply eval_ext. intros v. unfold tv, s, t.
            destruct (even_cases v) as [[k ->]|[k ->]]; [now rewrite even_double, Nat.div2_double|now rewrite even_double1, div2_double1]. }
          rewrite !X. specialize (Heq s t). rewrite <- SE in Heq. exact Heq. }
    rewrite ES.
    assert (LQ : exists ll, reportLoop LR (p_liveNames p) (seq 0 (List.length (livenessAssumptions c))) = Some ll /\
      Forall2 (fun i e => nth_error (p_liveNames p) i = Some (fst e) /\
        ((2 <= List.length (g_liveA g) -> means g (withoutLive i) False (snd e) /\ lists g (withoutLive i) (snd e)) /\
         (List.length (g_liveA g) = 1 -> (snd e = Crucial <-> exists s, g_initE g s = true)))) (seq 0 (List.length (livenessAssumptions c))) ll).
    { apply (reportLoop_spec LR (p_liveNames p) (fun i r => (2 <= List.length (g_liveA g) -> means g (withoutLive i) False r /\ lists g (withoutLive i) r) /\
         (List.length (g_liveA g) = 1 -> (r = Crucial <-> exists s, g_initE g s = true)))).
      intros i Hi. apply in_seq in Hi. rewrite (ds_liveNames c p HD). split; [lia|].
      set (c' := withAssumptions c btrue (others i (livenessAssumptions c))).
      assert (EL : g_liveA g = map trans (livenessAssumptions c)) by reflexivity.
      assert (LL : List.length (g_liveA g) = List.length (livenessAssumptions c)) by (rewrite EL; apply map_length).
      destruct (Nat.eq_dec (List.length (livenessAssumptions c)) 1) as [One|Many].
      - assert (NL : livenessAssumptions c' = []).
        { cbn [c' withAssumptions livenessAssumptions]. rewrite others_drop. pose proof (drop_length i (livenessAssumptions c)) as X.
          destruct (drop i (livenessAssumptions c)); auto. cbn in X. lia. }
        destruct (computeDistances_none c' (wf_kinds c Hwf) NL (wf_gua_ne c Hwf)) as ([new st] & E').
        exists (reportOf c false refW ref reach bfalse new). split; [unfold LR; fold c'; now rewrite E'|].
        split; [rewrite LL; lia|]. intros _.
        (* the check of an empty set *)
        assert (T : isTrue (initialCheck c bfalse) = false <-> exists s, g_initE g s = true).
        { assert (I0 : initialCheck c bfalse = bforall (varCubePreInput c) (bnot (initEnv c))).
          { unfold initialCheck. f_equal. apply bf_ext. intros e. rewrite eval_imp, eval_not.
            assert (bexists (varCubePreOutput c) (band bfalse (initSys c)) = bfalse) as ->.
            { apply bf_ext. intros e'. rewrite eval_false. apply not_true_iff_false. rewrite eval_exists.
              intros (e2 & _ & H). rewrite eval_and, eval_false in H. discriminate. }
            rewrite eval_false. now destruct (eval (initEnv c) e). }
          rewrite I0. split.
          - intros H. assert (N : bforall (varCubePreInput c) (bnot (initEnv c)) <> btrue).
            { intros X. rewrite X in H. vm_compute in H. discriminate. }
            destruct (find_pos c Hwf (bnot (initEnv c))) as [F|(s & F)].
            + apply dep_not. apply dep_weaken with (2 := wf_initEnv c Hwf). now intros v [Hv _].
            + exfalso. apply N. apply bf_ext. intros e. rewrite eval_true. apply eval_forall. intros e' _.
              set (s := fun k => e' (2 * k)).
              rewrite <- (F s), pos_not. rewrite eval_not. f_equal. unfold pos. apply (wf_initEnv c Hwf).
              intros v [[_ Hv] _]. unfold tv. rewrite Hv. unfold s.
              destruct (even_cases v) as [[k ->]|[k ->]]; [now rewrite Nat.div2_double|rewrite even_double1 in Hv; discriminate].
            + exists s. cbn. rewrite pos_not in F. now destruct (pos (initEnv c) s).
          - intros (s & Hs). destruct (isTrue _) eqn:T; auto. exfalso.
            pose proof (proj1 (isTrue_spec _) T (tv s s)) as T'.
            pose proof (proj1 (eval_forall _ _ _) T' (tv s s)) as T2. rewrite eval_not in T2. cbn in Hs. unfold pos in Hs. rewrite Hs in T2. discriminate T2. intros v _. reflexivity. }
        unfold reportOf. destruct (isTrue (initialCheck c bfalse)).
        + split; [|intros H; apply T in H; discriminate].
          destruct (blt bfalse refW); [destruct (blt _ _); discriminate|]. destruct (easierGoals _ _ _ _); discriminate.
        + split; auto. intros _. now apply T.
      - assert (Hwf' : wf c').
        { apply with_wf; auto using dep_true.
          - apply Forall_forall. intros b Hb. rewrite others_drop in Hb. apply drop_incl in Hb.
            pose proof (wf_asm c Hwf) as X. rewrite Forall_forall in X. auto.
          - rewrite others_drop. intros X. pose proof (drop_length i (livenessAssumptions c)) as Y. rewrite X in Y. cbn in Y. lia. }
        destruct (computeDistances_exact c' Hwf') as (w & [new st] & E' & HX').
        exists (reportOf c false refW ref reach w new). split; [unfold LR; fold c'; now rewrite E'|].
        split; [|rewrite LL; lia]. intros _.
        assert (SE : g_liveA (game_of c') = g_liveA (withoutLive i)).
        { cbn [c' withAssumptions game_of livenessAssumptions g_liveA withoutLive with_assumptions]. rewrite EL, others_drop. symmetry. apply drop_map. }
        assert (F1 : fewer (game_of c') (withoutLive i)).
        { constructor; auto; rewrite <- SE; apply incl_refl. }
        assert (ST : forall s t, g_safeE (game_of c') s t = true) by (intros s t; apply eval_true).
        assert (F2 : fewer (withoutLive i) (game_of c')).
        { constructor; auto; rewrite SE; apply incl_refl. }
        assert (F0 : fewer (game_of c) (game_of c')) by (constructor; auto; rewrite SE; apply drop_incl).
        split; [|apply lists_ext with (g1 := game_of c'); auto;
                 exact (report_lists c c' refW w Hwf Hwf' eq_refl HX HX' F0 _ ref strats reach new st eq_refl E E')].
        apply means_ext with (g1 := game_of c'); auto.
        refine (report_means c c' refW w Hwf Hwf' eq_refl eq_refl HX HX' F0 _ _ ref reach new _).
        split; [discriminate|contradiction]. }
    destruct LQ as (ll & EL & HL). rewrite EL. exists sl, ll. split; auto.
    destruct (forall2_seq _ _ _ _ HS) as [LS NS]. destruct (forall2_seq _ _ _ _ HL) as [LLn NLn].
    assert (MF : forall (names : list string) (rs : list (string * report)), List.length rs = List.length names ->
      (forall i e, nth_error rs i = Some e -> nth_error names i = Some (fst e)) -> map fst rs = names).
    { intros names rs Hl Hn. apply nth_ext with (d := ""%string) (d' := ""%string); [now rewrite map_length|].
      intros i Hi. rewrite map_length in Hi. destruct (nth_error rs i) as [e|] eqn:Ee; [|apply nth_error_None in Ee; lia].
      rewrite (nth_error_nth names i _ (Hn i e Ee)).
      apply nth_error_nth. now rewrite nth_error_map, Ee. }
    split; [apply MF; [rewrite LS; symmetry; apply (ds_names c p HD)|intros i e He; apply (NS i e He)]|].
    split; [apply MF; [rewrite LLn; symmetry; apply (ds_liveNames c p HD)|intros i e He; apply (NLn i e He)]|].
    split; [intros i n r He; apply (NS i (n, r) He)|].
    split; intros HL2 i n r He; apply (NLn i (n, r) He); exact HL2.
  Qed.
End ANALYSIS.

(** ** Reading the file *)
Lemma substring_all s : substring 0 (String.length s) s = s.
Proof. induction s as [|a s IH]; cbn; auto. now rewrite IH. Qed.

Definition numFrom (prefix : string) (k : nat) (names : list string) : list string :=
  map (fun e => if String.eqb (snd e) "" then (prefix ++ NilEmpty.string_of_uint (Nat.to_uint (S (fst e))))%string else snd e)
      (combine (seq k (List.length names)) names).
Lemma length_numFrom prefix k names : List.length (numFrom prefix k names) = List.length names.
Proof. unfold numFrom. rewrite map_length, combine_length, seq_length. lia. Qed.
Lemma length_namesOf s LN : List.length (namesOf s LN) = List.length (linesOf s (map fst LN)).
Proof.
  unfold namesOf, linesOf. rewrite !map_length. induction LN as [|e LN IH]; cbn [filter map List.length]; auto.
  destruct (sec_eqb (fst (fst e)) s); cbn [List.length]; auto.
Qed.

Section FILE.
  Variable ord : nat -> bool.

  Lemma processLinesA_spec : forall lines cur name L bs p m c name' p',
    values ord L L bs -> p_safety p = bs SEnvTrans ->
    processLinesA ord ((modeOf cur, contextOf L bs), (name, p)) lines = POk ((m, c), (name', p')) ->
    processLines ord (modeOf cur, contextOf L bs) lines = POk (m, c) /\
    exists LN bs', annotated cur name lines = Some LN /\ layout cur lines = Some (map fst LN) /\
      values ord (L ++ map fst LN) (L ++ map fst LN) bs' /\ c = contextOf (L ++ map fst LN) bs' /\
      p_safety p' = bs' SEnvTrans /\
      p_safetyNames p' = p_safetyNames p ++ numFrom "Safety Assumption " (List.length (bs SEnvTrans)) (namesOf SEnvTrans LN) /\
      p_liveNames p' = p_liveNames p ++ numFrom "Liveness Assumption " (List.length (bs SEnvLive)) (namesOf SEnvLive LN).
  Proof.
    induction lines as [|l lines IH]; intros cur name L bs p m c name' p' HV HP E.
    - cbn in E. injection E as <- <- <- <-. split; [reflexivity|]. exists [], bs.
      cbn [map namesOf filter numFrom List.length seq combine]. rewrite !app_nil_r. auto 8.
    - cbn [processLinesA] in E. cbn [processLines layout annotated]. unfold processLineA in E.
      rewrite trim_spec in E. destruct (strip l) as [|a r] eqn:S.
      { cbn [substring String.eqb pbind] in E. unfold processLine at 1. rewrite trim_spec, S. cbn [pbind]. eapply IH; eauto. }
      assert (Hash : String.eqb (substring 0 2 (String a r)) "##" =
        (a =? "#")%char && match r with String a' _ => (a' =? "#")%char | EmptyString => false end).
      { cbn [substring String.eqb]. destruct r as [|a' r']; cbn [substring String.eqb].
        - rewrite andb_false_r. now destruct (a =? "#")%char.
        - destruct (a =? "#")%char; auto. cbn [andb]. destruct r'; cbn [substring String.eqb]; now destruct (a' =? "#")%char. }
      rewrite Hash in E. destruct (a =? "#")%char eqn:A1.
      { cbn [andb] in E. unfold processLine at 1. rewrite trim_spec, S, A1. cbn [pbind].
        destruct r as [|a' r']; [cbn [pbind] in E; eapply IH; eauto|].
        destruct (a' =? "#")%char eqn:A3; [|cbn [pbind] in E; eapply IH; eauto].
        cbn [pbind] in E. replace (trim (substring 2 (String.length (String a (String a' r')) - 2) (String a (String a' r')))) with (strip r') in E.
        - eapply IH; eauto.
        - cbn [String.length substring]. rewrite trim_spec. replace (Datatypes.S (Datatypes.S (String.length r')) - 2) with (String.length r') by lia.
          now rewrite substring_all. }
      cbn [andb] in E. destruct (a =? "[")%char eqn:A2.
      { unfold processLine in E |- *. rewrite trim_spec, S, A1, A2, category_spec in E |- *.
        destruct (find _ sections) as [s|]; [|discriminate]. cbn [pbind] in E |- *. eapply IH; eauto. }
      destruct cur as [s|].
      2:{ unfold processLine in E. rewrite trim_spec, S, A1, A2 in E. discriminate. }
      assert (Hc : forall a0 r0, String a r = String a0 r0 -> (a0 =? "#")%char = false /\ (a0 =? "[")%char = false).
      { intros a0 r0 X. injection X as <- <-. auto. }
      assert (Fin : forall bs2 p2, values ord (L ++ [(s, String a r)]) (L ++ [(s, String a r)]) bs2 -> p_safety p2 = bs2 SEnvTrans ->
        processLinesA ord ((modeOf (Some s), contextOf (L ++ [(s, String a r)]) bs2), (""%string, p2)) lines = POk ((m, c), (name', p')) ->
        p_safetyNames p2 = p_safetyNames p ++ (if sec_eqb s SEnvTrans then numFrom "Safety Assumption " (List.length (bs SEnvTrans)) [name] else []) ->
        List.length (bs2 SEnvTrans) = List.length (bs SEnvTrans) + (if sec_eqb s SEnvTrans then 1 else 0) ->
        p_liveNames p2 = p_liveNames p ++ (if sec_eqb s SEnvLive then numFrom "Liveness Assumption " (List.length (bs SEnvLive)) [name] else []) ->
        List.length (bs2 SEnvLive) = List.length (bs SEnvLive) + (if sec_eqb s SEnvLive then 1 else 0) ->
        processLines ord (modeOf (Some s), contextOf (L ++ [(s, String a r)]) bs2) lines = POk (m, c) /\
        exists LN bs', match annotated (Some s) "" lines with Some L0 => Some ((s, String a r, name) :: L0) | None => None end = Some LN /\
          match layout (Some s) lines with Some L0 => Some ((s, String a r) :: L0) | None => None end = Some (map fst LN) /\
          values ord (L ++ map fst LN) (L ++ map fst LN) bs' /\ c = contextOf (L ++ map fst LN) bs' /\
          p_safety p' = bs' SEnvTrans /\
          p_safetyNames p' = p_safetyNames p ++ numFrom "Safety Assumption " (List.length (bs SEnvTrans)) (namesOf SEnvTrans LN) /\
          p_liveNames p' = p_liveNames p ++ numFrom "Liveness Assumption " (List.length (bs SEnvLive)) (namesOf SEnvLive LN)).
      { intros bs2 p2 HV2 HP2 E2 N1 N2 N3 N4.
        destruct (IH (Some s) _ _ _ _ _ _ _ _ HV2 HP2 E2) as (P1 & LN & bs' & EA & El & HV' & -> & EP & ES & EL).
        split; [exact P1|]. rewrite EA, El. exists ((s, String a r, name) :: LN), bs'. cbn [map fst].
        rewrite <- !app_assoc in *. cbn [app] in *. split; auto. split; auto. split; auto. split; auto. split; auto.
        assert (NF : forall pr k sec, numFrom pr k (namesOf sec ((s, String a r, name) :: LN)) =
          (if sec_eqb s sec then numFrom pr k [name] else []) ++ numFrom pr (k + if sec_eqb s sec then 1 else 0) (namesOf sec LN)).
        { intros pr k sec. unfold namesOf. cbn [filter fst]. destruct (sec_eqb s sec); [|now rewrite Nat.add_0_r].
          unfold numFrom. cbn [map snd List.length seq combine app]. now rewrite Nat.add_1_r. }
        rewrite !NF, <- N2, <- N4, !app_assoc, <- N1, <- N3. auto. }
      destruct (formulaSection s) eqn:FS.
      + pose proof (content_line ord L bs s _ FS l S Hc ltac:(discriminate)) as CL. rewrite CL in E. rewrite CL.
        destruct (lineVal ord L s (String a r)) as [[b|]|e| |] eqn:V; cbn [pbind] in E |- *; try discriminate.
        assert (values ord (L ++ [(s, String a r)]) (L ++ [(s, String a r)]) (ext bs s b)) as HV2.
        { apply values_ext; [now apply values_mono|now apply lineVal_mono]. }
        pose proof (formula_val ord L bs s (String a r)) as FV. rewrite V in FV.
        destruct s; try discriminate; cbn [modeOf allowedF] in E, FV.
        * apply (Fin _ _ HV2 HP E); cbn; rewrite ?app_nil_r; auto; lia.
        * apply (Fin _ _ HV2 HP E); cbn; rewrite ?app_nil_r; auto; lia.
        * rewrite FV in E. cbn [pbind] in E. eapply Fin; [exact HV2| |exact E| | | |]; cbn; rewrite ?app_nil_r, ?app_length; auto.
          -- now rewrite HP.
          -- unfold named. now rewrite HP.
        * apply (Fin _ _ HV2 HP E); cbn; rewrite ?app_nil_r; auto; lia.
        * eapply Fin; [exact HV2| |exact E| | | |]; cbn; rewrite ?app_nil_r, ?app_length; auto.
        * apply (Fin _ _ HV2 HP E); cbn; rewrite ?app_nil_r; auto; lia.
      + pose proof (decl_line ord L bs s _ FS l S Hc ltac:(discriminate)) as DL. rewrite DL in E. rewrite DL.
        cbn [pbind] in E |- *.
        assert (values ord (L ++ [(s, String a r)]) (L ++ [(s, String a r)]) bs) as HV2.
        { apply values_decl; [exact FS|now apply values_mono]. }
        destruct s; try discriminate; cbn [modeOf] in E; apply (Fin _ _ HV2 HP E); cbn; rewrite ?app_nil_r; auto.
  Qed.

  Lemma initParts_spec content c p : initParts ord content = POk (c, p) ->
    initContext ord content = POk c /\ described c p /\
    exists LN, annotated None "" (file_lines content) = Some LN /\ layout None (file_lines content) = Some (map fst LN) /\
      Forall2 (fun line b => parseFormula (varNames c) (varTypes c) (allowedF SEnvTrans) ord line = POk (Some b))
        (linesOf SEnvTrans (map fst LN)) (p_safety p) /\
      p_safetyNames p = numbered "Safety Assumption " (namesOf SEnvTrans LN) /\
      p_liveNames p = match namesOf SEnvLive LN with
                      | [] => [automaticName]
                      | l => numbered "Liveness Assumption " l
                      end.
  Proof.
    unfold initParts, initContext. rewrite getlines_spec. intros E.
    destruct (processLinesA ord _ _) as [[[m c0] [nm p0]]|e| |] eqn:P; cbn [pbind] in E; try discriminate.
    change (MNone, emptyCtx) with (modeOf None, contextOf [] (fun _ => [])) in P.
    apply processLinesA_spec in P; [|apply values_nil|reflexivity].
    destruct P as (P1 & LN & bs & EA & El & HV & -> & HS & HN & HLN). cbn [app p_safetyNames p_liveNames List.length] in *.
    change (MNone, emptyCtx) with (modeOf None, contextOf [] (fun _ => [])). rewrite P1. cbn [pbind].
    destruct (finish (contextOf (map fst LN) bs)) as [c1|e| |] eqn:F; cbn [pbind] in E; try discriminate. injection E as <- <-.
    split; [reflexivity|].
    unfold finish in F. destruct (Nat.eqb _ _); [|discriminate].
    assert (c1 = finalContext (map fst LN) bs) as ->.
    { injection F as <-. unfold finalContext, orTrue, contextOf. cbn. f_equal; [destruct (bs SEnvLive)|destruct (bs SSysLive)]; reflexivity. }
    pose proof (final_wf ord _ bs HV) as W.
    assert (LB : forall s, formulaSection s = true -> List.length (namesOf s LN) = List.length (bs s)).
    { intros s Hs. rewrite length_namesOf. pose proof (HV s Hs) as F2. induction F2; cbn [List.length]; auto. }
    split.
    - constructor; cbn [p_safety p_safetyNames p_liveNames finalContext safetyEnv livenessAssumptions].
      + exact W.
      + now rewrite HS.
      + pose proof (values_dep ord _ bs SEnvTrans eq_refl HV) as D. rewrite HS.
        eapply Forall_impl; [|exact D]. intros b Hb. eapply dep_weaken; [|exact Hb].
        intros v [H1 H2]. pose proof (proj1 (allowed_may_use (map fst LN) SEnvTrans v eq_refl H1) H2) as M.
        unfold isPrePostInV. cbn [varTypes finalContext]. rewrite length_types. split; [exact H1|].
        rewrite isOut_final. cbn in M. apply negb_true_iff, andb_false_iff in M.
        destruct M as [M|M]; auto. left. unfold Nat.odd in M. now apply negb_false_iff in M.
      + rewrite HN, HS, length_numFrom. apply (LB SEnvTrans eq_refl).
      + cbn [contextOf livenessAssumptions]. pose proof (LB SEnvLive eq_refl) as X.
        destruct (bs SEnvLive) as [|b bl].
        * rewrite HLN. destruct (namesOf SEnvLive LN); [reflexivity|discriminate].
        * rewrite HLN, length_numFrom, X. reflexivity.
    - exists LN. split; auto. split; auto. cbn [p_safety p_safetyNames p_liveNames finalContext varNames varTypes].
      split; [rewrite HS; exact (HV SEnvTrans eq_refl)|]. split; [exact HN|].
      cbn [contextOf livenessAssumptions]. pose proof (LB SEnvLive eq_refl) as X.
      destruct (bs SEnvLive) as [|b bl], (namesOf SEnvLive LN) as [|n nl]; try discriminate X; rewrite HLN; reflexivity.
  Qed.

  Lemma processLinesA_total : forall lines st st', processLines ord st lines = POk st' ->
    forall np, exists np', processLinesA ord (st, np) lines = POk (st', np').
  Proof.
    induction lines as [|l lines IH]; intros [m c] st' E [name p].
    - cbn in E. injection E as <-. cbn. eauto.
    - cbn [processLines] in E. destruct (processLine ord (m, c) l) as [[m1 c1]|e| |] eqn:P; cbn [pbind] in E; try discriminate.
      cbn [processLinesA].
      assert (exists np1, processLineA ord ((m, c), (name, p)) l = POk ((m1, c1), np1)) as (np1 & ->); [|cbn [pbind]; now apply IH].
      unfold processLineA. destruct (String.eqb (substring 0 2 (trim l)) "##") eqn:Q.
      { unfold processLine in P. destruct (trim l) as [|a r]; [discriminate|].
        assert ((a =? "#")%char = true) as A.
        { cbn [substring String.eqb] in Q. now destruct (a =? "#")%char. }
        rewrite A in P. injection P as <- <-. eauto. }
      destruct (trim l) as [|a r] eqn:T.
      { unfold processLine in P. rewrite T in P. injection P as <- <-. eauto. }
      destruct (a =? "#")%char eqn:A1.
      { unfold processLine in P. rewrite T, A1 in P. injection P as <- <-. eauto. }
      destruct (a =? "[")%char eqn:A2; [rewrite P; cbn [pbind]; eauto|]. rewrite P. cbn [pbind].
      destruct m; eauto. unfold processLine in P. rewrite T, A1, A2 in P.
      destruct (formula ord c _ (String a r)) as [b|e| |]; cbn [pbind] in P |- *; try discriminate. eauto.
  Qed.
  Lemma initParts_total content c : initContext ord content = POk c -> exists p, initParts ord content = POk (c, p).
  Proof.
    unfold initParts, initContext. intros E.
    destruct (processLines ord _ _) as [[m c0]|e| |] eqn:P; cbn [pbind] in E; try discriminate.
    destruct (processLinesA_total _ _ _ P (""%string, mkParts [] [] [])) as ([nm p] & ->). cbn [pbind]. rewrite E. cbn [pbind]. eauto.
  Qed.
End FILE.
