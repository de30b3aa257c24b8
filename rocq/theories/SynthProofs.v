(** * Correctness of the fixed-point computation *)

From Coq Require Import Arith List Bool Lia.
From Verif Require Import BDD Loop Spec VarTypes Synth Sem FixBase GameSound GameComplete.
Import ListNotations.

Section SYNTH.
  Variable c : ctx.
  Hypothesis Hwf : wf c.
  Let Hk := wf_kinds c Hwf.
  Let HSe := wf_safetyEnv c Hwf.
  Let HSs := wf_safetySys c Hwf.
  Local Notation pre := (dep (isPreV c)).
  Local Notation any := (dep (isAnyV c)).

  Local Lemma pre_any f : pre f -> any f.
  Proof. apply isPre_isAny. Qed.
  Hint Resolve pre_any dep_true dep_false dep_and dep_or dep_not dep_imp : core.

  Lemma any_swap f : any f -> any (swapPrePost c f).
  Proof. now apply dep_swapPrePost. Qed.
  Hint Resolve any_swap : core.

  (** ** Inner greatest fixed point *)
  Definition stepX (live a x : BF) : BF := cox c (pathsX c live a x).

  Lemma pre_stepX live a x : any live -> any a -> pre x -> pre (stepX live a x).
  Proof. intros. apply dep_cox; auto. apply dep_pathsX; auto. Qed.

  Lemma stepX_mono live live' a x x' : any live -> any live' -> any a -> pre x -> pre x' ->
    tsub live live' -> sub x x' -> sub (stepX live a x) (stepX live' a x').
  Proof.
    intros. apply cox_mono; auto; try (apply dep_pathsX; auto). now apply pathsX_mono.
  Qed.

  Definition iterX (live a : BF) (m : nat) : BF := Nat.iter m (stepX live a) btrue.

  Lemma pre_iterX live a m : any live -> any a -> pre (iterX live a m).
  Proof. intros. induction m; cbn; auto. now apply pre_stepX. Qed.

  Lemma iterX_dec live a m : any live -> any a -> sub (iterX live a (S m)) (iterX live a m).
  Proof.
    intros Hl Ha. induction m as [|m IH]; [apply sub_true|].
    apply (stepX_mono live live a (iterX live a (S m)) (iterX live a m)); auto using pre_iterX, tsub_refl.
  Qed.

  Definition nuX (live a : BF) : BF :=
    match nu0Loop c live a with Some (x, _) => x | None => btrue end.

  Lemma nu0Loop_spec live a : any live -> any a ->
    nu0Loop c live a = Some (nuX live a, pathsX c live a (nuX live a)) /\
    stepX live a (nuX live a) = nuX live a /\ exists K, nuX live a = iterX live a K.
  Proof.
    intros Hl Ha. unfold nuX, nu0Loop.
    destruct (fp_dec c Hk (nu0Body c live a) (fun v _ => stepX live a v)
                (fun v _ => pathsX c live a v)
                (fun v _ => exists K, v = iterX live a K) btrue btrue) as (v & d & (K & ->) & E & R & _).
    - now exists 0.
    - intros v d (K & ->). repeat split.
      + apply pre_iterX; auto.
      + apply pre_stepX; auto. apply pre_iterX; auto.
      + apply iterX_dec; auto.
      + intros _. now exists (S K).
    - rewrite R. repeat split; auto. eauto.
  Qed.

  Lemma pre_nuX live a : any live -> any a -> pre (nuX live a).
  Proof.
    intros Hl Ha. destruct (nu0Loop_spec live a Hl Ha) as (_ & _ & K & ->). now apply pre_iterX.
  Qed.
  Hint Resolve pre_nuX : core.

  Lemma nuX_fix live a : any live -> any a -> stepX live a (nuX live a) = nuX live a.
  Proof. intros Hl Ha. apply nu0Loop_spec; auto. Qed.

  Lemma nuX_greatest live a v : any live -> any a -> pre v ->
    sub v (stepX live a v) -> sub v (nuX live a).
  Proof.
    intros Hl Ha Hv H. destruct (nu0Loop_spec live a Hl Ha) as (_ & _ & K & ->).
    induction K as [|K IH]; [apply sub_true|].
    eapply sub_trans; [exact H|]. apply stepX_mono; auto; [now apply pre_iterX|apply tsub_refl].
  Qed.

  Lemma nuX_mono live live' a : any live -> any live' -> any a -> tsub live live' ->
    sub (nuX live a) (nuX live' a).
  Proof.
    intros Hl Hl' Ha H. apply nuX_greatest; auto.
    rewrite <- (nuX_fix live a Hl Ha) at 1. apply stepX_mono; auto. apply sub_refl.
  Qed.

  (** The inner fixed point is reached after 2^n+1 rounds. *)
  Lemma nuX_iter live a : any live -> any a -> nuX live a = iterX live a (S (2 ^ nvars c)).
  Proof.
    intros Hl Ha. destruct (nu0Loop_spec live a Hl Ha) as (_ & F & K & E).
    pose proof (iter_stable c Hk (stepX live a) btrue (dep_true _)
                  (fun v => pre_stepX live a v Hl Ha) (fun m => iterX_dec live a m Hl Ha)) as St.
    rewrite E in F |- *. unfold iterX in *.
    destruct (Nat.le_ge_cases K (S (2 ^ nvars c))) as [L|L].
    - symmetry. apply iter_fixed; auto.
    - apply iter_fixed; auto.
  Qed.

  (** ** Middle least fixed point *)
  Definition liveOf (z g y : BF) : BF := bor (band g (swapPrePost c z)) (swapPrePost c y).

  Lemma any_liveOf z g y : any z -> any g -> any y -> any (liveOf z g y).
  Proof. intros. unfold liveOf. auto. Qed.
  Hint Resolve any_liveOf : core.

  Lemma liveOf_spec z g y s t : pre z -> pre y ->
    trans (liveOf z g y) s t = true <->
    (trans g s t = true /\ pos z t = true) \/ pos y t = true.
  Proof.
    intros Hz Hy. unfold liveOf. autorewrite with sem. rewrite !trans_swap_pos by auto.
    rewrite orb_true_iff, andb_true_iff. tauto.
  Qed.

  Lemma liveOf_mono z z' g y y' : pre z -> pre z' -> pre y -> pre y' -> sub z z' -> sub y y' ->
    tsub (liveOf z g y) (liveOf z' g y').
  Proof.
    intros ? ? ? ? Hz Hy s t. rewrite !liveOf_spec by auto. intros [[Hl1 Hl2]|Hl]; auto.
  Qed.

  Definition orNuX (live : BF) (asms : list BF) (good : BF) : BF :=
    fold_left (fun acc a => bor acc (nuX live a)) asms good.

  Lemma orNuX_spec live asms : forall good s,
    pos (orNuX live asms good) s = true <->
    pos good s = true \/ exists a, In a asms /\ pos (nuX live a) s = true.
  Proof.
    induction asms as [|a asms IH]; intros good s; cbn.
    - split; [auto|]. now intros [H|(a & [] & _)].
    - unfold orNuX in IH |- *. cbn [fold_left]. rewrite IH, pos_or, orb_true_iff. split.
      + intros [[H|H]|(b & Hb & H)]; eauto.
      + intros [H|(b & [<-|Hb] & H)]; eauto.
  Qed.

  Lemma pre_orNuX live asms : forall good, any live -> Forall any asms -> pre good ->
    pre (orNuX live asms good).
  Proof.
    induction asms as [|a asms IH]; intros good Hl Ha Hg; cbn; auto.
    inversion Ha; subst. apply IH; auto.
  Qed.

  Definition stepY (z g y : BF) : BF := orNuX (liveOf z g y) (livenessAssumptions c) y.

  Let HA := wf_asm c Hwf.
  Let HG := wf_gua c Hwf.

  Lemma any_asm a : In a (livenessAssumptions c) -> any a.
  Proof. intros H. rewrite Forall_forall in HA. auto. Qed.
  Lemma any_gua g : In g (livenessGuarantees c) -> any g.
  Proof. intros H. rewrite Forall_forall in HG. auto. Qed.

  Lemma pre_stepY z g y : pre z -> any g -> pre y -> pre (stepY z g y).
  Proof. intros. apply pre_orNuX; auto. Qed.
  Hint Resolve pre_stepY : core.

  Lemma stepY_spec z g y s :
    pos (stepY z g y) s = true <->
    pos y s = true \/ exists a, In a (livenessAssumptions c) /\ pos (nuX (liveOf z g y) a) s = true.
  Proof. apply orNuX_spec. Qed.

  Lemma stepY_inc z g y : sub y (stepY z g y).
  Proof. intros s H. apply stepY_spec. auto. Qed.

  Lemma stepY_mono z z' g y y' : pre z -> pre z' -> any g -> pre y -> pre y' -> sub z z' -> sub y y' ->
    sub (stepY z g y) (stepY z' g y').
  Proof.
    intros Hz Hz' Hg Hy Hy' H1 H2 s. rewrite !stepY_spec. intros [H|(a & Ha & H)]; auto.
    right. exists a. split; auto. revert H. apply nuX_mono; auto using any_asm.
    apply liveOf_mono; auto.
  Qed.

  Definition iterY (z g : BF) (m : nat) : BF := Nat.iter m (stepY z g) bfalse.
  Lemma pre_iterY z g m : pre z -> any g -> pre (iterY z g m).
  Proof. intros. induction m; cbn; auto. Qed.
  Hint Resolve pre_iterY : core.

  Definition isMuY (z g y : BF) : Prop := stepY z g y = y /\ exists m, y = iterY z g m.

  Lemma iterY_least z g y m : pre z -> any g -> pre y -> sub (stepY z g y) y -> sub (iterY z g m) y.
  Proof.
    intros Hz Hg Hy H. induction m as [|m IH]; [apply sub_false|].
    eapply sub_trans; [|exact H].
    apply (stepY_mono z z g (iterY z g m) y); auto using sub_refl.
  Qed.

  Lemma isMuY_pre z g y : pre z -> any g -> isMuY z g y -> pre y.
  Proof. intros Hz Hg (_ & m & ->). auto. Qed.

  Lemma isMuY_least z g y v : pre z -> any g -> isMuY z g y -> pre v -> sub (stepY z g v) v -> sub y v.
  Proof. intros Hz Hg (_ & m & ->) Hv H. apply iterY_least; auto. Qed.

  Lemma isMuY_unique z g y y' : pre z -> any g -> isMuY z g y -> isMuY z g y' -> y = y'.
  Proof.
    intros Hz Hg H H'. pose proof (isMuY_pre _ _ _ Hz Hg H). pose proof (isMuY_pre _ _ _ Hz Hg H').
    apply (sub_antisym c); auto.
    - apply (isMuY_least z g y y'); auto. rewrite (proj1 H'). apply sub_refl.
    - apply (isMuY_least z g y' y); auto. rewrite (proj1 H). apply sub_refl.
  Qed.

  (** *** The recorded transition sets *)

  Definition covBF (L : list (BF * BF)) (s : state) : Prop :=
    cov (game_of c) (map (fun e => trans (fst e)) L) s.

  (** The sets recorded for the goal [g] (with [z] the outer value) are well
      ranked and cover [y]. *)
  Definition goodEnt (z g : BF) (L : list (BF * BF)) (y : BF) : Prop :=
    (forall p F A q, L = p ++ (F, A) :: q -> forall s t, trans F s t = true ->
       trans (safetySys c) s t = true /\
       ((trans g s t = true /\ pos z t = true) \/
        (covBF p t /\ pos y t = true) \/
        (trans A s t = false /\ covBF (p ++ [(F, A)]) t /\ pos y t = true))) /\
    (forall s, pos y s = true -> covBF L s) /\
    (forall F A, In (F, A) L -> In A (livenessAssumptions c) /\ any F).

  (** Every safe transition into [y] is recorded. *)
  Definition fullEnt (L : list (BF * BF)) (y : BF) : Prop :=
    forall s t, trans (safetySys c) s t = true -> pos y t = true ->
      exists F A, In (F, A) L /\ trans F s t = true.

  Lemma covBF_incl L L' s : incl L L' -> covBF L s -> covBF L' s.
  Proof. intros H. apply cov_incl. now apply incl_map. Qed.

  Lemma cox_cov L F A T s : any T -> pos (cox c T) s = true -> tsub T F -> In (F, A) L -> covBF L s.
  Proof.
    intros HT H HTF Hin x Hx. rewrite (cox_spec c Hk HSe) in H by auto. destruct (H x) as (y & Hy).
    exists (trans F), y. split.
    - apply in_map_iff. exists (F, A). auto.
    - apply HTF. apply Hy. rewrite <- Hx. apply (safeE_in c HSe).
  Qed.

  Lemma goodEnt_weaken z g L y y' : sub y y' -> goodEnt z g L y ->
    (forall s, pos y' s = true -> covBF L s) -> goodEnt z g L y'.
  Proof.
    intros Hs (H1 & H2 & H3) H4. repeat split; auto.
    - destruct (H1 p F A q H s t H0) as [E _]. exact E.
    - destruct (H1 p F A q H s t H0) as [_ [E|[[E1 E2]|(E1 & E2 & E3)]]]; auto 6.
    - apply (H3 F A). auto.
    - apply (H3 F A). auto.
  Qed.

  (** Adding one set. *)
  Lemma goodEnt_add z g L y F A x : goodEnt z g L y -> any F -> In A (livenessAssumptions c) ->
    (forall s, pos x s = true -> pos (cox c F) s = true) ->
    (forall s t, trans F s t = true -> trans (safetySys c) s t = true /\
        ((trans g s t = true /\ pos z t = true) \/ pos y t = true \/
         (pos x t = true /\ trans A s t = false))) ->
    goodEnt z g (L ++ [(F, A)]) (bor y x).
  Proof.
    intros (H1 & H2 & H3) HF HAi Hx HT.
    assert (C : forall s, pos (bor y x) s = true -> covBF (L ++ [(F, A)]) s).
    { intros s. rewrite pos_or, orb_true_iff. intros [H|H].
      - eapply covBF_incl; [|apply H2; exact H]. apply incl_appl, incl_refl.
      - eapply (cox_cov _ F A F); auto; [apply tsub_refl|]. apply in_or_app. right. now left. }
    split; [|split]; auto.
    - intros p F' A' q E s t Ht.
      destruct (list_eq_dec (fun a b => match bf_eq_dec (fst a) (fst b), bf_eq_dec (snd a) (snd b) with
                   | left e1, left e2 => left (ltac:(destruct a, b; cbn in *; congruence) : a = b)
                   | right n, _ => right (fun e => n (f_equal fst e))
                   | _, right n => right (fun e => n (f_equal snd e)) end) q []) as [->|Hq].
      + apply app_inj_tail in E. destruct E as [<- E]. injection E as <- <-.
        destruct (HT s t Ht) as [E1 [E2|[E2|[E2 E3]]]]; split; auto.
        * right. left. split; auto. rewrite pos_or, E2. reflexivity.
        * right. right. rewrite pos_or, E2, orb_true_r. repeat split; auto.
          apply C. rewrite pos_or, E2. apply orb_true_r.
      + destruct (exists_last Hq) as (q' & e & ->).
        rewrite app_comm_cons, app_assoc in E. apply app_inj_tail in E. destruct E as [E _].
        destruct (H1 p F' A' q' E s t Ht) as [E1 [E2|[[E2 E3]|(E2 & E3 & E4)]]]; split; auto.
        * right. left. split; auto. rewrite pos_or, E3. reflexivity.
        * right. right. repeat split; auto. rewrite pos_or, E4. reflexivity.
    - intros F' A' Hin. apply in_app_iff in Hin. destruct Hin as [Hin|[E|[]]].
      + apply (H3 F' A' Hin).
      + injection E as <- <-. auto.
  Qed.

  Lemma asmLoop_spec j z g mu1 asms : pre z -> any g -> pre mu1 ->
    incl asms (livenessAssumptions c) ->
    forall good data L, sub mu1 good -> goodEnt z g L good ->
    exists L', asmLoop c j (liveOf z g mu1) asms good data =
                 Some (orNuX (liveOf z g mu1) asms good, data ++ map (pair j) (map fst L')) /\
               goodEnt z g (L ++ L') (orNuX (liveOf z g mu1) asms good) /\
               (asms <> [] -> fullEnt L' mu1).
  Proof.
    intros Hz Hg Hm. induction asms as [|a asms IH]; intros Hi good data L Hs HL.
    - exists []. cbn. rewrite !app_nil_r. split; [auto|]. split; [auto|]. intros H; now elim H.
    - assert (Ha : In a (livenessAssumptions c)) by (apply Hi; now left).
      pose proof (any_asm a Ha) as Aa.
      assert (Al : any (liveOf z g mu1)) by auto.
      cbn [asmLoop]. destruct (nu0Loop_spec (liveOf z g mu1) a Al Aa) as (-> & Efix & _).
      set (x := nuX (liveOf z g mu1) a) in *.
      assert (Px : pre x) by (apply pre_nuX; auto).
      set (F := pathsX c (liveOf z g mu1) a x).
      destruct (IH ltac:(intros b Hb; apply Hi; now right) (bor good x)
                  (data ++ [(j, F)]) (L ++ [(F, a)])) as (L' & E & HL' & _).
      + eapply sub_trans; [exact Hs|apply sub_or_l].
      + apply goodEnt_add; auto.
        * apply dep_pathsX; auto.
        * intros s H. fold (stepX (liveOf z g mu1) a x) in *. unfold F.
          fold (stepX (liveOf z g mu1) a x). now rewrite Efix.
        * intros s t. unfold F. rewrite pathsX_spec, liveOf_spec by auto.
          intros [[[H|H]|[H H']] Hsafe]; split; auto.
      + exists ((F, a) :: L'). rewrite E. unfold orNuX at 1 3. cbn [fold_left map fst app].
        rewrite <- app_assoc. split; [reflexivity|].
        rewrite <- app_assoc in HL'. split; [exact HL'|].
        intros _ s t Hs' Ht. exists F, a. split; [now left|].
        unfold F. rewrite pathsX_spec, liveOf_spec by auto. auto.
  Qed.

  Lemma mu1Loop_spec j z g data : pre z -> any g ->
    exists y live L, mu1Loop c j (band g (swapPrePost c z)) data =
        Some (y, (live, data ++ map (pair j) (map fst L))) /\
      isMuY z g y /\ goodEnt z g L y /\ fullEnt L y.
  Proof.
    intros Hz Hg. unfold mu1Loop.
    set (base := band g (swapPrePost c z)).
    assert (Hbase : any base) by (unfold base; auto).
    set (Inv := fun (y : BF) (d : BF * list (nat * BF)) =>
           (exists m, y = iterY z g m) /\ tsub base (fst d) /\ tsub (fst d) (bor base (swapPrePost c y)) /\
           exists L, snd d = data ++ map (pair j) (map fst L) /\ goodEnt z g L y).
    assert (Hlive : forall y d, Inv y d -> bor (fst d) (swapPrePost c y) = liveOf z g y).
    { intros y d (_ & H1 & H2 & _). apply trans_inj. intros s t. unfold liveOf. fold base.
      autorewrite with sem. specialize (H1 s t). specialize (H2 s t). autorewrite with sem in H2.
      destruct (trans (fst d) s t), (trans base s t), (trans (swapPrePost c y) s t); cbn in *; auto;
        try (specialize (H2 eq_refl); discriminate); try (specialize (H1 eq_refl); discriminate). }
    destruct (fp_inc c Hk (mu1Body c j) (fun y _ => stepY z g y)
       (fun y d => (liveOf z g y,
           match asmLoop c j (liveOf z g y) (livenessAssumptions c) y (snd d) with
           | Some (_, d') => d' | None => [] end))
       Inv bfalse (base, data)) as (y & d & HI & E & R & _).
    - split; [now exists 0|]. split; [apply tsub_refl|]. split.
      + intros s t H. cbn [fst] in H. autorewrite with sem. now rewrite H.
      + exists []. cbn. rewrite app_nil_r. split; auto. split; [|split].
        * intros [|] ? ? ? E; discriminate.
        * intros s. now rewrite pos_false.
        * now intros F A [].
    - intros y [live dat] HI. pose proof (Hlive _ _ HI) as HL. cbn [fst] in HL.
      destruct HI as ((m & ->) & H1 & H2 & L & E & HG'). cbn [fst snd] in *.
      assert (Py : pre (iterY z g m)) by auto.
      destruct (asmLoop_spec j z g (iterY z g m) (livenessAssumptions c) Hz Hg Py (incl_refl _)
                  (iterY z g m) dat L (sub_refl _) HG') as (L' & EA & HG'' & _).
      assert (EB : mu1Body c j (iterY z g m, (live, dat)) =
              fpUpdate (iterY z g m) (stepY z g (iterY z g m))
                (liveOf z g (iterY z g m), dat ++ map (pair j) (map fst L'))).
      { unfold mu1Body. rewrite HL, EA. reflexivity. }
      rewrite EA. split; [exact EB|]. split; [auto|]. split; [auto|]. split; [apply stepY_inc|].
      intros _. split; [now exists (S m)|]. cbn [fst snd]. split; [|split].
      + intros s t H. unfold liveOf. fold base. autorewrite with sem. now rewrite H.
      + intros s t. unfold liveOf. fold base. autorewrite with sem. rewrite !orb_true_iff.
        intros [H|H]; auto. right. rewrite trans_swap_pos in * by auto. now apply stepY_inc.
      + exists (L ++ L'). split; auto. rewrite E, !map_app. now rewrite <- app_assoc.
    - destruct HI as ((m & ->) & H1 & H2 & L & Ed & HG'). cbn [fst snd] in *.
      assert (Py : pre (iterY z g m)) by auto.
      destruct (asmLoop_spec j z g (iterY z g m) (livenessAssumptions c) Hz Hg Py (incl_refl _)
                  (iterY z g m) (snd d) L (sub_refl _) HG') as (L' & EA & HG'' & HF).
      rewrite EA in R. exists (iterY z g m), (liveOf z g (iterY z g m)), (L ++ L').
      rewrite R, Ed, !map_app, <- app_assoc. split; [reflexivity|]. split.
      + split; eauto.
      + fold (stepY z g (iterY z g m)) in HG''. rewrite E in HG''. split; auto.
        intros s t Hs Ht. destruct (HF (wf_asm_ne c Hwf) s t Hs Ht) as (F & A & Hin & H).
        exists F, A. split; auto. apply in_or_app. now right.
  Qed.

  (** The middle fixed point as a function. *)
  Definition muY (z g : BF) : BF :=
    match mu1Loop c 0 (band g (swapPrePost c z)) [] with Some (y, _) => y | None => bfalse end.

  Lemma muY_spec z g : pre z -> any g -> isMuY z g (muY z g).
  Proof.
    intros Hz Hg. unfold muY. destruct (mu1Loop_spec 0 z g [] Hz Hg) as (y & l & L & -> & H & _). exact H.
  Qed.
  Lemma pre_muY z g : pre z -> any g -> pre (muY z g).
  Proof. intros. eapply isMuY_pre; eauto. now apply muY_spec. Qed.
  Hint Resolve pre_muY : core.
  Lemma muY_fix z g : pre z -> any g -> stepY z g (muY z g) = muY z g.
  Proof. intros. now apply muY_spec. Qed.
  Lemma muY_least z g v : pre z -> any g -> pre v -> sub (stepY z g v) v -> sub (muY z g) v.
  Proof. intros Hz Hg Hv H. apply (isMuY_least z g); auto. now apply muY_spec. Qed.
  Lemma muY_mono z z' g : pre z -> pre z' -> any g -> sub z z' -> sub (muY z g) (muY z' g).
  Proof.
    intros Hz Hz' Hg H. apply muY_least; auto.
    rewrite <- (muY_fix z' g) at 2 by auto. apply stepY_mono; auto using sub_refl.
  Qed.

  (** ** Outer greatest fixed point *)
  Definition stepZ (z : BF) : BF :=
    fold_left (fun acc g => band acc (muY z g)) (livenessGuarantees c) btrue.

  Lemma fold_band_spec z gs : forall acc s,
    pos (fold_left (fun acc g => band acc (muY z g)) gs acc) s = true <->
    pos acc s = true /\ forall g, In g gs -> pos (muY z g) s = true.
  Proof.
    induction gs as [|g gs IH]; intros acc s; cbn [fold_left].
    - split; [intros H; split; auto; now intros g []|tauto].
    - rewrite IH, pos_and, andb_true_iff. split.
      + intros [[H1 H2] H3]. split; auto. intros g' [<-|H]; auto.
      + intros [H1 H2]. repeat split; auto; intros; apply H2; [now left|now right].
  Qed.

  Lemma pre_fold_band z gs : pre z -> Forall any gs -> forall acc, pre acc ->
    pre (fold_left (fun acc g => band acc (muY z g)) gs acc).
  Proof.
    intros Hz Hg. induction Hg as [|g gs Hg Hgs IH]; intros acc Ha; cbn [fold_left]; auto.
  Qed.

  Lemma pre_stepZ z : pre z -> pre (stepZ z).
  Proof. intros. apply pre_fold_band; auto. Qed.
  Hint Resolve pre_stepZ : core.

  Lemma stepZ_spec z s : pos (stepZ z) s = true <->
    forall g, In g (livenessGuarantees c) -> pos (muY z g) s = true.
  Proof. unfold stepZ. rewrite fold_band_spec. rewrite pos_true. tauto. Qed.

  Lemma stepZ_mono z z' : pre z -> pre z' -> sub z z' -> sub (stepZ z) (stepZ z').
  Proof.
    intros Hz Hz' H s. rewrite !stepZ_spec. intros Hs g Hg. specialize (Hs g Hg). revert Hs.
    apply muY_mono; auto. now apply any_gua.
  Qed.

  (** The sets recorded for goal number j. *)
  Definition dataOf (j : nat) (data : list (nat * BF)) : list BF :=
    map snd (filter (fun e => Nat.eqb (fst e) j) data).

  Lemma dataOf_app j d d' : dataOf j (d ++ d') = dataOf j d ++ dataOf j d'.
  Proof. unfold dataOf. now rewrite filter_app, map_app. Qed.

  Lemma dataOf_pair j k l : dataOf j (map (pair k) l) = if Nat.eqb k j then l else [].
  Proof.
    unfold dataOf. induction l as [|a l IH]; cbn; [now destruct (k =? j)|].
    destruct (k =? j); cbn; [now rewrite IH|auto].
  Qed.

  Lemma goalLoop_spec z gs : pre z -> forall j next data, Forall any gs ->
    exists data', goalLoop c z j gs next data =
        Some (fold_left (fun acc g => band acc (muY z g)) gs next, data ++ data') /\
      (forall i, i < j -> dataOf i data' = []) /\
      (forall i, i < length gs -> exists L, dataOf (j + i) data' = map fst L /\
           goodEnt z (nth i gs btrue) L (muY z (nth i gs btrue)) /\ fullEnt L (muY z (nth i gs btrue))).
  Proof.
    intros Hz. induction gs as [|g gs IH]; intros j next data Hgs.
    - exists []. cbn. rewrite app_nil_r. repeat split; auto. intros i Hi. lia.
    - inversion Hgs as [|? ? Hg Hgs']; subst. cbn [goalLoop].
      destruct (mu1Loop_spec j z g data Hz Hg) as (y & live & L & -> & HY & HL).
      assert (y = muY z g) as -> by (eapply isMuY_unique; eauto using muY_spec).
      destruct (IH (S j) (band next (muY z g)) (data ++ map (pair j) (map fst L)) Hgs')
        as (data' & E & H1 & H2).
      exists (map (pair j) (map fst L) ++ data'). rewrite E, <- app_assoc.
      split; [reflexivity|]. split.
      + intros i Hi. rewrite dataOf_app, dataOf_pair, H1 by lia.
        destruct (Nat.eqb_spec j i); [lia|reflexivity].
      + intros [|i] Hi.
        * exists L. rewrite Nat.add_0_r, dataOf_app, dataOf_pair, Nat.eqb_refl, H1, app_nil_r by lia. auto.
        * destruct (H2 i ltac:(cbn in Hi; lia)) as (L' & EL & HL').
          exists L'. rewrite dataOf_app, dataOf_pair.
          replace (j + S i) with (S j + i) by lia. destruct (Nat.eqb_spec j (S j + i)); [lia|].
          cbn [nth app]. auto.
  Qed.

  Definition iterZ (m : nat) : BF := Nat.iter m stepZ btrue.
  Lemma pre_iterZ m : pre (iterZ m).
  Proof. induction m; cbn; auto. Qed.
  Hint Resolve pre_iterZ : core.
  Lemma iterZ_dec m : sub (iterZ (S m)) (iterZ m).
  Proof. induction m as [|m IH]; [apply sub_true|]. apply stepZ_mono; auto. Qed.

  (** What computeWinningPositions returns. *)
  Definition solved (w : BF) (data : list (nat * BF)) : Prop :=
    stepZ w = w /\ (exists K, w = iterZ K) /\
    forall j, j < length (livenessGuarantees c) -> exists L,
      dataOf j data = map fst L /\
      goodEnt w (nth j (livenessGuarantees c) btrue) L (muY w (nth j (livenessGuarantees c) btrue)) /\
      fullEnt L (muY w (nth j (livenessGuarantees c) btrue)).

  Lemma compute_spec : exists w data, computeWinningPositions c = Some (w, data) /\ solved w data.
  Proof.
    unfold computeWinningPositions.
    destruct (fp_dec c Hk (nu2Body c) (fun z _ => stepZ z)
      (fun z _ => match goalLoop c z 0 (livenessGuarantees c) btrue [] with Some (_, d) => d | None => [] end)
      (fun z _ => exists K, z = iterZ K) btrue []) as (w & d & (K & ->) & E & R & _).
    - now exists 0.
    - intros z d (K & ->).
      destruct (goalLoop_spec (iterZ K) (livenessGuarantees c) (pre_iterZ K) 0 btrue [] HG) as (d' & EG & _).
      split; [|split; [auto|split; [auto|split; [apply iterZ_dec|intros _; now exists (S K)]]]].
      unfold nu2Body. cbn [fst]. rewrite EG. reflexivity.
    - destruct (goalLoop_spec (iterZ K) (livenessGuarantees c) (pre_iterZ K) 0 btrue [] HG)
        as (d' & EG & _ & HD).
      rewrite EG in R. exists (iterZ K), ([] ++ d'). split; [exact R|]. split; [exact E|]. split; [eauto|].
      intros j Hj. apply (HD j Hj).
  Qed.

  Lemma iterZ_fixed K K' : stepZ (iterZ K) = iterZ K -> stepZ (iterZ K') = iterZ K' -> iterZ K = iterZ K'.
  Proof.
    intros H H'. destruct (Nat.le_ge_cases K K') as [L|L].
    - symmetry. now apply iter_fixed.
    - now apply iter_fixed.
  Qed.

  (** The winning positions as a function. *)
  Lemma solved_unique w d w' d' : solved w d -> solved w' d' -> w = w'.
  Proof. intros (E & (K & ->) & _) (E' & (K' & ->) & _). now apply iterZ_fixed. Qed.

  Lemma solved_pre w d : solved w d -> pre w.
  Proof. intros (_ & (K & ->) & _). auto. Qed.

  Lemma solved_greatest w d v : solved w d -> pre v -> sub v (stepZ v) -> sub v w.
  Proof.
    intros (_ & (K & ->) & _) Hv H. induction K as [|K IH]; [apply sub_true|].
    eapply sub_trans; [exact H|]. apply stepZ_mono; auto.
  Qed.

  (** At the outer fixed point all middle fixed points coincide with it. *)
  Lemma muY_eq w d g : solved w d -> In g (livenessGuarantees c) -> muY w g = w.
  Proof.
    intros S Hg. pose proof (solved_pre _ _ S) as Hw. destruct S as (Hfix & _).
    assert (Sub : forall g', In g' (livenessGuarantees c) -> sub w (muY w g')).
    { intros g' Hg' s Hs. rewrite <- Hfix in Hs. rewrite stepZ_spec in Hs. auto. }
    assert (Le : forall g', In g' (livenessGuarantees c) -> sub (muY w g) (muY w g')).
    { intros g' Hg'. pose proof (any_gua _ Hg). pose proof (any_gua _ Hg').
      apply muY_least; auto. intros s. rewrite stepY_spec. intros [H'|(a & Ha & H')]; auto.
      rewrite <- muY_fix by auto. apply stepY_spec. right. exists a. split; auto.
      revert H'. apply nuX_mono; auto using any_asm.
      intros s' t'. rewrite !liveOf_spec by auto. intros [[_ H']|H']; auto. right.
      now apply (Sub g' Hg'). }
    apply (sub_antisym c); auto.
    - apply pre_muY; auto. now apply any_gua.
    - intros s Hs. rewrite <- Hfix. apply stepZ_spec. intros g' Hg'. now apply Le.
  Qed.

  (** ** Soundness *)

  Lemma trans_extensional F : extensional (trans F).
  Proof.
    intros s s' t t' H H'. apply eval_ext. intros v. unfold tv. destruct (Nat.even v); auto.
  Qed.

  Definition lift (L : list (BF * BF)) : list (tset * tset) :=
    map (fun e => (trans (fst e), trans (snd e))) L.

  Lemma lift_split L : forall p F A q, lift L = p ++ (F, A) :: q ->
    exists p' F' A' q', L = p' ++ (F', A') :: q' /\ lift p' = p /\ trans F' = F /\ trans A' = A /\ lift q' = q.
  Proof.
    induction L as [|[F0 A0] L IH]; intros p F A q E.
    - destruct p; discriminate.
    - destruct p as [|[a b] p]; cbn in E.
      + injection E as <- <- <-. exists [], F0, A0, L. auto.
      + injection E as <- <- E. destruct (IH p F A q E) as (p' & F' & A' & q' & -> & <- & <- & <- & <-).
        exists ((F0, A0) :: p'), F', A', q'. auto.
  Qed.

  Lemma map_fst_lift L : map fst (lift L) = map (fun e => trans (fst e)) L.
  Proof. unfold lift. rewrite map_map. now apply map_ext. Qed.

  Lemma goodEnt_ranked g L w : goodEnt w g L w ->
    ranked (game_of c) (fun s => pos w s = true) (trans g) (lift L).
  Proof.
    intros (H1 & H2 & H3). split; [|split].
    - intros p F A q E s t Ht. destruct (lift_split L p F A q E) as (p' & F' & A' & q' & EL & <- & <- & <- & <-).
      destruct (H1 p' F' A' q' EL s t Ht) as [E1 [[E2 E3]|[[E2 E3]|(E2 & E3 & E4)]]]; split; auto; split; auto.
      + right. left. rewrite map_fst_lift. exact E2.
      + right. right. split; auto.
        assert (EQ : lift (p' ++ [(F', A')]) = lift p' ++ [(trans F', trans A')])
          by (unfold lift; now rewrite map_app).
        unfold covBF in E3. rewrite <- map_fst_lift, EQ in E3. exact E3.
    - intros s Hs. rewrite map_fst_lift. now apply H2.
    - intros F A Hin. unfold lift in Hin. apply in_map_iff in Hin. destruct Hin as ([F' A'] & E & Hin).
      injection E as <- <-. destruct (H3 F' A' Hin) as [E1 E2]. split.
      + cbn. now apply in_map.
      + apply trans_extensional.
  Qed.

  (** A solution provides, for every goal, a ranked list of transition sets. *)
  Lemma solved_ranked w d : solved w d ->
    exists L : nat -> list (BF * BF), forall j, j < length (livenessGuarantees c) ->
      dataOf j d = map fst (L j) /\
      goodEnt w (nth j (livenessGuarantees c) btrue) (L j) w /\ fullEnt (L j) w.
  Proof.
    intros S. pose proof S as (_ & _ & H).
    assert (G : forall n, n <= length (livenessGuarantees c) ->
       exists L : nat -> list (BF * BF), forall j, j < n ->
         dataOf j d = map fst (L j) /\ goodEnt w (nth j (livenessGuarantees c) btrue) (L j) w /\ fullEnt (L j) w).
    { induction n as [|n IH]; intros Hn.
      - exists (fun _ => []). lia.
      - destruct IH as (L & HL); [lia|]. destruct (H n Hn) as (Ln & E & HE).
        rewrite (muY_eq w d) in HE by (auto; apply nth_In; lia).
        exists (fun j => if Nat.eqb j n then Ln else L j). intros j Hj.
        destruct (Nat.eqb_spec j n) as [->|]; auto. apply HL. lia. }
    apply G. auto.
  Qed.

  Lemma gua_nonempty : map trans (livenessGuarantees c) <> [].
  Proof. intros E. apply map_eq_nil in E. now apply (wf_gua_ne c Hwf). Qed.

  Section SOUND.
    Variable w : BF.
    Variable L : nat -> list (BF * BF).
    Hypothesis HLj : forall j, j < length (livenessGuarantees c) ->
      goodEnt w (nth j (livenessGuarantees c) btrue) (L j) w.

    Lemma ranked_all j : j < length (map trans (livenessGuarantees c)) ->
      ranked (game_of c) (fun s => pos w s = true)
        (nth j (map trans (livenessGuarantees c)) (fun _ _ => true)) (lift (L j)).
    Proof.
      rewrite map_length. intros Hj.
      replace (nth j (map trans (livenessGuarantees c)) (fun _ _ => true))
        with (trans (nth j (livenessGuarantees c) btrue)).
      - now apply goodEnt_ranked, HLj.
      - rewrite <- (map_nth trans). apply nth_indep. now rewrite map_length.
    Qed.

    Lemma sol_all j F A : j < length (map trans (livenessGuarantees c)) -> In (F, A) (lift (L j)) ->
      forall s x, match solT c F s x with
                  | Some y => F s (merge (game_of c) x y) = true
                  | None => forall y, F s (merge (game_of c) x y) = false
                  end.
    Proof.
      rewrite map_length. intros Hj Hin s x. unfold lift in Hin. apply in_map_iff in Hin.
      destruct Hin as ([F' A'] & E & Hin). injection E as <- <-.
      destruct (HLj j Hj) as (_ & _ & H3). destruct (H3 F' A' Hin) as [_ HF].
      apply (solT_spec c Hk F' s x HF).
    Qed.

    Definition theStrategy (start : state -> state) : strategy :=
      strat (map trans (livenessGuarantees c)) (fun j => lift (L j)) (solT c) start.

    Lemma theStrategy_wins start s : pos w s = true ->
      forall x, safe_and_live (game_of c) (play_from (game_of c) (theStrategy start) s x).
    Proof.
      intros Hs. apply (strat_wins (game_of c) (fun s => pos w s = true)); auto.
      - apply gua_nonempty.
      - intros j Hj. now apply ranked_all.
      - intros. apply (safeE_in c HSe).
      - intros j F A Hj Hin. now apply (sol_all j F A).
    Qed.

    Lemma theStrategy_realizes start :
      (forall x, pos (initEnv c) (mrg c x (start x)) = true ->
         pos (initSys c) (mrg c x (start x)) = true /\ pos w (mrg c x (start x)) = true) ->
      realizable (game_of c).
    Proof.
      intros H. apply (strat_realizes (game_of c) (fun s => pos w s = true)
        (map trans (livenessGuarantees c)) (fun j => lift (L j)) gua_nonempty eq_refl) with
        (sol := solT c) (start := start); auto.
      - intros j Hj. now apply ranked_all.
      - intros. apply (safeE_in c HSe).
      - intros j F A Hj Hin. now apply (sol_all j F A).
    Qed.
  End SOUND.

  (** ** Completeness *)

  Lemma lost K s : pos (iterZ K) s = false ->
    forall f, exists x, ~ safe_and_live (game_of c) (play_from (game_of c) f s x).
  Proof.
    intros Hs f.
    set (gj := fun j => nth j (livenessGuarantees c) btrue).
    set (ai := fun i => nth i (livenessAssumptions c) btrue).
    assert (Hgj : forall j, j < length (livenessGuarantees c) -> In (gj j) (livenessGuarantees c))
      by (intros; now apply nth_In).
    assert (Hai : forall j, j < length (livenessAssumptions c) -> In (ai j) (livenessAssumptions c))
      by (intros; now apply nth_In).
    set (lv := fun k j => liveOf (iterZ k) (gj j) (muY (iterZ k) (gj j))).
    assert (Alv : forall k j, j < length (livenessGuarantees c) -> any (lv k j)).
    { intros k j Hj. pose proof (any_gua _ (Hgj j Hj)). apply any_liveOf; auto. }
    eapply (spoil (game_of c) (length (livenessAssumptions c)) (length (livenessGuarantees c))
      (fun i => trans (ai i)) (fun j => trans (gj j)))
      with (Z := fun k s => pos (iterZ k) s)
           (Y := fun k j s => pos (muY (iterZ k) (gj j)) s)
           (X := fun k j i m s => pos (iterX (lv k j) (ai i) m) s)
           (M := fun _ _ _ => S (2 ^ nvars c))
           (pick := fun k j i m s => envPick c (pathsX c (lv k j) (ai i) (iterX (lv k j) (ai i) m)) s)
           (K := K); auto.
    - intros p Hp. cbn in Hp. apply in_map_iff in Hp. destruct Hp as (a & <- & Ha).
      destruct (In_nth _ _ btrue Ha) as (i & Hi & <-). exists i. auto.
    - intros j Hj. exists (trans (gj j)). split; auto. cbn. apply in_map. auto.
    - pose proof (wf_asm_ne c Hwf) as N. apply Nat.neq_0_lt_0. intros E. now apply length_zero_iff_nil in E.
    - intros k s' H.
      destruct (existsb (fun j => negb (pos (muY (iterZ k) (gj j)) s')) (seq 0 (length (livenessGuarantees c)))) eqn:E.
      + apply existsb_exists in E. destruct E as (j & Hj & E). apply in_seq in Hj.
        apply negb_true_iff in E. exists j. split; auto. lia.
      + exfalso. assert (pos (iterZ (S k)) s' = true); [|congruence].
        change (pos (stepZ (iterZ k)) s' = true). apply stepZ_spec. intros g Hg.
        destruct (In_nth _ _ btrue Hg) as (j & Hj & <-).
        destruct (pos (muY (iterZ k) (nth j (livenessGuarantees c) btrue)) s') eqn:E'; auto.
        assert (existsb (fun j => negb (pos (muY (iterZ k) (gj j)) s')) (seq 0 (length (livenessGuarantees c))) = true);
          [|congruence].
        apply existsb_exists. exists j. split; [apply in_seq; lia|]. unfold gj. now rewrite E'.
    - intros k j i s' Hj Hi H. rewrite <- nuX_iter by auto using any_asm.
      destruct (pos (nuX (lv k j) (ai i)) s') eqn:E; auto.
      assert (pos (muY (iterZ k) (gj j)) s' = true); [|congruence].
      rewrite <- muY_fix by auto using any_gua. apply stepY_spec. right. exists (ai i). split; auto.
    - intros k j i m s' Hj Hi H y t. subst t.
      assert (Px : pre (iterX (lv k j) (ai i) m)) by (apply pre_iterX; auto using any_asm).
      assert (AP : any (pathsX c (lv k j) (ai i) (iterX (lv k j) (ai i) m)))
        by (apply dep_pathsX; auto using any_asm).
      pose proof (envPick_spec c Hk HSe _ s' AP H y) as [E1 E2]. rewrite mrg_merge in E1, E2.
      split; [exact E1|]. intros Hsafe. cbn in Hsafe.
      set (t := merge (game_of c) _ y) in *.
      assert (Py : pre (muY (iterZ k) (gj j))) by (apply pre_muY; auto using any_gua).
      assert (NL : trans (lv k j) s' t = false).
      { destruct (trans (lv k j) s' t) eqn:E; auto.
        assert (trans (pathsX c (lv k j) (ai i) (iterX (lv k j) (ai i) m)) s' t = true); [|congruence].
        apply pathsX_spec; auto. }
      repeat split.
      + intros Hg. destruct (pos (iterZ k) t) eqn:E; auto.
        assert (trans (lv k j) s' t = true); [|congruence]. apply liveOf_spec; auto.
      + destruct (pos (muY (iterZ k) (gj j)) t) eqn:E; auto.
        assert (trans (lv k j) s' t = true); [|congruence]. apply liveOf_spec; auto.
      + destruct (trans (ai i) s' t) eqn:EA; auto. right.
        destruct (pos (iterX (lv k j) (ai i) m) t) eqn:E; auto.
        assert (trans (pathsX c (lv k j) (ai i) (iterX (lv k j) (ai i) m)) s' t = true); [|congruence].
        apply pathsX_spec; auto.
  Qed.
End SYNTH.
