(** * The data recorded by the counterstrategy computation *)

From Coq Require Import Arith List Bool Lia.
From Verif Require Import BDD Loop Spec VarTypes Synth Sem FixBase SynthProofs Verdict Solvers SolversProofs Explicit CounterSpec Counter CounterDual.
Import ListNotations.

Local Arguments isOut : simpl never.

(** The entries for assumption [i] and guarantee [j]. *)
Definition dataOfC (i j : nat) (data : list entry) : list BF :=
  map snd (filter (fun e => Nat.eqb (fst (fst e)) i && Nat.eqb (snd (fst e)) j) data).

Lemma dataOfC_app i j d d' : dataOfC i j (d ++ d') = dataOfC i j d ++ dataOfC i j d'.
Proof. unfold dataOfC. now rewrite filter_app, map_app. Qed.

Lemma dataOfC_pair i j i' j' l : dataOfC i j (map (pair (i', j')) l) = if Nat.eqb i' i && Nat.eqb j' j then l else [].
Proof.
  unfold dataOfC. induction l as [|a l IH]; cbn [map filter fst snd]; [now destruct (_ && _)|].
  destruct (_ && _); cbn [map snd]; [now rewrite IH|auto].
Qed.

(** Some transition of the list starts in [s]. *)
Definition covE (E : list BF) (s : state) : Prop := exists F t, In F E /\ trans F s t = true.

Lemma covE_app E E' s : covE (E ++ E') s <-> covE E s \/ covE E' s.
Proof.
  unfold covE. split.
  - intros (F & t & H & T). apply in_app_iff in H. destruct H; [left|right]; eauto.
  - intros [(F & t & H & T)|(F & t & H & T)]; exists F, t; split; auto; apply in_app_iff; auto.
Qed.

Section DATA.
  Variable c : ctx.
  Hypothesis Hwf : wf c.
  Let Hk := wf_kinds c Hwf.
  Let HSe := wf_safetyEnv c Hwf.
  Let HSs := wf_safetySys c Hwf.
  Let HA := wf_asm c Hwf.
  Let HG := wf_gua c Hwf.
  Local Notation pre := (dep (isPreV c)).
  Local Notation any := (dep (isAnyV c)).
  Local Notation mrg := (mrg c).
  Local Notation nuX := (nuX c).
  Local Notation muY := (muY c).
  Local Notation iterZ := (iterZ c).

  Local Lemma pre_any f : pre f -> any f.
  Proof. apply isPre_isAny. Qed.
  Hint Resolve pre_any dep_and dep_or dep_not dep_imp dep_true dep_false : core.
  Local Lemma any_swap' f : any f -> any (swapPrePost c f).
  Proof. now apply dep_swapPrePost. Qed.
  Hint Resolve any_swap' pre_nuX pre_muY pre_iterZ any_asm any_gua : core.

  Lemma any_pathsC live a x : any live -> any a -> any x -> any (pathsC c live a x).
  Proof.
    intros. unfold pathsC. eapply dep_forall with (P := isAnyV c); auto.
    apply dep_and; [now apply dep_Se|]. auto 8.
  Qed.

  Lemma pathsC_spec live a x s t : pre x ->
    trans (pathsC c live a x) s t = true <->
    forall y, trans (safetyEnv c) s (mrg t y) = true /\
      (trans (safetySys c) s (mrg t y) = true ->
       trans live s (mrg t y) = true /\ (pos x (mrg t y) = true \/ trans a s (mrg t y) = true)).
  Proof.
    intros Hx. unfold pathsC. rewrite faPostOut_trans by auto. split; intros H y; specialize (H y).
    - autorewrite with sem in H. rewrite trans_swap_pos in H by auto.
      apply andb_true_iff in H. destruct H as [H1 H2]. split; auto. intros S. rewrite S in H2. cbn in H2.
      apply andb_true_iff in H2. rewrite orb_true_iff in H2. tauto.
    - autorewrite with sem. rewrite trans_swap_pos by auto. destruct H as [-> H]. cbn.
      destruct (trans (safetySys c) s (mrg t y)); cbn; auto.
      rewrite andb_true_iff, orb_true_iff. tauto.
  Qed.

  Lemma exPaths_pos live a x s : any live -> any a -> any x ->
    pos (bexists (varCubePostInput c) (pathsC c live a x)) s = true <->
    exists t, trans (pathsC c live a x) s t = true.
  Proof.
    intros Hl Ha Hx. pose proof (any_pathsC live a x Hl Ha Hx) as D.
    change (trans (bexists (varCubePostInput c) (pathsC c live a x)) s s = true <->
      exists t, trans (pathsC c live a x) s t = true). rewrite exPostIn_trans by auto. split.
    - intros (t & H). eauto.
    - intros (t & H). exists t. unfold pathsC in *. rewrite faPostOut_trans in * by auto.
      intros y. specialize (H y). rewrite <- H. apply (trans_ext c Hk).
      + apply dep_and; [now apply dep_Se|auto 8].
      + auto.
      + intros k _. unfold Sem.mrg. now destruct (isOut c k).
  Qed.

  (** Sets of transitions that do not constrain the next outputs. *)
  Definition closedF (F : BF) : Prop := forall s t y, trans F s t = true -> trans F s (mrg t y) = true.

  Lemma closed_forall f : closedF (bforall (varCubePostOutput c) f).
  Proof.
    intros s t y. rewrite !faPostOut_trans by auto. intros H y'. rewrite <- (H y').
    apply trans_eq. intros k. unfold Sem.mrg. now destruct (isOut c k).
  Qed.

  (** Well-foundedness of the entries computed in one innermost loop. *)
  Definition entOK (live a : BF) (E : list BF) : Prop :=
    forall p F q, E = p ++ F :: q -> (any F /\ closedF F) /\ forall s t, trans F s t = true -> forall y,
      trans (safetyEnv c) s (mrg t y) = true /\
      (trans (safetySys c) s (mrg t y) = true ->
       trans live s (mrg t y) = true /\ (trans a s (mrg t y) = true \/ covE p (mrg t y))).

  Lemma entOK_snoc live a E x : any live -> any a -> pre x -> (forall s, pos x s = true -> covE E s) ->
    entOK live a E -> entOK live a (E ++ [pathsC c live a x]).
  Proof.
    intros Hl Ha Hx HC HE p F q Eq. destruct q as [|f q _] using rev_ind.
    - apply app_inj_tail in Eq. destruct Eq as [<- <-].
      split; [split; [apply any_pathsC; auto|apply closed_forall]|].
      intros s t H y. rewrite pathsC_spec in H by auto. destruct (H y) as [H1 H2]. split; auto.
      intros S. destruct (H2 S) as [L [X|X]]; auto.
    - rewrite app_comm_cons, app_assoc in Eq. apply app_inj_tail in Eq. destruct Eq as [-> _]. now apply (HE p F q).
  Qed.

  Lemma mu0C_spec i j live a data : any live -> any a ->
    exists E, mu0LoopC c i j live a data = Some (bnot (nuX (bnot live) a), data ++ map (pair (i, j)) E) /\
      entOK live a E /\ forall s, pos (nuX (bnot live) a) s = false -> covE E s.
  Proof.
    intros Hl Ha.
    set (F := fun (v : BF) (_ : list entry) => bexists (varCubePostInput c) (pathsC c live a v)).
    set (Inv := fun (v : BF) (d : list entry) => pre v /\ sub v (F v d) /\ exists E, d = data ++ map (pair (i, j)) E /\
      entOK live a E /\ forall s, pos v s = true -> covE E s).
    assert (PF : forall v d, pre v -> pre (F v d)).
    { intros v d Hv. unfold F. rewrite pathsC_dual. apply dep_not, (pre_stepX c Hwf); auto. }
    assert (CF : forall v d s, pre v -> pos (F v d) s = true <-> exists t, trans (pathsC c live a v) s t = true).
    { intros v d s Hv. unfold F. apply exPaths_pos; auto. }
    destruct (fp_inc c Hk (mu0BodyC c i j live a) F
      (fun v d => d ++ [((i, j), pathsC c live a v)]) Inv bfalse data) as (v & d & HI & E & R & _).
    - split; [auto|]. split; [apply sub_false|]. exists []. cbn. rewrite app_nil_r. split; auto. split.
      + intros [|]; discriminate.
      + intros s H. change (pos bfalse s = true) in H. rewrite pos_false in H. discriminate.
    - intros v d (Hv & Hs & E & -> & HE & HC). split; [reflexivity|]. split; [auto|]. split; [auto|]. split; [auto|].
      intros _. split; [auto|]. split.
      + intros s. rewrite !CF by auto. intros (t & H). exists t. rewrite pathsC_spec in * by auto.
        intros y. destruct (H y) as [H1 H2]. split; auto. intros S. destruct (H2 S) as [L [X|X]]; auto.
      + exists (E ++ [pathsC c live a v]). split; [now rewrite map_app, <- app_assoc|]. split.
        * now apply entOK_snoc.
        * intros s H. apply covE_app. apply CF in H; auto. right. destruct H as (t & H).
          exists (pathsC c live a v), t. split; [now left|auto].
    - destruct HI as (Hv & Hs & E' & -> & HE & HC).
      pose proof (mu0_dual c i j live a data) as HD. unfold mu0LoopC in *. rewrite R in *.
      destruct (nu0Loop_spec c Hwf (bnot live) a) as (N & _); auto. rewrite N in HD. rewrite HD, bnot_not.
      exists (E' ++ [pathsC c live a v]). split; [now rewrite map_app, <- app_assoc|]. split.
      + now apply entOK_snoc.
      + intros s. rewrite pos_not, negb_false_iff. intros H. apply covE_app. left. auto.
  Qed.

  Lemma asmC_spec j live asms : any live -> Forall any asms -> forall i good data,
    exists x D, asmLoopC c j live i asms good data = Some (x, data ++ D) /\
      (pre good -> pre x) /\
      (forall s, pos x s = true <-> pos good s = true /\ forall a, In a asms -> pos (nuX (bnot live) a) s = false) /\
      (forall i' j', i' < i \/ j' <> j -> dataOfC i' j' D = []) /\
      forall n a, nth_error asms n = Some a ->
        entOK live a (dataOfC (i + n) j D) /\
        forall s, pos (nuX (bnot live) a) s = false -> covE (dataOfC (i + n) j D) s.
  Proof.
    intros Hl Has. induction asms as [|a asms IH]; intros i good data; cbn [asmLoopC].
    - exists good, []. rewrite app_nil_r. split; [auto|]. split; [auto|]. split; [|split; [auto|intros [|]; discriminate]].
      intros s. split; [intros H; split; auto; now intros a []|tauto].
    - inversion Has as [|? ? Ha Has']; subst.
      destruct (mu0C_spec i j live a data Hl Ha) as (E & -> & HE & HC).
      destruct (IH Has' (S i) (band good (bnot (nuX (bnot live) a))) (data ++ map (pair (i, j)) E))
        as (x & D & -> & PX & HX & HD0 & HD).
      exists x, (map (pair (i, j)) E ++ D). rewrite <- app_assoc. split; [auto|]. split; [intros Pg; apply PX; auto 8|]. split; [|split].
      + intros s. rewrite HX, pos_and, pos_not, andb_true_iff, negb_true_iff. split.
        * intros [[H1 H2] H3]. split; auto. intros b [<-|Hb]; auto.
        * intros [H1 H2]. repeat split; auto; intros; apply H2; [now left|now right].
      + intros i' j' H. rewrite dataOfC_app, dataOfC_pair, HD0 by lia.
        destruct (Nat.eqb_spec i i'), (Nat.eqb_spec j j'); try reflexivity. lia.
      + intros [|n] b Hb.
        * injection Hb as <-. rewrite Nat.add_0_r, dataOfC_app, dataOfC_pair, HD0, !Nat.eqb_refl, app_nil_r by lia.
          auto.
        * rewrite dataOfC_app, dataOfC_pair. replace (i + S n) with (S i + n) by lia.
          destruct (Nat.eqb_spec i (S i + n)); [lia|]. cbn [andb app]. now apply HD.
  Qed.

  (** The entries of one round of the outer loop, for one guarantee and one
      assumption; [z] is the complement of the value of the outer loop. *)
  Definition roundOK (z g a : BF) (E : list BF) : Prop :=
    (forall p F q, E = p ++ F :: q -> (any F /\ closedF F) /\ forall s t, trans F s t = true -> forall y,
       trans (safetyEnv c) s (mrg t y) = true /\
       (trans (safetySys c) s (mrg t y) = true ->
        (trans g s (mrg t y) = true -> pos z (mrg t y) = false) /\
        pos (muY z g) (mrg t y) = false /\
        (trans a s (mrg t y) = true \/ covE p (mrg t y)))) /\
    forall s, pos (muY z g) s = false -> covE E s.

  Lemma nu1C_spec j z g data : pre z -> any g ->
    exists live D, nu1LoopC c j (bor (bnot g) (swapPrePost c (bnot z))) data =
        Some (bnot (muY z g), (live, data ++ D)) /\
      (forall i' j', j' <> j -> dataOfC i' j' D = []) /\
      forall i a, nth_error (livenessAssumptions c) i = Some a -> roundOK z g a (dataOfC i j D).
  Proof.
    intros Hz Hg.
    set (base := bor (bnot g) (swapPrePost c (bnot z))).
    assert (Ab : any base) by (unfold base; auto 8).
    assert (EB : band g (swapPrePost c z) = bnot base).
    { unfold base. rewrite swap_not. apply bf_ext. intros e. repeat rewrite ?eval_not, ?eval_and, ?eval_or.
      destruct (eval g e), (eval (swapPrePost c z) e); auto. }
    destruct (mu1Loop_spec c Hwf j z g []) as (y & l' & L & EM & HY & _); auto.
    assert (y = muY z g) as -> by (apply (isMuY_unique c Hwf z g); auto; apply (muY_spec c Hwf); auto).
    rewrite EB in EM.
    pose proof (nu1_dual c j base data []) as HD. rewrite EM in HD.
    destruct (nu1LoopC c j base data) as [[nu1 [live d]]|] eqn:R; [|contradiction].
    destruct HD as [H1 H2].
    assert (EN : nu1 = bnot (muY z g)) by now rewrite H1, bnot_not. clear H1 H2.
    unfold nu1LoopC in R. apply run_Runs in R.
    destruct (Runs_last (nu1BodyC c j data) (fun st => pre (fst st) /\ any (fst (snd st)) /\ tsub (fst (snd st)) base) _ _ R)
      as ([v [lv d0]] & (Hv & Hlv & Hb) & ED).
    - cbn. repeat split; auto. apply tsub_refl.
    - intros [v [lv d0]] st (Hv & Hlv & Hb) E. cbn [fst snd] in *. unfold nu1BodyC in E.
      destruct (asmC_spec j (band lv (swapPrePost c v)) (livenessAssumptions c)) with (i := 0) (good := v) (data := data)
        as (x & D & EA & PX & _); auto.
      rewrite EA in E. unfold fpUpdate in E. destruct (bf_eqb v x); [discriminate|]. injection E as <-. cbn [fst snd].
      split; [auto|]. split; [auto|].
      intros s t. rewrite trans_and, andb_true_iff. intros [H _]. auto.
    - cbn [fst snd] in *. unfold nu1BodyC in ED.
      destruct (asmC_spec j (band lv (swapPrePost c v)) (livenessAssumptions c)) with (i := 0) (good := v) (data := data)
        as (x & D & EA & PX & HX & HD0 & HD); auto.
      rewrite EA in ED. unfold fpUpdate in ED. destruct (bf_eqb_spec v x) as [<-|]; [|discriminate].
      injection ED as E1 E2 E3. subst nu1 live d. exists (band lv (swapPrePost c v)), D.
      rewrite E1. split; [reflexivity|]. split; [intros; apply HD0; auto|].
      intros i a Ha. destruct (HD i a Ha) as [HE HC]. cbn [Nat.add] in *. split.
      + intros p F q Eq. destruct (HE p F q Eq) as [AF HF]. split; auto. intros s t HT y.
        destruct (HF s t HT y) as [H1 H2]. split; auto. intros S. destruct (H2 S) as [HL HC'].
        rewrite trans_and, andb_true_iff, trans_swap_pos, E1, pos_not, negb_true_iff in HL by auto.
        destruct HL as [HL1 HL2]. split; [|split; auto].
        apply Hb in HL1. unfold base in HL1. rewrite trans_or, orb_true_iff, trans_not, negb_true_iff,
          trans_swap_pos, pos_not, negb_true_iff in HL1 by auto.
        intros HGs. destruct HL1; congruence.
      + intros s Hs. apply HC. assert (Hv' : pos v s = true) by (rewrite E1, pos_not, Hs; auto).
        apply HX in Hv'. apply Hv'. now apply nth_error_In in Ha.
  Qed.

  Lemma goalC_spec z gs : pre z -> Forall any gs -> forall j next data,
    exists x D, goalLoopC c (bnot z) j gs next data = Some (x, data ++ D) /\
      (forall i' j', j' < j -> dataOfC i' j' D = []) /\
      forall i a n g, nth_error (livenessAssumptions c) i = Some a -> nth_error gs n = Some g ->
        roundOK z g a (dataOfC i (j + n) D).
  Proof.
    intros Hz Hgs. induction gs as [|g gs IH]; intros j next data; cbn [goalLoopC].
    - exists next, []. rewrite app_nil_r. split; auto. split; auto. intros i a [|]; discriminate.
    - inversion Hgs as [|? ? Hg Hgs']; subst.
      destruct (nu1C_spec j z g data Hz Hg) as (live & D & -> & HD0 & HD).
      destruct (IH Hgs' (S j) (bor next (bnot (muY z g))) (data ++ D)) as (x & D' & -> & HD0' & HD').
      exists x, (D ++ D'). rewrite <- app_assoc. split; auto. split.
      + intros i' j' Hj. rewrite dataOfC_app, HD0, HD0' by lia. reflexivity.
      + intros i a [|n] g' Ha Hg'.
        * injection Hg' as <-. rewrite Nat.add_0_r, dataOfC_app, HD0', app_nil_r by lia. auto.
        * rewrite dataOfC_app, HD0 by lia. replace (j + S n) with (S j + n) by lia. cbn [app]. eauto.
  Qed.

  (** All rounds. *)
  Definition rounds (K : nat) (data : list entry) : Prop :=
    forall i a j g, nth_error (livenessAssumptions c) i = Some a -> nth_error (livenessGuarantees c) j = Some g ->
    exists Es, dataOfC i j data = concat Es /\ length Es = K /\
      forall k E, nth_error Es k = Some E -> roundOK (iterZ k) g a E.

  Lemma muY_inside k g : In g (livenessGuarantees c) -> sub (muY (iterZ k) g) (iterZ k).
  Proof.
    intros Hg. apply (muY_least c Hwf); auto. intros s H. apply stepY_spec in H.
    destruct H as [H|(a & Ha & H)]; auto. revert H. apply (nuX_inside c Hwf); auto. apply sub_refl.
  Qed.

  Lemma counter_spec : exists K data, computeCounter c = Some (bnot (iterZ K), data) /\
    stepZ c (iterZ K) = iterZ K /\ rounds (S K) data.
  Proof.
    unfold computeCounter.
    set (F := fun (v : BF) (d : list entry) => bnot (stepZ c (bnot v))).
    destruct (fp_inc c Hk (mu2BodyC c) F
      (fun v d => match goalLoopC c v 0 (livenessGuarantees c) bfalse d with Some (_, d') => d' | None => [] end)
      (fun v d => exists K, v = bnot (iterZ K) /\ rounds K d) bfalse []) as (v & d & (K & -> & HR) & E & R & _).
    - exists 0. split; [apply bf_ext; intros e; now rewrite eval_not|].
      intros i a j g _ _. exists []. split; [reflexivity|]. split; auto. intros [|]; discriminate.
    - intros v d (K & -> & HR).
      destruct (goalC_spec (iterZ K) (livenessGuarantees c)) with (j := 0) (next := bfalse) (data := d)
        as (x & D & EG & _ & HD); auto.
      assert (EF : F (bnot (iterZ K)) d = bnot (iterZ (S K))) by (unfold F; now rewrite bnot_not).
      assert (EX : x = bnot (iterZ (S K))).
      { pose proof (goal_dual c (bnot (iterZ K)) (livenessGuarantees c) 0 bfalse d []) as GD.
        rewrite EG, bnot_not in GD. replace (bnot bfalse) with btrue in GD by (apply bf_ext; intros e; now rewrite eval_not).
        destruct (goalLoop_spec c Hwf (iterZ K) (livenessGuarantees c)) with (j := 0) (next := btrue) (data := @nil (nat * BF))
          as (d' & EG' & _); auto.
        rewrite EG' in GD. fold (stepZ c (iterZ K)) in GD. change (stepZ c (iterZ K)) with (iterZ (S K)) in GD.
        now rewrite GD, bnot_not. }
      rewrite EF. split; [unfold mu2BodyC; cbn [fst snd]; rewrite EG, EX; reflexivity|].
      split; [auto|]. split; [auto|]. split.
      + intros s. rewrite !pos_not, !negb_true_iff. intros H. destruct (pos (iterZ (S K)) s) eqn:E; auto.
        apply (iterZ_dec c Hwf) in E. congruence.
      + intros _. exists (S K). split; auto. rewrite EG. intros i a j g Ha Hg.
        destruct (HR i a j g Ha Hg) as (Es & E1 & E2 & E3).
        exists (Es ++ [dataOfC i j D]). rewrite dataOfC_app, E1, concat_app, app_length. cbn. rewrite app_nil_r.
        split; auto. split; [lia|]. intros k E Hn. destruct (Nat.lt_ge_cases k (length Es)) as [L|L].
        * rewrite nth_error_app1 in Hn by auto. auto.
        * rewrite nth_error_app2 in Hn by auto. destruct (k - length Es) as [|n] eqn:Ek; [|now destruct n].
          injection Hn as <-. replace k with K by lia. apply (HD i a j g Ha Hg).
    - destruct (goalC_spec (iterZ K) (livenessGuarantees c)) with (j := 0) (next := bfalse) (data := d)
        as (x & D & EG & _ & HD); auto.
      rewrite EG in R. exists K, (d ++ D). split; [exact R|]. split.
      + unfold F in E. rewrite bnot_not in E. now rewrite <- (bnot_not (stepZ _ _)), E, bnot_not.
      + intros i a j g Ha Hg. destruct (HR i a j g Ha Hg) as (Es & E1 & E2 & E3).
        exists (Es ++ [dataOfC i j D]). rewrite dataOfC_app, E1, concat_app, app_length. cbn. rewrite app_nil_r.
        split; auto. split; [lia|]. intros k E' Hn. destruct (Nat.lt_ge_cases k (length Es)) as [L|L].
        * rewrite nth_error_app1 in Hn by auto. auto.
        * rewrite nth_error_app2 in Hn by auto. destruct (k - length Es) as [|n] eqn:Ek; [|now destruct n].
          injection Hn as <-. replace k with K by lia. apply (HD i a j g Ha Hg).
  Qed.
End DATA.
