(** * Fixed-point loops and the enforceable predecessor *)

From Coq Require Import Arith List Bool Lia.
From Verif Require Import BDD Loop Spec VarTypes Synth Sem.
Import ListNotations.

(** Inclusion of sets of positions. *)
Definition sub (f g : BF) : Prop := forall s, pos f s = true -> pos g s = true.

Lemma sub_refl f : sub f f. Proof. intros s H. exact H. Qed.
Lemma sub_trans f g h : sub f g -> sub g h -> sub f h.
Proof. intros H1 H2 s Hs. auto. Qed.
Lemma sub_true f : sub f btrue. Proof. now intros s. Qed.
Lemma sub_false f : sub bfalse f. Proof. intros s. now rewrite pos_false. Qed.
Lemma sub_or_l f g : sub f (bor f g).
Proof. intros s H. rewrite pos_or, H. reflexivity. Qed.
Lemma sub_or_r f g : sub g (bor f g).
Proof. intros s H. rewrite pos_or, H. apply orb_true_r. Qed.
Lemma sub_or f g h : sub f h -> sub g h -> sub (bor f g) h.
Proof. intros H1 H2 s. rewrite pos_or, orb_true_iff. intros [H|H]; auto. Qed.
Lemma sub_and_l f g : sub (band f g) f.
Proof. intros s. rewrite pos_and, andb_true_iff. tauto. Qed.
Lemma sub_and_r f g : sub (band f g) g.
Proof. intros s. rewrite pos_and, andb_true_iff. tauto. Qed.
Lemma sub_and f g h : sub h f -> sub h g -> sub h (band f g).
Proof. intros H1 H2 s Hs. rewrite pos_and, H1, H2; auto. Qed.

(** Inclusion of sets of transitions. *)
Definition tsub (f g : BF) : Prop := forall s t, trans f s t = true -> trans g s t = true.

Lemma tsub_refl f : tsub f f. Proof. intros s t H. exact H. Qed.

Section FIX.
  Variable c : ctx.
  Hypothesis Hk : exists kinds, varTypes c = typesOf kinds /\ forallb isPreKind kinds = true.

  Lemma sub_antisym f g : dep (isPreV c) f -> dep (isPreV c) g -> sub f g -> sub g f -> f = g.
  Proof.
    intros Df Dg H1 H2. apply (pos_inj c); auto. intros s.
    destruct (pos f s) eqn:E1, (pos g s) eqn:E2; auto.
    - rewrite (H1 s E1) in E2. discriminate.
    - rewrite (H2 s E2) in E1. discriminate.
  Qed.

  Lemma pow_lt_fuel n : n <= 2 ^ nvars c -> n < 2 ^ fpFuel c.
  Proof.
    intros H. unfold fpFuel. rewrite nvars_spec by auto.
    assert (2 ^ nvars c <= 2 ^ (2 * nvars c)) by (apply Nat.pow_le_mono_r; lia).
    cbn [Nat.pow]. assert (0 < 2 ^ (2 * nvars c)) by (apply Nat.neq_0_lt_0, Nat.pow_nonzero; lia). lia.
  Qed.

  (** Loops whose value decreases. *)
  Lemma fp_dec {D} (body : BF * D -> step (BF * D) (BF * D)) (F : BF -> D -> BF) (Dn : BF -> D -> D)
      (Inv : BF -> D -> Prop) v0 d0 :
    Inv v0 d0 ->
    (forall v d, Inv v d -> body (v, d) = fpUpdate v (F v d) (Dn v d) /\
       dep (isPreV c) v /\ dep (isPreV c) (F v d) /\ sub (F v d) v /\
       (F v d <> v -> Inv (F v d) (Dn v d))) ->
    exists v d, Inv v d /\ F v d = v /\ run body (fpFuel c) (v0, d0) = Some (v, Dn v d) /\
      Runs body (v0, d0) (v, Dn v d).
  Proof.
    intros H0 Hstep.
    destruct (run_total body (fun st => Inv (fst st) (snd st)) (fun st => card c (fst st)) (fpFuel c) (v0, d0))
      as (r & Er & Hr); auto.
    - intros [v d] Hi. destruct (Hstep v d Hi) as (E & Dv & DF & Hs & Hc). rewrite E. unfold fpUpdate.
      destruct (bf_eqb_spec v (F v d)) as [|Hne]; auto. cbn [fst snd]. split; auto.
      apply card_lt; auto.
    - apply pow_lt_fuel. apply card_bound.
    - destruct (Runs_last body (fun st => Inv (fst st) (snd st)) _ _ Hr) as ([v d] & Hi & Ed); auto.
      + intros [v d] st Hi Ec. destruct (Hstep v d Hi) as (E & Dv & DF & Hs & Hc).
        rewrite E in Ec. unfold fpUpdate in Ec. destruct (bf_eqb_spec v (F v d)) as [|Hne]; [discriminate|].
        injection Ec as <-. cbn. auto.
      + cbn in Hi. destruct (Hstep v d Hi) as (E & Dv & DF & Hs & Hc).
        rewrite E in Ed. unfold fpUpdate in Ed. destruct (bf_eqb_spec v (F v d)) as [Heq|Hne]; [|discriminate].
        injection Ed as <-. exists v, d. auto.
  Qed.

  (** Loops whose value increases. *)
  Lemma fp_inc {D} (body : BF * D -> step (BF * D) (BF * D)) (F : BF -> D -> BF) (Dn : BF -> D -> D)
      (Inv : BF -> D -> Prop) v0 d0 :
    Inv v0 d0 ->
    (forall v d, Inv v d -> body (v, d) = fpUpdate v (F v d) (Dn v d) /\
       dep (isPreV c) v /\ dep (isPreV c) (F v d) /\ sub v (F v d) /\
       (F v d <> v -> Inv (F v d) (Dn v d))) ->
    exists v d, Inv v d /\ F v d = v /\ run body (fpFuel c) (v0, d0) = Some (v, Dn v d) /\
      Runs body (v0, d0) (v, Dn v d).
  Proof.
    intros H0 Hstep.
    destruct (run_total body (fun st => Inv (fst st) (snd st))
                (fun st => 2 ^ nvars c - card c (fst st)) (fpFuel c) (v0, d0))
      as (r & Er & Hr); auto.
    - intros [v d] Hi. destruct (Hstep v d Hi) as (E & Dv & DF & Hs & Hc). rewrite E. unfold fpUpdate.
      destruct (bf_eqb_spec v (F v d)) as [|Hne]; auto. cbn [fst snd]. split; auto.
      assert (card c v < card c (F v d)) by (apply card_lt; auto).
      pose proof (card_bound c (F v d)). lia.
    - apply pow_lt_fuel. lia.
    - destruct (Runs_last body (fun st => Inv (fst st) (snd st)) _ _ Hr) as ([v d] & Hi & Ed); auto.
      + intros [v d] st Hi Ec. destruct (Hstep v d Hi) as (E & Dv & DF & Hs & Hc).
        rewrite E in Ec. unfold fpUpdate in Ec. destruct (bf_eqb_spec v (F v d)) as [|Hne]; [discriminate|].
        injection Ec as <-. cbn. auto.
      + cbn in Hi. destruct (Hstep v d Hi) as (E & Dv & DF & Hs & Hc).
        rewrite E in Ed. unfold fpUpdate in Ed. destruct (bf_eqb_spec v (F v d)) as [Heq|Hne]; [|discriminate].
        injection Ed as <-. exists v, d. auto.
  Qed.

  (** Decreasing iterations are stable after 2^n+1 rounds. *)
  Lemma iter_stable (F : BF -> BF) v0 :
    dep (isPreV c) v0 -> (forall v, dep (isPreV c) v -> dep (isPreV c) (F v)) ->
    (forall m, sub (Nat.iter (S m) F v0) (Nat.iter m F v0)) ->
    F (Nat.iter (S (2 ^ nvars c)) F v0) = Nat.iter (S (2 ^ nvars c)) F v0.
  Proof.
    intros D0 DF Hd.
    assert (Dm : forall m, dep (isPreV c) (Nat.iter m F v0)) by (induction m; cbn; auto).
    assert (G : forall m, F (Nat.iter m F v0) = Nat.iter m F v0 \/ card c (Nat.iter m F v0) + m <= 2 ^ nvars c).
    { induction m as [|m IH].
      - right. rewrite Nat.add_0_r. apply card_bound.
      - cbn [Nat.iter nat_rect]. destruct IH as [IH|IH].
        + left. unfold Nat.iter in IH. now rewrite !IH.
        + destruct (bf_eq_dec (F (Nat.iter m F v0)) (Nat.iter m F v0)) as [E|N].
          * left. unfold Nat.iter in E. now rewrite !E.
          * right. assert (card c (Nat.iter (S m) F v0) < card c (Nat.iter m F v0)).
            { apply card_lt; [exact Hk|apply (Dm (S m))|apply Dm|exact (Hd m)|exact N]. }
            change (Nat.iter (S m) F v0) with (F (Nat.iter m F v0)) in *. unfold Nat.iter in *. cbn [nat_rect]. lia. }
    destruct (G (S (2 ^ nvars c))) as [H|H]; auto. lia.
  Qed.

  Lemma iter_fixed (F : BF -> BF) v0 K m :
    F (Nat.iter K F v0) = Nat.iter K F v0 -> K <= m -> Nat.iter m F v0 = Nat.iter K F v0.
  Proof.
    intros E H. induction H as [|m H IH]; auto. cbn [Nat.iter nat_rect]. unfold Nat.iter in *. now rewrite IH.
  Qed.

  Lemma mrg_merge x y : mrg c x y = merge (game_of c) x y.
  Proof. reflexivity. Qed.

  Hypothesis HSe : dep (isPrePostInV c) (safetyEnv c).
  Hypothesis HSs : dep (isAnyV c) (safetySys c).

  Lemma dep_Se : dep (isAnyV c) (safetyEnv c).
  Proof. eapply dep_weaken; [|exact HSe]. now intros v [H _]. Qed.

  Lemma safeE_in s x y y' : trans (safetyEnv c) s (mrg c x y) = trans (safetyEnv c) s (mrg c x y').
  Proof.
    apply HSe. intros v [Hv H]. destruct (even_cases v) as [[k ->]|[k ->]]; rewrite ?tv_even, ?tv_odd; auto.
    rewrite even_double1, div2_double1 in H. destruct H as [H|H]; [discriminate|].
    unfold mrg. now rewrite H.
  Qed.

  Lemma dep_exPostOut f : dep (isAnyV c) f -> dep (isPrePostInV c) (bexists (varCubePostOutput c) f).
  Proof.
    intros D. eapply dep_exists; [exact D|]. intros v Hv Hn. split; [exact Hv|].
    destruct (even_cases v) as [[k ->]|[k ->]]; [left; apply even_double|right].
    rewrite div2_double1. destruct (isOut c k) eqn:E; auto. elim Hn. apply in_PostOutput; auto.
    exists k. unfold isAnyV in Hv. rewrite nvars_spec in Hv by auto. repeat split; auto. lia.
  Qed.

  Lemma dep_faPostIn f : dep (isPrePostInV c) f -> dep (isPreV c) (bforall (varCubePostInput c) f).
  Proof.
    intros D. eapply dep_forall; [exact D|]. intros v [Hv H] Hn. split; [exact Hv|].
    destruct (even_cases v) as [[k ->]|[k ->]]; [apply even_double|exfalso].
    rewrite even_double1, div2_double1 in H. destruct H as [H|H]; [discriminate|].
    apply Hn. apply in_PostInput; auto. rewrite nvars_spec in Hv by auto. exists k. repeat split; auto. lia.
  Qed.

  Lemma dep_cox T : dep (isAnyV c) T -> dep (isPreV c) (cox c T).
  Proof.
    intros D. apply dep_faPostIn, dep_exPostOut. apply dep_imp; auto. apply dep_Se.
  Qed.

  Lemma isPrePostIn_isAny f : dep (isPrePostInV c) f -> dep (isAnyV c) f.
  Proof. apply dep_weaken. now intros v [H _]. Qed.

  Lemma trans_eq f s t t' : (forall k, t k = t' k) -> trans f s t = trans f s t'.
  Proof. intros H. apply eval_ext. intros v. unfold tv. destruct (Nat.even v); auto. Qed.

  (** Meaning of the enforceable predecessor. *)
  Lemma cox_spec T s : dep (isAnyV c) T ->
    (pos (cox c T) s = true <->
     forall x, exists y, trans (safetyEnv c) s (mrg c x y) = true -> trans T s (mrg c x y) = true).
  Proof.
    intros D. unfold cox, pos. fold (trans (bforall (varCubePostInput c)
      (bexists (varCubePostOutput c) (bimp (safetyEnv c) T))) s s).
    assert (DI : dep (isAnyV c) (bimp (safetyEnv c) T)) by (apply dep_imp; auto; apply dep_Se).
    rewrite faPostIn_trans by (auto; now apply isPrePostIn_isAny, dep_exPostOut).
    assert (EM : forall x y f, trans f s (mrg c (mrg c x s) y) = trans f s (mrg c x y)).
    { intros x y f. apply trans_eq. intros k. unfold mrg. now destruct (isOut c k). }
    split; intros H x; specialize (H x).
    - apply exPostOut_trans in H; auto. destruct H as (y & H). exists y. rewrite EM, trans_imp in H.
      intros E. now rewrite E in H.
    - destruct H as (y & H). apply exPostOut_trans; auto. exists y. rewrite EM, trans_imp.
      destruct (trans (safetyEnv c) s (mrg c x y)); cbn; auto.
  Qed.

  Lemma cox_mono T T' : dep (isAnyV c) T -> dep (isAnyV c) T' -> tsub T T' -> sub (cox c T) (cox c T').
  Proof.
    intros D D' H s. rewrite !cox_spec by auto. intros HT x. destruct (HT x) as (y & Hy). exists y. auto.
  Qed.

  (** The spoiling input for a position outside of an enforceable predecessor. *)
  Definition envPick (T : BF) (s : state) : state :=
    match find (fun l => negb (trans (bexists (varCubePostOutput c) (bimp (safetyEnv c) T)) s (ofVec l)))
               (vectors (nvars c)) with
    | Some l => ofVec l
    | None => s
    end.

  Lemma envPick_spec T s : dep (isAnyV c) T -> pos (cox c T) s = false ->
    forall y, trans (safetyEnv c) s (mrg c (envPick T s) y) = true /\
              trans T s (mrg c (envPick T s) y) = false.
  Proof.
    intros D H.
    assert (DI : dep (isAnyV c) (bimp (safetyEnv c) T)) by (apply dep_imp; auto; apply dep_Se).
    set (E := bexists (varCubePostOutput c) (bimp (safetyEnv c) T)).
    assert (DE : dep (isAnyV c) E) by now apply isPrePostIn_isAny, dep_exPostOut.
    assert (P : trans E s (envPick T s) = false).
    { unfold envPick. fold E. destruct (find _ _) as [l|] eqn:F.
      - apply find_some in F. destruct F as [_ F]. now apply negb_true_iff in F.
      - exfalso. assert (pos (cox c T) s = true); [|congruence].
        unfold cox, pos. fold E. fold (trans (bforall (varCubePostInput c) E) s s).
        apply faPostIn_trans; auto. intros x.
        pose proof (find_none _ _ F _ (toVec_in (nvars c) (mrg c x s))) as N. apply negb_false_iff in N.
        rewrite <- N. apply (trans_ext c Hk); auto. intros k Hlt. symmetry. now apply ofVec_toVec. }
    intros y.
    assert (N : trans (bimp (safetyEnv c) T) s (mrg c (envPick T s) y) = false).
    { destruct (trans (bimp (safetyEnv c) T) s (mrg c (envPick T s) y)) eqn:N; auto.
      assert (trans E s (envPick T s) = true); [|congruence].
      apply exPostOut_trans; auto. eauto. }
    rewrite trans_imp in N.
    destruct (trans (safetyEnv c) s (mrg c (envPick T s) y)), (trans T s (mrg c (envPick T s) y));
      cbn in N; auto; discriminate.
  Qed.

  (** A solver for transition sets. *)
  Definition solT (F : state -> state -> bool) (s x : state) : option state :=
    match find (fun l => F s (mrg c x (ofVec l))) (vectors (nvars c)) with
    | Some l => Some (ofVec l)
    | None => None
    end.

  Lemma solT_spec T s x : dep (isAnyV c) T ->
    match solT (trans T) s x with
    | Some y => trans T s (mrg c x y) = true
    | None => forall y, trans T s (mrg c x y) = false
    end.
  Proof.
    intros D. unfold solT. destruct (find _ _) as [l|] eqn:F.
    - now apply find_some in F.
    - intros y. rewrite <- (find_none _ _ F _ (toVec_in (nvars c) y)).
      apply (trans_ext c Hk); auto. intros k Hlt. unfold mrg. destruct (isOut c k); auto.
      symmetry. now apply ofVec_toVec.
  Qed.

  Lemma dep_pathsX live a x : dep (isAnyV c) live -> dep (isAnyV c) a -> dep (isAnyV c) x ->
    dep (isAnyV c) (pathsX c live a x).
  Proof.
    intros H1 H2 H3. unfold pathsX. apply dep_and; auto. apply dep_or; auto.
    apply dep_and; [now apply dep_swapPrePost|now apply dep_not].
  Qed.

  Lemma pathsX_spec live a x s t : dep (isPreV c) x ->
    trans (pathsX c live a x) s t = true <->
    (trans live s t = true \/ (pos x t = true /\ trans a s t = false)) /\ trans (safetySys c) s t = true.
  Proof.
    intros D. unfold pathsX. autorewrite with sem. rewrite trans_swap_pos by auto.
    rewrite !andb_true_iff, orb_true_iff, andb_true_iff, negb_true_iff. tauto.
  Qed.

  Lemma pathsX_mono live live' a x x' : dep (isPreV c) x -> dep (isPreV c) x' ->
    tsub live live' -> sub x x' -> tsub (pathsX c live a x) (pathsX c live' a x').
  Proof.
    intros D D' H1 H2 s t. rewrite !pathsX_spec by auto. intros [[H|[H H']] Hs]; split; auto.
  Qed.
End FIX.
