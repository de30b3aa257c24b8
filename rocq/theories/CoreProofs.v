(** * Correctness of the GR(1) fixed point for any enforceable predecessor

    The structure is that of SynthProofs.v.  The predecessor [cox], the moves of the environment and
    the way in which a move and a reply lead to a position are parameters. *)

From Coq Require Import Arith List Bool Lia.
From Verif Require Import BDD Loop Spec VarTypes Synth Sem FixBase GameSound SynthProofs CoreGame.
Import ListNotations.

(** ** The loops *)

Section DEFS.
  Variable c : ctx.
  Variable cox : BF -> BF.
  Definition nu0BodyC (live asm : BF) (st : BF * unit) : step (BF * unit) (BF * unit) :=
    fpUpdate (fst st) (cox (pathsX c live asm (fst st))) tt.
  Definition nu0LoopC (live asm : BF) : option BF := option_map fst (run (nu0BodyC live asm) (fpFuel c) (btrue, tt)).
  Fixpoint asmLoopC (live : BF) (asms : list BF) (good : BF) : option BF :=
    match asms with
    | [] => Some good
    | a :: asms =>
        match nu0LoopC live a with
        | None => None
        | Some nu0 => asmLoopC live asms (bor good nu0)
        end
    end.
  Definition mu1BodyC (st : BF * BF) : step (BF * BF) (BF * BF) :=
    let live := bor (snd st) (swapPrePost c (fst st)) in
    match asmLoopC live (livenessAssumptions c) (fst st) with
    | None => Abort
    | Some good => fpUpdate (fst st) good live
    end.
  Definition mu1LoopC (live : BF) : option BF := option_map fst (run mu1BodyC (fpFuel c) (bfalse, live)).
  Fixpoint goalLoopC (nu2 : BF) (goals : list BF) (next : BF) : option BF :=
    match goals with
    | [] => Some next
    | g :: goals =>
        match mu1LoopC (band g (swapPrePost c nu2)) with
        | None => None
        | Some mu1 => goalLoopC nu2 goals (band next mu1)
        end
    end.
  Definition nu2BodyC (st : BF * unit) : step (BF * unit) (BF * unit) :=
    match goalLoopC (fst st) (livenessGuarantees c) btrue with
    | None => Abort
    | Some next => fpUpdate (fst st) next tt
    end.
  Definition winningC : option BF := option_map fst (run nu2BodyC (fpFuel c) (btrue, tt)).
End DEFS.

Section CORE.
  Variable c : ctx.
  Hypothesis Hk : exists kinds, varTypes c = typesOf kinds /\ forallb isPreKind kinds = true.
  Hypothesis HSs : dep (isAnyV c) (safetySys c).
  Hypothesis HA : Forall (dep (isAnyV c)) (livenessAssumptions c).
  Hypothesis HG : Forall (dep (isAnyV c)) (livenessGuarantees c).
  Hypothesis HAne : livenessAssumptions c <> [].
  Hypothesis HGne : livenessGuarantees c <> [].
  Local Notation pre := (dep (isPreV c)).
  Local Notation any := (dep (isAnyV c)).

  Variable Mv : Type.
  Variable nxt : Mv -> (state -> state) -> state.
  Variable cox : BF -> BF.
  (** Safety of the environment, and a condition on the steps of the system besides its safety guarantees. *)
  Variables sE ok : tset.
  Variable reply : BF -> state -> state -> state.
  Variable pick : BF -> state -> (state -> state) -> Mv.
  Hypothesis pre_cox : forall T, any T -> pre (cox T).
  Hypothesis Hreply : forall T s, any T -> pos (cox T) s = true ->
    forall mv, sE s (nxt mv (reply T s)) = true -> trans T s (nxt mv (reply T s)) && ok s (nxt mv (reply T s)) = true.
  Hypothesis Hpick : forall T s, any T -> pos (cox T) s = false ->
    forall rho, sE s (nxt (pick T s rho) rho) = true /\ trans T s (nxt (pick T s rho) rho) && ok s (nxt (pick T s rho) rho) = false.

  Definition sS : tset := fun s t => trans (safetySys c) s t && ok s t.
  Definition winsFrom (pi : nat -> state) : Prop :=
    gsl sE sS (map trans (livenessAssumptions c)) (map trans (livenessGuarantees c)) pi.

  Local Lemma pre_any f : pre f -> any f.
  Proof. apply isPre_isAny. Qed.
  Hint Resolve pre_any dep_true dep_false dep_and dep_or dep_not dep_imp : core.
  Local Lemma any_swap' f : any f -> any (swapPrePost c f).
  Proof. now apply dep_swapPrePost. Qed.
  Hint Resolve any_swap' : core.

  Lemma cox_mono T T' : any T -> any T' -> tsub T T' -> sub (cox T) (cox T').
  Proof.
    intros D D' H s E. destruct (pos (cox T') s) eqn:E'; auto. exfalso.
    destruct (Hpick T' s D' E' (reply T s)) as [H1 H2].
    pose proof (Hreply T s D E _ H1) as H3. apply andb_true_iff in H3. destruct H3 as [H3 H4]. apply H in H3. now rewrite H3, H4 in H2.
  Qed.

  (** ** Inner greatest fixed point *)
  Definition stepX (live a x : BF) : BF := cox (pathsX c live a x).

  Lemma pre_stepX live a x : any live -> any a -> pre x -> pre (stepX live a x).
  Proof. intros. apply pre_cox; auto. apply dep_pathsX; auto. Qed.

  Lemma stepX_mono live live' a x x' : any live -> any live' -> any a -> pre x -> pre x' ->
    tsub live live' -> sub x x' -> sub (stepX live a x) (stepX live' a x').
  Proof.
    intros. apply cox_mono; auto; try (apply dep_pathsX; auto). now apply pathsX_mono.
  Qed.

  Definition iterX (live a : BF) (m : nat) : BF := Nat.iter m (stepX live a) btrue.

  Lemma pre_iterX live a m : any live -> any a -> pre (iterX live a m).
  Proof. intros. induction m; cbn; auto. now apply pre_stepX. Qed.

  Lemma iterX_dec live a m : any live -> any a -> sub (iterX live a (S m)) (iterX live a m).
  Proof.
    intros Hl Ha. induction m as [|m IH]; [apply sub_true|].
    apply (stepX_mono live live a (iterX live a (S m)) (iterX live a m)); auto using pre_iterX, tsub_refl.
  Qed.

  Definition nuX (live a : BF) : BF := iterX live a (S (2 ^ nvars c)).
  Arguments nuX : simpl never.

  Lemma nuX_fix live a : any live -> any a -> stepX live a (nuX live a) = nuX live a.
  Proof.
    intros Hl Ha. apply (iter_stable c Hk (stepX live a) btrue (dep_true _)
                  (fun v => pre_stepX live a v Hl Ha) (fun m => iterX_dec live a m Hl Ha)).
  Qed.

  Lemma pre_nuX live a : any live -> any a -> pre (nuX live a).
  Proof.
    intros Hl Ha. now apply pre_iterX.
  Qed.
  Hint Resolve pre_nuX : core.

  Lemma nuX_greatest live a v : any live -> any a -> pre v ->
    sub v (stepX live a v) -> sub v (nuX live a).
  Proof.
    intros Hl Ha Hv H. unfold nuX. generalize (S (2 ^ nvars c)) as K.
    induction K as [|K IH]; [apply sub_true|].
    eapply sub_trans; [exact H|]. apply stepX_mono; auto; [now apply pre_iterX|apply tsub_refl].
  Qed.

  Lemma nuX_mono live live' a : any live -> any live' -> any a -> tsub live live' ->
    sub (nuX live a) (nuX live' a).
  Proof.
    intros Hl Hl' Ha H. apply nuX_greatest; auto.
    rewrite <- (nuX_fix live a Hl Ha) at 1. apply stepX_mono; auto. apply sub_refl.
  Qed.

  (** ** Middle least fixed point *)
  Definition liveOf (z g y : BF) : BF := bor (band g (swapPrePost c z)) (swapPrePost c y).

  Lemma any_liveOf z g y : any z -> any g -> any y -> any (liveOf z g y).
  Proof. intros. unfold liveOf. auto. Qed.
  Hint Resolve any_liveOf : core.

  Lemma liveOf_spec z g y s t : pre z -> pre y ->
    trans (liveOf z g y) s t = true <->
    (trans g s t = true /\ pos z t = true) \/ pos y t = true.
  Proof.
    intros Hz Hy. unfold liveOf. autorewrite with sem. rewrite !trans_swap_pos by auto.
    rewrite orb_true_iff, andb_true_iff. tauto.
  Qed.

  Lemma liveOf_mono z z' g y y' : pre z -> pre z' -> pre y -> pre y' -> sub z z' -> sub y y' ->
    tsub (liveOf z g y) (liveOf z' g y').
  Proof.
    intros ? ? ? ? Hz Hy s t. rewrite !liveOf_spec by auto. intros [[Hl1 Hl2]|Hl]; auto.
  Qed.

  Definition orNuX (live : BF) (asms : list BF) (good : BF) : BF :=
    fold_left (fun acc a => bor acc (nuX live a)) asms good.

  Lemma orNuX_spec live asms : forall good s,
    pos (orNuX live asms good) s = true <->
    pos good s = true \/ exists a, In a asms /\ pos (nuX live a) s = true.
  Proof.
    induction asms as [|a asms IH]; intros good s; cbn.
    - split; [auto|]. now intros [H|(a & [] & _)].
    - unfold orNuX in IH |- *. cbn [fold_left]. rewrite IH, pos_or, orb_true_iff. split.
      + intros [[H|H]|(b & Hb & H)]; eauto.
      + intros [H|(b & [<-|Hb] & H)]; eauto.
  Qed.

  Lemma pre_orNuX live asms : forall good, any live -> Forall any asms -> pre good ->
    pre (orNuX live asms good).
  Proof.
    induction asms as [|a asms IH]; intros good Hl Ha Hg; cbn; auto.
    inversion Ha; subst. apply IH; auto.
  Qed.

  Definition stepY (z g y : BF) : BF := orNuX (liveOf z g y) (livenessAssumptions c) y.

  Lemma any_asm a : In a (livenessAssumptions c) -> any a.
  Proof. intros H. rewrite Forall_forall in HA. auto. Qed.
  Lemma any_gua g : In g (livenessGuarantees c) -> any g.
  Proof. intros H. rewrite Forall_forall in HG. auto. Qed.

  Lemma pre_stepY z g y : pre z -> any g -> pre y -> pre (stepY z g y).
  Proof. intros. apply pre_orNuX; auto. Qed.
  Hint Resolve pre_stepY : core.

  Lemma stepY_spec z g y s :
    pos (stepY z g y) s = true <->
    pos y s = true \/ exists a, In a (livenessAssumptions c) /\ pos (nuX (liveOf z g y) a) s = true.
  Proof. apply orNuX_spec. Qed.

  Lemma stepY_inc z g y : sub y (stepY z g y).
  Proof. intros s H. apply stepY_spec. auto. Qed.

  Lemma stepY_mono z z' g y y' : pre z -> pre z' -> any g -> pre y -> pre y' -> sub z z' -> sub y y' ->
    sub (stepY z g y) (stepY z' g y').
  Proof.
    intros Hz Hz' Hg Hy Hy' H1 H2 s. rewrite !stepY_spec. intros [H|(a & Ha & H)]; auto.
    right. exists a. split; auto. revert H. apply nuX_mono; auto using any_asm.
    apply liveOf_mono; auto.
  Qed.

  Definition iterY (z g : BF) (m : nat) : BF := Nat.iter m (stepY z g) bfalse.
  Lemma pre_iterY z g m : pre z -> any g -> pre (iterY z g m).
  Proof. intros. induction m; cbn; auto. Qed.
  Hint Resolve pre_iterY : core.

  Definition isMuY (z g y : BF) : Prop := stepY z g y = y /\ exists m, y = iterY z g m.

  Lemma iterY_least z g y m : pre z -> any g -> pre y -> sub (stepY z g y) y -> sub (iterY z g m) y.
  Proof.
    intros Hz Hg Hy H. induction m as [|m IH]; [apply sub_false|].
    eapply sub_trans; [|exact H].
    apply (stepY_mono z z g (iterY z g m) y); auto using sub_refl.
  Qed.

  Lemma isMuY_pre z g y : pre z -> any g -> isMuY z g y -> pre y.
  Proof. intros Hz Hg (_ & m & ->). auto. Qed.

  Lemma isMuY_least z g y v : pre z -> any g -> isMuY z g y -> pre v -> sub (stepY z g v) v -> sub y v.
  Proof. intros Hz Hg (_ & m & ->) Hv H. apply iterY_least; auto. Qed.

  Lemma isMuY_unique z g y y' : pre z -> any g -> isMuY z g y -> isMuY z g y' -> y = y'.
  Proof.
    intros Hz Hg H H'. pose proof (isMuY_pre _ _ _ Hz Hg H). pose proof (isMuY_pre _ _ _ Hz Hg H').
    apply (sub_antisym c); auto.
    - apply (isMuY_least z g y y'); auto. rewrite (proj1 H'). apply sub_refl.
    - apply (isMuY_least z g y' y); auto. rewrite (proj1 H). apply sub_refl.
  Qed.

  (** *** The recorded transition sets *)

  Definition covBF (L : list (BF * BF)) (s : state) : Prop :=
    exists F A, In (F, A) L /\ pos (cox F) s = true.

  (** The sets recorded for the goal [g] (with [z] the outer value) are well
      ranked and cover [y]. *)
  Definition goodEnt (z g : BF) (L : list (BF * BF)) (y : BF) : Prop :=
    (forall p F A q, L = p ++ (F, A) :: q -> forall s t, trans F s t = true ->
       trans (safetySys c) s t = true /\
       ((trans g s t = true /\ pos z t = true) \/
        (covBF p t /\ pos y t = true) \/
        (trans A s t = false /\ covBF (p ++ [(F, A)]) t /\ pos y t = true))) /\
    (forall s, pos y s = true -> covBF L s) /\
    (forall F A, In (F, A) L -> In A (livenessAssumptions c) /\ any F).

  Lemma covBF_incl L L' s : incl L L' -> covBF L s -> covBF L' s.
  Proof. intros H (F & A & HF & Hp). exists F, A. auto. Qed.

  Lemma cox_cov L F A s : pos (cox F) s = true -> In (F, A) L -> covBF L s.
  Proof. intros. now exists F, A. Qed.

  Lemma goodEnt_weaken z g L y y' : sub y y' -> goodEnt z g L y ->
    (forall s, pos y' s = true -> covBF L s) -> goodEnt z g L y'.
  Proof.
    intros Hs (H1 & H2 & H3) H4. repeat split; auto.
    - destruct (H1 p F A q H s t H0) as [E _]. exact E.
    - destruct (H1 p F A q H s t H0) as [_ [E|[[E1 E2]|(E1 & E2 & E3)]]]; auto 6.
    - apply (H3 F A). auto.
    - apply (H3 F A). auto.
  Qed.

  (** Adding one set. *)
  Lemma goodEnt_add z g L y F A x : goodEnt z g L y -> any F -> In A (livenessAssumptions c) ->
    (forall s, pos x s = true -> pos (cox F) s = true) ->
    (forall s t, trans F s t = true -> trans (safetySys c) s t = true /\
        ((trans g s t = true /\ pos z t = true) \/ pos y t = true \/
         (pos x t = true /\ trans A s t = false))) ->
    goodEnt z g (L ++ [(F, A)]) (bor y x).
  Proof.
    intros (H1 & H2 & H3) HF HAi Hx HT.
    assert (C : forall s, pos (bor y x) s = true -> covBF (L ++ [(F, A)]) s).
    { intros s. rewrite pos_or, orb_true_iff. intros [H|H].
      - eapply covBF_incl; [|apply H2; exact H]. apply incl_appl, incl_refl.
      - apply (cox_cov _ F A); auto. apply in_or_app. right. now left. }
    split; [|split]; auto.
    - intros p F' A' q E s t Ht.
      destruct (list_eq_dec (fun a b => match bf_eq_dec (fst a) (fst b), bf_eq_dec (snd a) (snd b) with
                   | left e1, left e2 => left (ltac:(destruct a, b; cbn in *; congruence) : a = b)
                   | right n, _ => right (fun e => n (f_equal fst e))
                   | _, right n => right (fun e => n (f_equal snd e)) end) q []) as [->|Hq].
      + apply app_inj_tail in E. destruct E as [<- E]. injection E as <- <-.
        destruct (HT s t Ht) as [E1 [E2|[E2|[E2 E3]]]]; split; auto.
        * right. left. split; auto. rewrite pos_or, E2. reflexivity.
        * right. right. rewrite pos_or, E2, orb_true_r. repeat split; auto.
          apply C. rewrite pos_or, E2. apply orb_true_r.
      + destruct (exists_last Hq) as (q' & e & ->).
        rewrite app_comm_cons, app_assoc in E. apply app_inj_tail in E. destruct E as [E _].
        destruct (H1 p F' A' q' E s t Ht) as [E1 [E2|[[E2 E3]|(E2 & E3 & E4)]]]; split; auto.
        * right. left. split; auto. rewrite pos_or, E3. reflexivity.
        * right. right. repeat split; auto. rewrite pos_or, E4. reflexivity.
    - intros F' A' Hin. apply in_app_iff in Hin. destruct Hin as [Hin|[E|[]]].
      + apply (H3 F' A' Hin).
      + injection E as <- <-. auto.
  Qed.

  Lemma ent_asms z g mu1 asms : pre z -> any g -> pre mu1 -> incl asms (livenessAssumptions c) ->
    forall good L, sub mu1 good -> goodEnt z g L good ->
    exists L', goodEnt z g (L ++ L') (orNuX (liveOf z g mu1) asms good).
  Proof.
    intros Hz Hg Hm. induction asms as [|a asms IH]; intros Hi good L Hs HL.
    - exists []. rewrite app_nil_r. exact HL.
    - assert (Ha : In a (livenessAssumptions c)) by (apply Hi; now left).
      pose proof (any_asm a Ha) as Aa.
      assert (Al : any (liveOf z g mu1)) by auto.
      pose proof (nuX_fix (liveOf z g mu1) a Al Aa) as Efix.
      set (x := nuX (liveOf z g mu1) a) in *.
      assert (Px : pre x) by (apply pre_nuX; auto).
      set (F := pathsX c (liveOf z g mu1) a x).
      destruct (IH ltac:(intros b Hb; apply Hi; now right) (bor good x) (L ++ [(F, a)])) as (L' & HL').
      + eapply sub_trans; [exact Hs|apply sub_or_l].
      + apply goodEnt_add; auto.
        * apply dep_pathsX; auto.
        * intros s H. unfold F. fold (stepX (liveOf z g mu1) a x). now rewrite Efix.
        * intros s t. unfold F. rewrite pathsX_spec, liveOf_spec by auto.
          intros [[[H|H]|[H H']] Hsafe]; split; auto.
      + exists ((F, a) :: L'). unfold orNuX. cbn [fold_left]. rewrite <- app_assoc in HL'. exact HL'.
  Qed.

  Lemma iterY_good z g m : pre z -> any g -> exists L, goodEnt z g L (iterY z g m).
  Proof.
    intros Hz Hg. induction m as [|m (L & HL)].
    - exists []. split; [|split].
      + intros [|] ? ? ? E; discriminate.
      + intros s. now rewrite pos_false.
      + now intros F A [].
    - destruct (ent_asms z g (iterY z g m) (livenessAssumptions c) Hz Hg (pre_iterY z g m Hz Hg) (incl_refl _)
        (iterY z g m) L (sub_refl _) HL) as (L' & HL'). exists (L ++ L'). exact HL'.
  Qed.

  Lemma iterY_inc z g m : pre z -> any g -> sub (iterY z g m) (iterY z g (S m)).
  Proof. intros Hz Hg. apply stepY_inc. Qed.

  (** Increasing iterations are stable after 2^n+1 rounds. *)
  Lemma iter_stable_inc (F : BF -> BF) v0 :
    pre v0 -> (forall v, pre v -> pre (F v)) ->
    (forall m, sub (Nat.iter m F v0) (Nat.iter (S m) F v0)) ->
    F (Nat.iter (S (2 ^ nvars c)) F v0) = Nat.iter (S (2 ^ nvars c)) F v0.
  Proof.
    intros D0 DF Hd.
    assert (Dm : forall m, pre (Nat.iter m F v0)) by (induction m; cbn; auto).
    assert (G : forall m, F (Nat.iter m F v0) = Nat.iter m F v0 \/ m <= card c (Nat.iter m F v0)).
    { induction m as [|m IH].
      - right. lia.
      - cbn [Nat.iter nat_rect]. destruct IH as [IH|IH].
        + left. unfold Nat.iter in IH. now rewrite !IH.
        + destruct (bf_eq_dec (F (Nat.iter m F v0)) (Nat.iter m F v0)) as [E|N].
          * left. unfold Nat.iter in E. now rewrite !E.
          * right. assert (card c (Nat.iter m F v0) < card c (Nat.iter (S m) F v0)).
            { apply card_lt; [exact Hk|apply Dm|apply (Dm (S m))|exact (Hd m)|intros E; apply N; symmetry; exact E]. }
            change (Nat.iter (S m) F v0) with (F (Nat.iter m F v0)) in *. unfold Nat.iter in *. cbn [nat_rect]. lia. }
    destruct (G (S (2 ^ nvars c))) as [H|H]; auto. pose proof (card_bound c (Nat.iter (S (2 ^ nvars c)) F v0)). lia.
  Qed.

  (** The middle fixed point as a function. *)
  Definition muY (z g : BF) : BF := iterY z g (S (2 ^ nvars c)).
  Arguments muY : simpl never.

  Lemma muY_spec z g : pre z -> any g -> isMuY z g (muY z g).
  Proof.
    intros Hz Hg. split; [|now exists (S (2 ^ nvars c))].
    apply (iter_stable_inc (stepY z g) bfalse); auto. intros m. now apply iterY_inc.
  Qed.
  Lemma pre_muY z g : pre z -> any g -> pre (muY z g).
  Proof. intros. eapply isMuY_pre; eauto. now apply muY_spec. Qed.
  Hint Resolve pre_muY : core.
  Lemma muY_fix z g : pre z -> any g -> stepY z g (muY z g) = muY z g.
  Proof. intros. now apply muY_spec. Qed.
  Lemma muY_least z g v : pre z -> any g -> pre v -> sub (stepY z g v) v -> sub (muY z g) v.
  Proof. intros Hz Hg Hv H. apply (isMuY_least z g); auto. now apply muY_spec. Qed.
  Lemma muY_mono z z' g : pre z -> pre z' -> any g -> sub z z' -> sub (muY z g) (muY z' g).
  Proof.
    intros Hz Hz' Hg H. apply muY_least; auto.
    rewrite <- (muY_fix z' g) at 2 by auto. apply stepY_mono; auto using sub_refl.
  Qed.

  (** ** Outer greatest fixed point *)
  Definition stepZ (z : BF) : BF :=
    fold_left (fun acc g => band acc (muY z g)) (livenessGuarantees c) btrue.

  Lemma fold_band_spec z gs : forall acc s,
    pos (fold_left (fun acc g => band acc (muY z g)) gs acc) s = true <->
    pos acc s = true /\ forall g, In g gs -> pos (muY z g) s = true.
  Proof.
    induction gs as [|g gs IH]; intros acc s; cbn [fold_left].
    - split; [intros H; split; auto; now intros g []|tauto].
    - rewrite IH, pos_and, andb_true_iff. split.
      + intros [[H1 H2] H3]. split; auto. intros g' [<-|H]; auto.
      + intros [H1 H2]. repeat split; auto; intros; apply H2; [now left|now right].
  Qed.

  Lemma pre_fold_band z gs : pre z -> Forall any gs -> forall acc, pre acc ->
    pre (fold_left (fun acc g => band acc (muY z g)) gs acc).
  Proof.
    intros Hz Hg. induction Hg as [|g gs Hg Hgs IH]; intros acc Ha; cbn [fold_left]; auto.
  Qed.

  Lemma pre_stepZ z : pre z -> pre (stepZ z).
  Proof. intros. apply pre_fold_band; auto. Qed.
  Hint Resolve pre_stepZ : core.

  Lemma stepZ_spec z s : pos (stepZ z) s = true <->
    forall g, In g (livenessGuarantees c) -> pos (muY z g) s = true.
  Proof. unfold stepZ. rewrite fold_band_spec. rewrite pos_true. tauto. Qed.

  Lemma stepZ_mono z z' : pre z -> pre z' -> sub z z' -> sub (stepZ z) (stepZ z').
  Proof.
    intros Hz Hz' H s. rewrite !stepZ_spec. intros Hs g Hg. specialize (Hs g Hg). revert Hs.
    apply muY_mono; auto. now apply any_gua.
  Qed.

  Definition iterZ (m : nat) : BF := Nat.iter m stepZ btrue.
  Lemma pre_iterZ m : pre (iterZ m).
  Proof. induction m; cbn; auto. Qed.
  Hint Resolve pre_iterZ : core.
  Lemma iterZ_dec m : sub (iterZ (S m)) (iterZ m).
  Proof. induction m as [|m IH]; [apply sub_true|]. apply stepZ_mono; auto. Qed.

  Definition nuZ : BF := iterZ (S (2 ^ nvars c)).
  Arguments nuZ : simpl never.
  Lemma pre_nuZ : pre nuZ.
  Proof. apply pre_iterZ. Qed.
  Hint Resolve pre_nuZ : core.
  Lemma nuZ_fix : stepZ nuZ = nuZ.
  Proof. apply (iter_stable c Hk stepZ btrue); auto. intros m. apply iterZ_dec. Qed.

  (** At the outer fixed point all middle fixed points coincide with it. *)
  Lemma muY_eq g : In g (livenessGuarantees c) -> muY nuZ g = nuZ.
  Proof.
    intros Hg. pose proof nuZ_fix as Hfix. set (w := nuZ) in *. assert (Hw : pre w) by apply pre_nuZ.
    assert (Sub : forall g', In g' (livenessGuarantees c) -> sub w (muY w g')).
    { intros g' Hg' s Hs. rewrite <- Hfix in Hs. rewrite stepZ_spec in Hs. auto. }
    assert (Le : forall g', In g' (livenessGuarantees c) -> sub (muY w g) (muY w g')).
    { intros g' Hg'. pose proof (any_gua _ Hg). pose proof (any_gua _ Hg').
      apply muY_least; auto. intros s. rewrite stepY_spec. intros [H'|(a & Ha & H')]; auto.
      rewrite <- muY_fix by auto. apply stepY_spec. right. exists a. split; auto.
      revert H'. apply nuX_mono; auto using any_asm.
      intros s' t'. rewrite !liveOf_spec by auto. intros [[_ H']|H']; auto. right.
      now apply (Sub g' Hg'). }
    apply (sub_antisym c); auto.
    - apply pre_muY; auto. now apply any_gua.
    - intros s Hs. rewrite <- Hfix. apply stepZ_spec. intros g' Hg'. now apply Le.
  Qed.

  (** ** Soundness *)

  (** Transition sets with the additional condition. *)
  Definition den' (F : BF) : tset := fun s t => trans F s t && ok s t.
  Definition lift' (L : list (BF * BF)) : list (BF * tset) := map (fun e => (fst e, trans (snd e))) L.
  Definition ans' (F : BF) (s : state) : Prop := pos (cox F) s = true.

  Lemma lift_split' L : forall p F A q, lift' L = p ++ (F, A) :: q ->
    exists p' F' A' q', L = p' ++ (F', A') :: q' /\ lift' p' = p /\ F' = F /\ trans A' = A /\ lift' q' = q.
  Proof.
    induction L as [|[F0 A0] L IH]; intros [|[F1 A1] p] F A q E; try discriminate.
    - injection E as <- <- <-. exists [], F0, A0, L. auto.
    - injection E as <- <- E. destruct (IH p F A q E) as (p' & F' & A' & q' & -> & <- & H). exists ((F0, A0) :: p'), F', A', q'. auto.
  Qed.

  Lemma cov_lift L s : covBF L s -> CoreGame.cov BF ans' (map fst (lift' L)) s.
  Proof.
    intros (F & A & Hin & Hp). exists F. split; [|exact Hp].
    apply in_map_iff. exists (F, trans A). split; auto. apply in_map_iff. exists (F, A). auto.
  Qed.

  Lemma goodEnt_ranked g L w : goodEnt w g L w ->
    CoreGame.ranked sS (map trans (livenessAssumptions c)) BF den' ans' (fun s => pos w s = true) (trans g) (lift' L).
  Proof.
    intros (H1 & H2 & H3).
    split; [|split].
    - intros p F A q E s t Ht. destruct (lift_split' L p F A q E) as (p' & F' & A' & q' & EL & <- & <- & <- & <-).
      apply andb_true_iff in Ht. destruct Ht as [Ht Hok].
      destruct (H1 p' F' A' q' EL s t Ht) as [E1 [[E2 E3]|[[E2 E3]|(E2 & E3 & E4)]]]; (split; [unfold sS; now rewrite E1, Hok|]); split; auto.
      + right. left. apply cov_lift; auto.
      + right. right. split; auto.
        assert (EQ : lift' (p' ++ [(F', A')]) = lift' p' ++ [(F', trans A')])
          by (unfold lift'; now rewrite map_app).
        change (CoreGame.cov BF ans' (map fst (lift' p' ++ [(F', trans A')])) t). rewrite <- EQ. now apply cov_lift.
    - intros s Hs. apply cov_lift; auto.
    - intros F A Hin. unfold lift' in Hin. apply in_map_iff in Hin. destruct Hin as ([F' A'] & E & Hin).
      injection E as <- <-. destruct (H3 F' A' Hin) as [E1 E2]. now apply in_map.
  Qed.

  Lemma ents : exists L : nat -> list (BF * BF), forall j, j < length (livenessGuarantees c) ->
    goodEnt nuZ (nth j (livenessGuarantees c) btrue) (L j) nuZ.
  Proof.
    assert (G : forall n, n <= length (livenessGuarantees c) -> exists L : nat -> list (BF * BF), forall j, j < n ->
       goodEnt nuZ (nth j (livenessGuarantees c) btrue) (L j) nuZ).
    { induction n as [|n IH]; intros Hn.
      - exists (fun _ => []). lia.
      - destruct IH as (L & HL); [lia|].
        assert (Hin : In (nth n (livenessGuarantees c) btrue) (livenessGuarantees c)) by (apply nth_In; lia).
        destruct (iterY_good nuZ (nth n (livenessGuarantees c) btrue) (S (2 ^ nvars c)) pre_nuZ (any_gua _ Hin)) as (Ln & HE).
        fold (muY nuZ (nth n (livenessGuarantees c) btrue)) in HE. rewrite (muY_eq _ Hin) in HE.
        exists (fun j => if Nat.eqb j n then Ln else L j). intros j Hj.
        destruct (Nat.eqb_spec j n) as [->|]; auto. apply HL. lia. }
    apply G. auto.
  Qed.

  Definition solR (F : BF) (s : state) : option (state -> state) := if pos (cox F) s then Some (reply F s) else None.

  (** One strategy wins from all positions of the fixed point. *)
  Lemma found : exists f : (state -> state) -> strategy,
    (forall start x, f start [] x = start x) /\
    forall start s, pos nuZ s = true -> forall mv, winsFrom (gplay Mv nxt (f start) s mv).
  Proof.
    destruct ents as (L & HL). exists (stratR BF (map trans (livenessGuarantees c)) (fun j => lift' (L j)) solR).
    split; [reflexivity|]. intros start s Hs.
    apply (stratR_wins Mv nxt sE sS _ _ BF den' ans' (fun s => pos nuZ s = true)); auto.
    - intros E. apply map_eq_nil in E. now apply HGne.
    - intros j Hj. rewrite map_length in Hj.
      assert (E : @nth tset j (map trans (livenessGuarantees c)) (fun _ _ => true) = trans (nth j (livenessGuarantees c) btrue)).
      { rewrite <- (map_nth trans). apply nth_indep. now rewrite map_length. }
      cbv beta. rewrite E. now apply goodEnt_ranked, HL.
    - intros j F A Hj Hin s'. rewrite map_length in Hj. unfold lift' in Hin. apply in_map_iff in Hin. destruct Hin as ([F' A'] & E & Hin).
      injection E as <- <-. destruct (HL j Hj) as (_ & _ & H3). destruct (H3 F' A' Hin) as [_ HF].
      unfold solR, ans', den'. destruct (pos (cox F') s') eqn:E; [|discriminate]. now apply Hreply.
  Qed.

  (** ** Completeness *)

  Lemma lost K s : pos (iterZ K) s = false ->
    forall f, exists mv, ~ winsFrom (gplay Mv nxt f s mv).
  Proof.
    intros Hs f.
    set (gj := fun j => nth j (livenessGuarantees c) btrue).
    set (ai := fun i => nth i (livenessAssumptions c) btrue).
    assert (Hgj : forall j, j < length (livenessGuarantees c) -> In (gj j) (livenessGuarantees c))
      by (intros; now apply nth_In).
    assert (Hai : forall j, j < length (livenessAssumptions c) -> In (ai j) (livenessAssumptions c))
      by (intros; now apply nth_In).
    set (lv := fun k j => liveOf (iterZ k) (gj j) (muY (iterZ k) (gj j))).
    assert (Alv : forall k j, j < length (livenessGuarantees c) -> any (lv k j)).
    { intros k j Hj. pose proof (any_gua _ (Hgj j Hj)). apply any_liveOf; auto. }
    eapply (CoreGame.spoil Mv nxt sE sS (map trans (livenessAssumptions c)) (map trans (livenessGuarantees c)) (length (livenessAssumptions c)) (length (livenessGuarantees c))
      (fun i => trans (ai i)) (fun j => trans (gj j)))
      with (Z := fun k s => pos (iterZ k) s)
           (Y := fun k j s => pos (muY (iterZ k) (gj j)) s)
           (X := fun k j i m s => pos (iterX (lv k j) (ai i) m) s)
           (M := fun _ _ _ => S (2 ^ nvars c))
           (pick := fun k j i m s rho => pick (pathsX c (lv k j) (ai i) (iterX (lv k j) (ai i) m)) s rho)
           (K := K); auto.
    - intros p Hp. apply in_map_iff in Hp. destruct Hp as (a & <- & Ha).
      destruct (In_nth _ _ btrue Ha) as (i & Hi & <-). exists i. auto.
    - intros j Hj. exists (trans (gj j)). split; auto. apply in_map. auto.
    - apply Nat.neq_0_lt_0. intros E. apply length_zero_iff_nil in E. auto.
    - intros k s' H.
      destruct (existsb (fun j => negb (pos (muY (iterZ k) (gj j)) s')) (seq 0 (length (livenessGuarantees c)))) eqn:E.
      + apply existsb_exists in E. destruct E as (j & Hj & E). apply in_seq in Hj.
        apply negb_true_iff in E. exists j. split; auto. lia.
      + exfalso. assert (pos (iterZ (S k)) s' = true); [|congruence].
        change (pos (stepZ (iterZ k)) s' = true). apply stepZ_spec. intros g Hg.
        destruct (In_nth _ _ btrue Hg) as (j & Hj & <-).
        destruct (pos (muY (iterZ k) (nth j (livenessGuarantees c) btrue)) s') eqn:E'; auto.
        assert (existsb (fun j => negb (pos (muY (iterZ k) (gj j)) s')) (seq 0 (length (livenessGuarantees c))) = true);
          [|congruence].
        apply existsb_exists. exists j. split; [apply in_seq; lia|]. unfold gj. now rewrite E'.
    - intros k j i s' Hj Hi H. fold (nuX (lv k j) (ai i)).
      destruct (pos (nuX (lv k j) (ai i)) s') eqn:E; auto.
      assert (pos (muY (iterZ k) (gj j)) s' = true); [|congruence].
      rewrite <- muY_fix by auto using any_gua. apply stepY_spec. right. exists (ai i). split; auto.
    - intros k j i m s' Hj Hi H rho t.
      assert (Px : pre (iterX (lv k j) (ai i) m)) by (apply pre_iterX; auto using any_asm).
      assert (AP : any (pathsX c (lv k j) (ai i) (iterX (lv k j) (ai i) m)))
        by (apply dep_pathsX; auto using any_asm).
      destruct (Hpick _ s' AP H rho) as [E1 E2]. fold t in E1, E2.
      split; [exact E1|]. intros Hsafe. unfold sS in Hsafe. apply andb_true_iff in Hsafe. destruct Hsafe as [Hsafe Hok].
      rewrite Hok, andb_true_r in E2. clearbody t.
      assert (Py : pre (muY (iterZ k) (gj j))) by (apply pre_muY; auto using any_gua).
      assert (NL : trans (lv k j) s' t = false).
      { destruct (trans (lv k j) s' t) eqn:E; auto.
        assert (trans (pathsX c (lv k j) (ai i) (iterX (lv k j) (ai i) m)) s' t = true); [|congruence].
        apply pathsX_spec; auto. }
      repeat split.
      + intros Hg. destruct (pos (iterZ k) t) eqn:E; auto.
        assert (trans (lv k j) s' t = true); [|congruence]. apply liveOf_spec; auto.
      + destruct (pos (muY (iterZ k) (gj j)) t) eqn:E; auto.
        assert (trans (lv k j) s' t = true); [|congruence]. apply liveOf_spec; auto.
      + destruct (trans (ai i) s' t) eqn:EA; auto. right.
        destruct (pos (iterX (lv k j) (ai i) m) t) eqn:E; auto.
        assert (trans (pathsX c (lv k j) (ai i) (iterX (lv k j) (ai i) m)) s' t = true); [|congruence].
        apply pathsX_spec; auto.
  Qed.
  (** ** The loops compute the fixed points *)

  Lemma nu0_same live a : any live -> any a -> nu0LoopC c cox live a = Some (nuX live a).
  Proof.
    intros Hl Ha. unfold nu0LoopC. 
    destruct (fp_dec c Hk (nu0BodyC c cox live a) (fun v _ => stepX live a v)
                (fun v _ => tt) (fun v _ => exists K, v = iterX live a K) btrue tt) as (v & d & (K & ->) & E & R & _).
    - now exists 0.
    - intros v d (K & ->). unfold nu0BodyC. cbn [fst].  repeat split.
      + apply (pre_iterX); auto.
      + apply (pre_stepX); auto. apply (pre_iterX); auto.
      + apply (iterX_dec); auto.
      + intros _. now exists (S K).
    - rewrite R. cbn [option_map fst]. f_equal. pose proof (nuX_fix live a Hl Ha) as F.
      unfold nuX, iterX in *. destruct (Nat.le_ge_cases K (S (2 ^ nvars c))) as [L|L].
      + symmetry. apply iter_fixed; auto.
      + apply iter_fixed; auto.
  Qed.

  Lemma asm_same live asms : any live -> incl asms (livenessAssumptions c) -> forall good,
    asmLoopC c cox live asms good = Some (orNuX live asms good).
  Proof.
    intros Hl. induction asms as [|a asms IH]; intros Hi good; cbn [asmLoopC]; auto.
    rewrite nu0_same; auto; [|apply (any_asm); apply Hi; now left].
    rewrite IH by (intros b Hb; apply Hi; now right). reflexivity.
  Qed.

  Lemma mu1_same z g : pre z -> any g -> mu1LoopC c cox (band g (swapPrePost c z)) = Some (muY z g).
  Proof.
    intros Hz Hg. unfold mu1LoopC.  set (base := band g (swapPrePost c z)).
    assert (Hbase : any base) by (unfold base; auto).
    set (Inv := fun (y live : BF) => (exists m, y = iterY z g m) /\ tsub base live /\ tsub live (bor base (swapPrePost c y))).
    assert (Hlive : forall y d, Inv y d -> bor d (swapPrePost c y) = liveOf z g y).
    { intros y d (_ & H1 & H2). apply trans_inj. intros s t. unfold liveOf. fold base.
      autorewrite with sem. specialize (H1 s t). specialize (H2 s t). autorewrite with sem in H2.
      destruct (trans d s t), (trans base s t), (trans (swapPrePost c y) s t); cbn in *; auto;
        try (specialize (H2 eq_refl); discriminate); try (specialize (H1 eq_refl); discriminate). }
    destruct (fp_inc c Hk (mu1BodyC c cox) (fun y _ => stepY z g y) (fun y _ => liveOf z g y) Inv bfalse base) as (y & d & HI & E & R & _).
    - split; [now exists 0|]. split; [apply tsub_refl|]. intros s t H. autorewrite with sem. now rewrite H.
    - intros y live HI. pose proof (Hlive _ _ HI) as HL. destruct HI as ((m & ->) & H1 & H2).
      assert (Py : pre (iterY z g m)) by now apply (pre_iterY).
      assert (PS : pre (stepY z g (iterY z g m))) by now apply (pre_stepY).
      assert (AL : any (liveOf z g (iterY z g m))) by (apply (any_liveOf); auto).
      split; [|split; [auto|split; [auto|split; [apply stepY_inc|]]]].
      + unfold mu1BodyC. cbn [fst snd]. rewrite HL.
        rewrite asm_same by (auto; apply incl_refl). reflexivity.
      + intros _. split; [now exists (S m)|]. split.
        * intros s t H. unfold liveOf. fold base. autorewrite with sem. now rewrite H.
        * intros s t. unfold liveOf. fold base. autorewrite with sem. rewrite !orb_true_iff.
          intros [H|H]; auto. right. rewrite (trans_swap_pos c Hk) in * by auto. now apply stepY_inc.
    - rewrite R. cbn [option_map fst]. f_equal. destruct HI as ((m & ->) & _).
      apply (isMuY_unique z g); auto.
      + split; eauto.
      + now apply (muY_spec).
  Qed.

  Lemma goal_same z gs : pre z -> incl gs (livenessGuarantees c) -> forall next,
    goalLoopC c cox z gs next = Some (fold_left (fun acc g => band acc (muY z g)) gs next).
  Proof.
    intros Hz. induction gs as [|g gs IH]; intros Hi next; cbn [goalLoopC]; auto.
    rewrite mu1_same; auto; [|apply (any_gua); apply Hi; now left].
    rewrite IH by (intros b Hb; apply Hi; now right). reflexivity.
  Qed.

  Lemma winning_same : winningC c cox = Some (nuZ).
  Proof.
    unfold winningC. 
    destruct (fp_dec c Hk (nu2BodyC c cox) (fun z _ => stepZ z) (fun z _ => tt)
      (fun z _ => exists K, z = iterZ K) btrue tt) as (w & d & (K & ->) & E & R & _).
    - now exists 0.
    - intros z d (K & ->). assert (P : pre (iterZ K)) by now apply (pre_iterZ).
      split; [|split; [auto|split; [apply (pre_stepZ); auto|split; [apply (iterZ_dec); auto|intros _; now exists (S K)]]]].
      unfold nu2BodyC. cbn [fst]. rewrite goal_same by (auto; apply incl_refl). reflexivity.
    - rewrite R. cbn [option_map fst]. f_equal. pose proof (nuZ_fix) as F.
      unfold nuZ, iterZ in *. destruct (Nat.le_ge_cases K (S (2 ^ nvars c))) as [L|L].
      + symmetry. apply iter_fixed; auto.
      + apply iter_fixed; auto.
  Qed.
End CORE.
