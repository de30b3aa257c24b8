(** * The fixed points of the cooperative synthesis algorithm *)

From Coq Require Import Arith List Bool Lia.
From Verif Require Import BDD Loop Spec VarTypes Synth Sem FixBase GameSound SynthProofs Explicit Coop.
Import ListNotations.

Section COOP.
  Variable c : ctx.
  Hypothesis Hwf : wf c.
  Let Hk := wf_kinds c Hwf.
  Let HSe := wf_safetyEnv c Hwf.
  Let HSs := wf_safetySys c Hwf.
  Local Notation pre := (dep (isPreV c)).
  Local Notation any := (dep (isAnyV c)).
  Local Notation N := (nvars c).

  Local Lemma pre_any' f : pre f -> any f.
  Proof. apply isPre_isAny. Qed.
  Local Lemma any_swap' f : any f -> any (swapPrePost c f).
  Proof. now apply dep_swapPrePost. Qed.
  Local Lemma any_Se : any (safetyEnv c).
  Proof. apply dep_weaken with (2 := HSe). now intros v [Hv _]. Qed.
  Hint Resolve pre_any' any_swap' any_Se HSs dep_true dep_false dep_and dep_or dep_not dep_imp : core.

  (** ** Existential quantification of the next position *)
  Lemma e_split' f e : eval f e = trans f (fun k => e (2 * k)) (fun k => e (2 * k + 1)).
  Proof. apply eval_ext. intros x. destruct (even_cases x) as [[k ->]|[k ->]]; now rewrite ?tv_even, ?tv_odd. Qed.

  Lemma exPost f s t : any f ->
    trans (bexists (varCubePost c) f) s t = true <-> exists u, trans f s u = true.
  Proof.
    intros Hf. unfold trans at 1. rewrite eval_exists. split.
    - intros (e & Ha & He). rewrite e_split' in He. exists (fun k => e (2 * k + 1)). rewrite <- He.
      apply (trans_ext c Hk); auto. intros k Hk'. rewrite <- Ha; [now rewrite tv_even|].
      intros Hin. apply (in_cubePost c Hk) in Hin. destruct Hin as (m & E & _). lia.
    - intros (u & H). exists (tv s (fun k => if k <? N then u k else t k)). split.
      + intros v Hv. destruct (even_cases v) as [[k ->]|[k ->]]; rewrite ?tv_even, ?tv_odd; auto.
        destruct (Nat.ltb_spec k N) as [L|L]; auto. elim Hv. apply (in_cubePost c Hk). eauto.
      + rewrite <- H. apply (trans_ext c Hk); auto. intros k Hk'. now apply Nat.ltb_lt in Hk' as ->.
  Qed.

  Lemma exPost_pos f s : any f -> pos (bexists (varCubePost c) f) s = true <-> exists u, trans f s u = true.
  Proof. intros Hf. exact (exPost f s s Hf). Qed.

  Lemma pre_exPost f : any f -> pre (bexists (varCubePost c) f).
  Proof.
    intros D. eapply dep_exists; [exact D|]. intros v Hv Hn. split; [exact Hv|].
    destruct (even_cases v) as [[k ->]|[k ->]]; [apply even_double|exfalso]. apply Hn.
    apply (in_cubePost c Hk). exists k. split; auto. unfold isAnyV in Hv. rewrite nvars_spec in Hv by auto. lia.
  Qed.
  Hint Resolve pre_exPost : core.

  (** Positions in which the environment is not stuck. *)
  Definition free (s : state) : Prop := exists t, trans (safetyEnv c) s t = true.

  Lemma any_nonDead : any (nonDead c).
  Proof. unfold nonDead. auto. Qed.
  Hint Resolve any_nonDead : core.

  Lemma nonDead_spec s t : trans (nonDead c) s t = true <-> trans (safetySys c) s t = true /\ free t.
  Proof.
    unfold nonDead. rewrite trans_and, andb_true_iff, trans_swap_pos, exPost_pos by auto. reflexivity.
  Qed.

  (** ** The cooperation fixed point *)
  Lemma any_pathsC live a x m : any live -> any a -> pre x -> pre m -> any (pathsC c live a x m).
  Proof. intros. unfold pathsC. auto 8. Qed.
  Hint Resolve any_pathsC : core.

  Lemma pathsC_spec live a x m s t : pre x -> pre m ->
    trans (pathsC c live a x m) s t = true <->
    (trans live s t = true \/ (pos x t = true /\ pos m t = true /\ trans a s t = false)) /\
    trans (safetySys c) s t = true /\ free t /\ trans (safetyEnv c) s t = true.
  Proof.
    intros Dx Dm. unfold pathsC. rewrite trans_and, trans_or, trans_and, trans_not, trans_and.
    rewrite trans_swap_pos, pos_and by auto.
    rewrite !andb_true_iff, orb_true_iff, !andb_true_iff, negb_true_iff, nonDead_spec. tauto.
  Qed.

  Lemma pathsC_mono live live' a x x' m m' : pre x -> pre x' -> pre m -> pre m' ->
    tsub live live' -> sub x x' -> sub m m' -> tsub (pathsC c live a x m) (pathsC c live' a x' m').
  Proof.
    intros ? ? ? ? H1 H2 H3 s t. rewrite !pathsC_spec by auto. intros [[P1|(P1 & P2 & P3)] P4]; split; auto.
  Qed.

  Definition stepC (live a x m : BF) : BF :=
    bexists (varCubePost c) (band (safetyEnv c) (pathsC c live a x m)).

  Lemma stepC_spec live a x m s : any live -> any a -> pre x -> pre m ->
    pos (stepC live a x m) s = true <-> exists t, trans (pathsC c live a x m) s t = true.
  Proof.
    intros. unfold stepC. rewrite exPost_pos by auto. split; intros (t & Ht); exists t.
    - rewrite trans_and, andb_true_iff in Ht. apply Ht.
    - rewrite trans_and, Ht. apply pathsC_spec in Ht; auto. destruct Ht as (_ & _ & _ & ->). reflexivity.
  Qed.

  Lemma pre_stepC live a x m : any live -> any a -> pre x -> pre m -> pre (stepC live a x m).
  Proof. intros. unfold stepC. auto. Qed.
  Hint Resolve pre_stepC : core.

  Lemma stepC_mono live live' a x x' m m' : any live -> any live' -> any a -> pre x -> pre x' -> pre m -> pre m' ->
    tsub live live' -> sub x x' -> sub m m' -> sub (stepC live a x m) (stepC live' a x' m').
  Proof.
    intros ? ? ? ? ? ? ? H1 H2 H3 s. rewrite !stepC_spec by auto. intros (t & Ht). exists t. revert Ht.
    now apply pathsC_mono.
  Qed.

  Definition iterC (live a x : BF) (k : nat) : BF := Nat.iter k (stepC live a x) bfalse.

  Lemma pre_iterC live a x k : any live -> any a -> pre x -> pre (iterC live a x k).
  Proof. intros. induction k; cbn; auto. Qed.
  Hint Resolve pre_iterC : core.

  Lemma iterC_inc live a x k : any live -> any a -> pre x -> sub (iterC live a x k) (iterC live a x (S k)).
  Proof.
    intros. induction k as [|k IH]; [apply sub_false|].
    apply (stepC_mono live live a x x (iterC live a x k) (iterC live a x (S k))); auto using tsub_refl, sub_refl.
  Qed.

  Lemma iterC_least live a x m k : any live -> any a -> pre x -> pre m -> sub (stepC live a x m) m ->
    sub (iterC live a x k) m.
  Proof.
    intros Hl Ha Hx Hm H. induction k as [|k IH]; [apply sub_false|].
    eapply sub_trans; [|exact H].
    apply (stepC_mono live live a x x (iterC live a x k) m); auto using tsub_refl, sub_refl.
  Qed.

  Definition muC (live a x : BF) : BF :=
    match muCoopLoop c live a x btrue with Some (m, _) => m | None => bfalse end.
  Definition foundC (live a x : BF) : BF := pathsC c live a x (muC live a x).
  Definition progressOf (live a x : BF) (k : nat) : list BF :=
    live :: map (fun k => pathsC c live a x (iterC live a x k)) (seq 0 k).

  Lemma muCoopLoop_gen live a x f0 : any live -> any a -> pre x ->
    exists K, muCoopLoop c live a x f0 =
        Some (iterC live a x K, (pathsC c live a x (iterC live a x K), progressOf live a x (S K))) /\
      stepC live a x (iterC live a x K) = iterC live a x K.
  Proof.
    intros Hl Ha Hx. unfold muCoopLoop.
    destruct (fp_inc c Hk (muCoopBody c live a x) (fun v _ => stepC live a x v)
                (fun v d => (pathsC c live a x v, snd d ++ [pathsC c live a x v]))
                (fun v d => exists k, v = iterC live a x k /\ snd d = progressOf live a x k)
                bfalse (f0, [live])) as (v & d & (K & -> & Ed) & E & R & _).
    - now exists 0.
    - intros v [d1 d2] (k & -> & Ed). cbn [snd] in Ed. split; [reflexivity|]. split; [auto|].
      split; [auto|]. split; [apply iterC_inc; auto|]. intros _. exists (S k). split; [reflexivity|].
      cbn [snd]. rewrite Ed. unfold progressOf. rewrite seq_S, map_app. reflexivity.
    - exists K. rewrite R, Ed. split; [|exact E]. unfold progressOf. rewrite (seq_S K), map_app. reflexivity.
  Qed.

  Lemma muC_spec live a x : any live -> any a -> pre x ->
    pre (muC live a x) /\ stepC live a x (muC live a x) = muC live a x /\
    forall k, sub (iterC live a x k) (muC live a x).
  Proof.
    intros Hl Ha Hx. unfold muC. destruct (muCoopLoop_gen live a x btrue Hl Ha Hx) as (K & -> & E).
    split; [auto|]. split; [exact E|]. intros k. apply iterC_least; auto. rewrite E. apply sub_refl.
  Qed.

  Lemma pre_muC live a x : any live -> any a -> pre x -> pre (muC live a x).
  Proof. intros. now apply muC_spec. Qed.
  Hint Resolve pre_muC : core.
  Lemma any_foundC live a x : any live -> any a -> pre x -> any (foundC live a x).
  Proof. intros. unfold foundC. auto. Qed.
  Hint Resolve any_foundC : core.

  Lemma muC_least live a x m : any live -> any a -> pre x -> pre m -> sub (stepC live a x m) m ->
    sub (muC live a x) m.
  Proof.
    intros Hl Ha Hx Hm H. unfold muC. destruct (muCoopLoop_gen live a x btrue Hl Ha Hx) as (K & -> & _).
    now apply iterC_least.
  Qed.

  Lemma muC_mono live live' a x x' : any live -> any live' -> any a -> pre x -> pre x' ->
    tsub live live' -> sub x x' -> sub (muC live a x) (muC live' a x').
  Proof.
    intros Hl Hl' Ha Hx Hx' H1 H2. apply muC_least; auto.
    destruct (muC_spec live' a x' Hl' Ha Hx') as (_ & E & _). rewrite <- E at 2.
    apply stepC_mono; auto. apply sub_refl.
  Qed.

  Lemma foundC_mono live live' a x x' : any live -> any live' -> any a -> pre x -> pre x' ->
    tsub live live' -> sub x x' -> tsub (foundC live a x) (foundC live' a x').
  Proof.
    intros Hl Hl' Ha Hx Hx' H1 H2. apply pathsC_mono; auto. now apply muC_mono.
  Qed.

  Lemma foundC_spec live a x s t : any live -> any a -> pre x ->
    trans (foundC live a x) s t = true <->
    (trans live s t = true \/ (pos x t = true /\ pos (muC live a x) t = true /\ trans a s t = false)) /\
    trans (safetySys c) s t = true /\ free t /\ trans (safetyEnv c) s t = true.
  Proof. intros. apply pathsC_spec; auto. Qed.

  (** The sets of transitions that are recorded. *)
  Definition isProgress (live a x : BF) (P : list BF) : Prop :=
    exists K, P = progressOf live a x (S K) /\ iterC live a x K = muC live a x.

  Lemma muCoopLoop_spec live a x f0 : any live -> any a -> pre x ->
    exists P, muCoopLoop c live a x f0 = Some (muC live a x, (foundC live a x, P)) /\ isProgress live a x P.
  Proof.
    intros Hl Ha Hx. destruct (muCoopLoop_gen live a x f0 Hl Ha Hx) as (K & E & F).
    assert (EM : iterC live a x K = muC live a x).
    { apply (sub_antisym c); auto.
      - now apply muC_spec.
      - apply muC_least; auto. rewrite F. apply sub_refl. }
    exists (progressOf live a x (S K)). split; [|now exists K].
    rewrite E. unfold foundC. now rewrite EM.
  Qed.

  (** ** Inner greatest fixed point *)
  Definition stepXC (live a x : BF) : BF := cox c (foundC live a x).

  Lemma pre_stepXC live a x : any live -> any a -> pre x -> pre (stepXC live a x).
  Proof. intros. apply dep_cox; auto. Qed.
  Hint Resolve pre_stepXC : core.

  Lemma stepXC_mono live live' a x x' : any live -> any live' -> any a -> pre x -> pre x' ->
    tsub live live' -> sub x x' -> sub (stepXC live a x) (stepXC live' a x').
  Proof. intros. apply cox_mono; auto. now apply foundC_mono. Qed.

  Definition iterXC (live a : BF) (m : nat) : BF := Nat.iter m (stepXC live a) btrue.

  Lemma pre_iterXC live a m : any live -> any a -> pre (iterXC live a m).
  Proof. intros. induction m; cbn; auto. Qed.
  Hint Resolve pre_iterXC : core.

  Lemma iterXC_dec live a m : any live -> any a -> sub (iterXC live a (S m)) (iterXC live a m).
  Proof.
    intros Hl Ha. induction m as [|m IH]; [apply sub_true|].
    apply (stepXC_mono live live a (iterXC live a (S m)) (iterXC live a m)); auto using tsub_refl.
  Qed.

  Definition nuXC (live a : BF) : BF :=
    match nu0LoopC c live a with Some (x, _) => x | None => btrue end.

  Lemma nu0LoopC_spec live a : any live -> any a -> exists P,
    nu0LoopC c live a = Some (nuXC live a, (foundC live a (nuXC live a), P)) /\
    isProgress live a (nuXC live a) P /\
    stepXC live a (nuXC live a) = nuXC live a /\ exists K, nuXC live a = iterXC live a K.
  Proof.
    intros Hl Ha. unfold nuXC, nu0LoopC.
    destruct (fp_dec c Hk (nu0BodyC c live a) (fun v _ => stepXC live a v)
                (fun v d => match muCoopLoop c live a v (fst d) with Some (_, e) => e | None => d end)
                (fun v _ => exists K, v = iterXC live a K) btrue (btrue, [])) as (v & d & (K & ->) & E & R & _).
    - now exists 0.
    - intros v [f0 p0] (K & ->). assert (Px : pre (iterXC live a K)) by auto.
      destruct (muCoopLoop_spec live a (iterXC live a K) f0 Hl Ha Px) as (P & EP & _).
      split; [|split; [auto|split; [auto|split; [apply iterXC_dec; auto|intros _; now exists (S K)]]]].
      unfold nu0BodyC. cbn [fst]. rewrite EP. reflexivity.
    - destruct (muCoopLoop_spec live a (iterXC live a K) (fst d) Hl Ha (pre_iterXC _ _ _ Hl Ha)) as (P & EP & HP).
      rewrite EP in R. rewrite R. exists P. split; [reflexivity|]. split; [exact HP|]. split; eauto.
  Qed.

  Lemma nuXC_props live a : any live -> any a ->
    stepXC live a (nuXC live a) = nuXC live a /\ exists K, nuXC live a = iterXC live a K.
  Proof. intros Hl Ha. destruct (nu0LoopC_spec live a Hl Ha) as (P & _ & _ & H). exact H. Qed.

  Lemma pre_nuXC live a : any live -> any a -> pre (nuXC live a).
  Proof. intros Hl Ha. destruct (nuXC_props live a Hl Ha) as (_ & K & ->). auto. Qed.
  Hint Resolve pre_nuXC : core.

  Lemma nuXC_fix live a : any live -> any a -> stepXC live a (nuXC live a) = nuXC live a.
  Proof. intros Hl Ha. now apply nuXC_props. Qed.

  Lemma nuXC_greatest live a v : any live -> any a -> pre v ->
    sub v (stepXC live a v) -> sub v (nuXC live a).
  Proof.
    intros Hl Ha Hv H. destruct (nuXC_props live a Hl Ha) as (_ & K & ->).
    induction K as [|K IH]; [apply sub_true|].
    eapply sub_trans; [exact H|]. apply stepXC_mono; auto; [now apply pre_iterXC|apply tsub_refl].
  Qed.

  Lemma nuXC_mono live live' a : any live -> any live' -> any a -> tsub live live' ->
    sub (nuXC live a) (nuXC live' a).
  Proof.
    intros Hl Hl' Ha H. apply nuXC_greatest; auto.
    rewrite <- (nuXC_fix live a Hl Ha) at 1. apply stepXC_mono; auto. apply sub_refl.
  Qed.

  (** ** Middle least fixed point *)
  Local Notation liveOf := (liveOf c).
  Local Lemma any_liveOf' z g y : any z -> any g -> any y -> any (liveOf z g y).
  Proof. intros. unfold SynthProofs.liveOf. auto. Qed.
  Hint Resolve any_liveOf' : core.

  Definition orNuXC (live : BF) (asms : list BF) (good : BF) : BF :=
    fold_left (fun acc a => bor acc (nuXC live a)) asms good.

  Lemma orNuXC_spec live asms : forall good s,
    pos (orNuXC live asms good) s = true <->
    pos good s = true \/ exists a, In a asms /\ pos (nuXC live a) s = true.
  Proof.
    induction asms as [|a asms IH]; intros good s; cbn.
    - split; [auto|]. now intros [H|(a & [] & _)].
    - unfold orNuXC in IH |- *. cbn [fold_left]. rewrite IH, pos_or, orb_true_iff. split.
      + intros [[H|H]|(b & Hb & H)]; eauto.
      + intros [H|(b & [<-|Hb] & H)]; eauto.
  Qed.

  Lemma pre_orNuXC live asms : forall good, any live -> Forall any asms -> pre good ->
    pre (orNuXC live asms good).
  Proof.
    induction asms as [|a asms IH]; intros good Hl Ha Hg; cbn; auto.
    inversion Ha; subst. apply IH; auto.
  Qed.

  Definition stepYC (z g y : BF) : BF := orNuXC (liveOf z g y) (livenessAssumptions c) y.

  Let HA := wf_asm c Hwf.
  Let HG := wf_gua c Hwf.

  Lemma pre_stepYC z g y : pre z -> any g -> pre y -> pre (stepYC z g y).
  Proof. intros. apply pre_orNuXC; auto. Qed.
  Hint Resolve pre_stepYC : core.

  Lemma stepYC_spec z g y s :
    pos (stepYC z g y) s = true <->
    pos y s = true \/ exists a, In a (livenessAssumptions c) /\ pos (nuXC (liveOf z g y) a) s = true.
  Proof. apply orNuXC_spec. Qed.

  Lemma stepYC_inc z g y : sub y (stepYC z g y).
  Proof. intros s H. apply stepYC_spec. auto. Qed.

  Lemma stepYC_mono z z' g y y' : pre z -> pre z' -> any g -> pre y -> pre y' -> sub z z' -> sub y y' ->
    sub (stepYC z g y) (stepYC z' g y').
  Proof.
    intros Hz Hz' Hg Hy Hy' H1 H2 s. rewrite !stepYC_spec. intros [H|(a & Ha & H)]; auto.
    right. exists a. split; auto. revert H. apply nuXC_mono; auto.
    - now apply (any_asm c Hwf).
    - apply (liveOf_mono c Hwf); auto.
  Qed.

  Definition iterYC (z g : BF) (m : nat) : BF := Nat.iter m (stepYC z g) bfalse.
  Lemma pre_iterYC z g m : pre z -> any g -> pre (iterYC z g m).
  Proof. intros. induction m; cbn; auto. Qed.
  Hint Resolve pre_iterYC : core.

  Definition isMuYC (z g y : BF) : Prop := stepYC z g y = y /\ exists m, y = iterYC z g m.

  Lemma iterYC_least z g y m : pre z -> any g -> pre y -> sub (stepYC z g y) y -> sub (iterYC z g m) y.
  Proof.
    intros Hz Hg Hy H. induction m as [|m IH]; [apply sub_false|].
    eapply sub_trans; [|exact H].
    apply (stepYC_mono z z g (iterYC z g m) y); auto using sub_refl.
  Qed.

  Lemma isMuYC_pre z g y : pre z -> any g -> isMuYC z g y -> pre y.
  Proof. intros Hz Hg (_ & m & ->). auto. Qed.

  Lemma isMuYC_least z g y v : pre z -> any g -> isMuYC z g y -> pre v -> sub (stepYC z g v) v -> sub y v.
  Proof. intros Hz Hg (_ & m & ->) Hv H. apply iterYC_least; auto. Qed.

  Lemma isMuYC_unique z g y y' : pre z -> any g -> isMuYC z g y -> isMuYC z g y' -> y = y'.
  Proof.
    intros Hz Hg H H'. pose proof (isMuYC_pre _ _ _ Hz Hg H). pose proof (isMuYC_pre _ _ _ Hz Hg H').
    apply (sub_antisym c); auto.
    - apply (isMuYC_least z g y y'); auto. rewrite (proj1 H'). apply sub_refl.
    - apply (isMuYC_least z g y' y); auto. rewrite (proj1 H). apply sub_refl.
  Qed.

  (** *** The recorded transition sets *)

  (** The sets [b] recorded in one round make up the set of the entry [e]. *)
  Definition block (b : list BF) (e : BF * BF) : Prop :=
    forall s t, trans (fst e) s t = true <-> exists D, In D b /\ trans D s t = true.
  Definition refines (Ds : list BF) (L : list (BF * BF)) : Prop :=
    exists bs, Ds = concat bs /\ Forall2 block bs L.

  (** Transitions that both players permit and after which the environment is not stuck. *)
  Definition okEnt (e : BF * BF) : Prop :=
    forall s t, trans (fst e) s t = true ->
      trans (safetyEnv c) s t = true /\ trans (safetySys c) s t = true /\ free t.

  (** After a transition of one of the sets, the goal is reached or one of the
      preceding sets offers a transition. *)
  Definition towards (P : state -> state -> Prop) (Ds : list BF) : Prop :=
    forall p D q, Ds = p ++ D :: q -> forall s t, trans D s t = true ->
      P s t \/ exists D' t', In D' p /\ trans D' t t' = true.

  Definition recorded (z g : BF) (Ds : list BF) (L : list (BF * BF)) (y : BF) : Prop :=
    refines Ds L /\ goodEnt c z g L y /\ Forall okEnt L /\
    towards (fun s t => trans g s t = true /\ pos z t = true) Ds /\ Forall any Ds.

  Lemma refines_in Ds L F A s t : refines Ds L -> In (F, A) L -> trans F s t = true ->
    exists D, In D Ds /\ trans D s t = true.
  Proof.
    intros (bs & -> & HB) Hin Ht. induction HB as [|b e bs L H HB IH]; [destruct Hin|].
    cbn [concat]. destruct Hin as [->|Hin].
    - apply (H s t) in Ht. destruct Ht as (D & H1 & H2). exists D. split; auto. apply in_or_app. auto.
    - destruct (IH Hin) as (D & H1 & H2). exists D. split; auto. apply in_or_app. auto.
  Qed.

  Lemma refines_back Ds L D : refines Ds L -> In D Ds ->
    exists F A, In (F, A) L /\ tsub D F.
  Proof.
    intros (bs & -> & HB) Hin. induction HB as [|b [F A] bs L H HB IH]; [destruct Hin|].
    cbn [concat] in Hin. apply in_app_iff in Hin. destruct Hin as [Hin|Hin].
    - exists F, A. split; [now left|]. intros s t Ht. apply (H s t). eauto.
    - destruct (IH Hin) as (F' & A' & H1 & H2). exists F', A'. split; auto. now right.
  Qed.

  (** Covered positions in which the environment is not stuck offer a transition. *)
  Lemma cov_offers L s : covBF c L s -> free s -> exists F A t, In (F, A) L /\ trans F s t = true /\
    trans (safetyEnv c) s t = true.
  Proof.
    intros C (t & Ht).
    assert (E : forall y, trans (safetyEnv c) s (mrg c t y) = true).
    { intros y. rewrite (safeE_in c HSe s t y t). rewrite <- Ht. apply trans_eq.
      intros k. unfold mrg. now destruct (isOut c k). }
    destruct (C t (E t)) as (F & y & Hin & Hy). apply in_map_iff in Hin.
    destruct Hin as ([F' A] & <- & Hin). exists F', A, (mrg c t y). auto.
  Qed.

  Lemma split_app {A} (l1 l2 p : list A) a q : l1 ++ l2 = p ++ a :: q ->
    (exists q1, l1 = p ++ a :: q1) \/ (exists p2, p = l1 ++ p2 /\ l2 = p2 ++ a :: q).
  Proof.
    revert p. induction l1 as [|b l1 IH]; intros p E; cbn in E.
    - right. exists p. auto.
    - destruct p as [|b' p]; cbn in E.
      + injection E as -> E. left. exists l1. reflexivity.
      + injection E as -> E. destruct (IH p E) as [(q1 & ->)|(p2 & -> & E2)].
        * left. exists q1. reflexivity.
        * right. exists p2. auto.
  Qed.

  Lemma map_split {A B} (f : A -> B) l p b q : map f l = p ++ b :: q ->
    exists l1 a l2, l = l1 ++ a :: l2 /\ map f l1 = p /\ f a = b /\ map f l2 = q.
  Proof.
    revert p. induction l as [|a l IH]; intros p E; [destruct p; discriminate|].
    destruct p as [|b' p]; cbn in E.
    - injection E as <- <-. exists [], a, l. auto.
    - injection E as <- E. destruct (IH p E) as (l1 & a' & l2 & -> & <- & <- & <-). exists (a :: l1), a', l2. auto.
  Qed.

  Lemma seq_split n l1 k l2 : forall m, seq m n = l1 ++ k :: l2 -> l1 = seq m (k - m) /\ m <= k.
  Proof.
    revert l1. induction n as [|n IH]; intros l1 m E; [destruct l1; discriminate|].
    destruct l1 as [|i l1]; cbn in E.
    - injection E as <- _. rewrite Nat.sub_diag. auto.
    - injection E as <- E. destruct (IH l1 (S m) E) as (E' & Hle). split; [|lia].
      replace (k - m) with (S (k - S m)) by lia. cbn. now rewrite E' at 1.
  Qed.

  (** One more round. *)
  Lemma recorded_add z g mu Ds L y a P : pre z -> any g -> pre mu -> pre y ->
    In a (livenessAssumptions c) -> sub mu y -> recorded z g Ds L y ->
    let live := liveOf z g mu in let x := nuXC live a in let F := foundC live a x in
    isProgress live a x P ->
    recorded z g (Ds ++ map (fun p => band F p) P) (L ++ [(F, a)]) (bor y x).
  Proof.
    intros Hz Hg Hm Hy Ha Hs (R1 & R2 & R3 & R4 & R5) live x F (K & -> & EK).
    assert (Aa : any a) by now apply (any_asm c Hwf).
    assert (Al : any live) by (unfold live; auto).
    assert (Px : pre x) by (unfold x; auto).
    assert (AF : any F) by (unfold F; auto).
    assert (HF : forall s t, trans F s t = true ->
      ((trans g s t = true /\ pos z t = true) \/ pos mu t = true \/
       (pos x t = true /\ pos (muC live a x) t = true /\ trans a s t = false)) /\
      trans (safetySys c) s t = true /\ free t /\ trans (safetyEnv c) s t = true).
    { intros s t Ht. apply foundC_spec in Ht; auto. destruct Ht as [[Ht|Ht] H]; split; auto.
      apply (liveOf_spec c Hwf) in Ht; auto. destruct Ht; auto. }
    split; [|split; [|split; [|split]]].
    - destruct R1 as (bs & -> & HB). exists (bs ++ [map (fun p => band F p) (progressOf live a x (S K))]). split.
      + rewrite concat_app. cbn [concat]. now rewrite app_nil_r.
      + apply Forall2_app; auto. constructor; auto. intros s t. cbn [fst]. split.
        * intros Ht. exists (band F (pathsC c live a x (iterC live a x K))). split.
          -- apply in_map_iff. exists (pathsC c live a x (iterC live a x K)). split; auto. right.
             apply in_map_iff. exists K. split; auto. apply in_seq. lia.
          -- rewrite EK. fold (foundC live a x). fold F. now rewrite trans_and, Ht.
        * intros (D & HD & Ht). apply in_map_iff in HD. destruct HD as (p & <- & _).
          rewrite trans_and, andb_true_iff in Ht. apply Ht.
    - apply (goodEnt_add c Hwf); auto.
      + intros s H. fold (stepXC live a x). unfold F. fold (stepXC live a x). unfold x in *.
        now rewrite nuXC_fix.
      + intros s t Ht. destruct (HF s t Ht) as [[H|[H|(H & _ & H')]] (HS & _)]; split; auto.
    - apply Forall_app. split; auto. constructor; auto. intros s t Ht. cbn [fst] in Ht.
      destruct (HF s t Ht) as [_ H]. tauto.
    - intros p D q E s t Ht. apply split_app in E. destruct E as [(q1 & E)|(p2 & -> & E)].
      + destruct (R4 p D q1 E s t Ht) as [H|H]; auto.
      + unfold progressOf in E. apply map_split in E. destruct E as (l1 & b & l2 & E & <- & <- & _).
        rewrite trans_and, andb_true_iff in Ht. destruct Ht as [Ht Hb].
        assert (HL : trans live s t = true -> trans g s t = true /\ pos z t = true \/
          exists D' t', In D' (Ds ++ map (fun p => band F p) l1) /\ trans D' t t' = true).
        { intros H. apply (liveOf_spec c Hwf) in H; auto. destruct H as [H|H]; [auto|right].
          destruct (HF s t Ht) as [_ (_ & Hfree & _)].
          destruct R2 as (_ & C & _). destruct (cov_offers L t (C t (Hs t H)) Hfree) as (F' & A' & t' & Hin & Ht' & _).
          destruct (refines_in Ds L F' A' t t' R1 Hin Ht') as (D & HD & HDt). exists D, t'.
          split; auto. apply in_or_app. auto. }
        destruct l1 as [|b1 l1]; cbn [app] in E; pose proof (f_equal (@tl BF) E) as E2; pose proof (f_equal (hd b) E) as E1; cbn [tl hd] in E1, E2; [subst b; auto|]. subst b1.
        apply map_split in E2. destruct E2 as (k1 & k & k2 & E2 & <- & <- & _).
        apply seq_split in E2. destruct E2 as [-> _]. rewrite Nat.sub_0_r in *.
        apply pathsC_spec in Hb; auto. destruct Hb as [[Hb|(Hb1 & Hb2 & Hb3)] _]; auto.
        right. destruct k as [|k]; [cbn in Hb2; discriminate|].
        change (iterC live a x (S k)) with (stepC live a x (iterC live a x k)) in Hb2.
        apply stepC_spec in Hb2; auto. destruct Hb2 as (t' & Ht').
        exists (band F (pathsC c live a x (iterC live a x k))), t'. split.
        * apply in_or_app. right. right. apply in_map_iff. exists (pathsC c live a x (iterC live a x k)).
          split; auto. apply in_map_iff. exists k. split; auto. apply in_seq. lia.
        * rewrite trans_and, Ht', andb_true_r. revert Ht'. apply pathsC_mono; auto using tsub_refl, sub_refl.
          now apply muC_spec.
    - apply Forall_app. split; auto. apply Forall_map, Forall_forall. intros p [<-|Hp]; auto.
      apply in_map_iff in Hp. destruct Hp as (k & <- & _). auto 8.
  Qed.

  Lemma map_pair {A B} (j : A) (l : list B) : map (fun p => (j, p)) l = map (pair j) l.
  Proof. reflexivity. Qed.

  Lemma asmLoopC_spec j z g mu1 asms : pre z -> any g -> pre mu1 ->
    incl asms (livenessAssumptions c) ->
    forall good data Ds L, sub mu1 good -> pre good -> recorded z g Ds L good ->
    exists Ds' L', asmLoopC c j (liveOf z g mu1) asms good data =
                 Some (orNuXC (liveOf z g mu1) asms good, data ++ map (pair j) Ds') /\
               recorded z g (Ds ++ Ds') (L ++ L') (orNuXC (liveOf z g mu1) asms good).
  Proof.
    intros Hz Hg Hm. induction asms as [|a asms IH]; intros Hi good data Ds L Hs Hgood HL.
    - exists [], []. cbn. rewrite !app_nil_r. split; auto.
    - assert (Ha : In a (livenessAssumptions c)) by (apply Hi; now left).
      pose proof (any_asm c Hwf a Ha) as Aa.
      assert (Al : any (liveOf z g mu1)) by auto.
      cbn [asmLoopC]. destruct (nu0LoopC_spec (liveOf z g mu1) a Al Aa) as (P & -> & HP & _).
      pose proof (recorded_add z g mu1 Ds L good a P Hz Hg Hm Hgood Ha Hs HL HP) as HL'.
      set (x := nuXC (liveOf z g mu1) a) in *. set (F := foundC (liveOf z g mu1) a x) in *.
      destruct (IH ltac:(intros b Hb; apply Hi; now right) (bor good x)
                  (data ++ map (fun p => (j, band F p)) P) (Ds ++ map (fun p => band F p) P)
                  (L ++ [(F, a)])) as (Ds' & L' & E & HR); auto.
      + eapply sub_trans; [exact Hs|apply sub_or_l].
      + apply dep_or; auto. unfold x. auto.
      + exists (map (fun p => band F p) P ++ Ds'), ((F, a) :: L'). rewrite E. unfold orNuXC at 1 3. cbn [fold_left].
        rewrite map_app, map_map, <- !app_assoc in *. split; [reflexivity|exact HR].
  Qed.

  Lemma mu1LoopC_spec j z g data : pre z -> any g ->
    exists y live Ds L, mu1LoopC c j (band g (swapPrePost c z)) data =
        Some (y, (live, data ++ map (pair j) Ds)) /\
      isMuYC z g y /\ recorded z g Ds L y.
  Proof.
    intros Hz Hg. unfold mu1LoopC.
    set (base := band g (swapPrePost c z)).
    assert (Hbase : any base) by (unfold base; auto).
    set (Inv := fun (y : BF) (d : BF * list (nat * BF)) =>
           (exists m, y = iterYC z g m) /\ tsub base (fst d) /\ tsub (fst d) (bor base (swapPrePost c y)) /\
           exists Ds L, snd d = data ++ map (pair j) Ds /\ recorded z g Ds L y).
    assert (Hlive : forall y d, Inv y d -> bor (fst d) (swapPrePost c y) = liveOf z g y).
    { intros y d (_ & H1 & H2 & _). apply trans_inj. intros s t. unfold SynthProofs.liveOf. fold base.
      autorewrite with sem. specialize (H1 s t). specialize (H2 s t). autorewrite with sem in H2.
      destruct (trans (fst d) s t), (trans base s t), (trans (swapPrePost c y) s t); cbn in *; auto;
        try (specialize (H2 eq_refl); discriminate); try (specialize (H1 eq_refl); discriminate). }
    destruct (fp_inc c Hk (mu1BodyC c j) (fun y _ => stepYC z g y)
       (fun y d => (liveOf z g y,
           match asmLoopC c j (liveOf z g y) (livenessAssumptions c) y (snd d) with
           | Some (_, d') => d' | None => [] end))
       Inv bfalse (base, data)) as (y & d & HI & E & R & _).
    - split; [now exists 0|]. split; [apply tsub_refl|]. split.
      + intros s t H. cbn [fst] in H. autorewrite with sem. now rewrite H.
      + exists [], []. cbn. rewrite app_nil_r. split; auto. split; [|split; [|split; [|split]]].
        * exists []. split; auto.
        * split; [|split].
          -- intros [|] ? ? ? E; discriminate.
          -- intros s. now rewrite pos_false.
          -- now intros F A [].
        * constructor.
        * intros [|] ? ? E; discriminate.
        * constructor.
    - intros y [live dat] HI. pose proof (Hlive _ _ HI) as HL. cbn [fst] in HL.
      destruct HI as ((m & ->) & H1 & H2 & Ds & L & E & HR). cbn [fst snd] in *.
      assert (Py : pre (iterYC z g m)) by auto.
      destruct (asmLoopC_spec j z g (iterYC z g m) (livenessAssumptions c) Hz Hg Py (incl_refl _)
                  (iterYC z g m) dat Ds L (sub_refl _) Py HR) as (Ds' & L' & EA & HR').
      assert (EB : mu1BodyC c j (iterYC z g m, (live, dat)) =
              fpUpdate (iterYC z g m) (stepYC z g (iterYC z g m))
                (liveOf z g (iterYC z g m), dat ++ map (pair j) Ds')).
      { unfold mu1BodyC. rewrite HL, EA. reflexivity. }
      rewrite EA. split; [exact EB|]. split; [auto|]. split; [auto|]. split; [apply stepYC_inc|].
      intros _. split; [now exists (S m)|]. cbn [fst snd]. split; [|split].
      + intros s t H. unfold SynthProofs.liveOf. fold base. autorewrite with sem. now rewrite H.
      + intros s t. unfold SynthProofs.liveOf. fold base. autorewrite with sem. rewrite !orb_true_iff.
        intros [H|H]; auto. right. rewrite trans_swap_pos in * by auto. now apply stepYC_inc.
      + exists (Ds ++ Ds'), (L ++ L'). split; auto. rewrite E, !map_app. now rewrite <- app_assoc.
    - destruct HI as ((m & ->) & H1 & H2 & Ds & L & Ed & HR). cbn [fst snd] in *.
      assert (Py : pre (iterYC z g m)) by auto.
      destruct (asmLoopC_spec j z g (iterYC z g m) (livenessAssumptions c) Hz Hg Py (incl_refl _)
                  (iterYC z g m) (snd d) Ds L (sub_refl _) Py HR) as (Ds' & L' & EA & HR').
      rewrite EA in R. exists (iterYC z g m), (liveOf z g (iterYC z g m)), (Ds ++ Ds'), (L ++ L').
      rewrite R, Ed, !map_app, <- app_assoc. split; [reflexivity|]. split.
      + split; eauto.
      + fold (stepYC z g (iterYC z g m)) in HR'. rewrite E in HR'. exact HR'.
  Qed.

  (** The middle fixed point as a function. *)
  Definition muYC (z g : BF) : BF :=
    match mu1LoopC c 0 (band g (swapPrePost c z)) [] with Some (y, _) => y | None => bfalse end.

  Lemma muYC_spec z g : pre z -> any g -> isMuYC z g (muYC z g).
  Proof.
    intros Hz Hg. unfold muYC. destruct (mu1LoopC_spec 0 z g [] Hz Hg) as (y & l & Ds & L & -> & H & _). exact H.
  Qed.
  Lemma pre_muYC z g : pre z -> any g -> pre (muYC z g).
  Proof. intros. eapply isMuYC_pre; eauto. now apply muYC_spec. Qed.
  Hint Resolve pre_muYC : core.
  Lemma muYC_fix z g : pre z -> any g -> stepYC z g (muYC z g) = muYC z g.
  Proof. intros. now apply muYC_spec. Qed.
  Lemma muYC_least z g v : pre z -> any g -> pre v -> sub (stepYC z g v) v -> sub (muYC z g) v.
  Proof. intros Hz Hg Hv H. apply (isMuYC_least z g); auto. now apply muYC_spec. Qed.
  Lemma muYC_mono z z' g : pre z -> pre z' -> any g -> sub z z' -> sub (muYC z g) (muYC z' g).
  Proof.
    intros Hz Hz' Hg H. apply muYC_least; auto.
    rewrite <- (muYC_fix z' g) at 2 by auto. apply stepYC_mono; auto using sub_refl.
  Qed.

  Definition goalsC (z : BF) (gs : list BF) (next : BF) : BF := fold_left (fun acc g => band acc (muYC z g)) gs next.

  Lemma goalsC_spec z gs : forall acc s,
    pos (goalsC z gs acc) s = true <-> pos acc s = true /\ forall g, In g gs -> pos (muYC z g) s = true.
  Proof.
    unfold goalsC. induction gs as [|g gs IH]; intros acc s; cbn [fold_left].
    - split; [intros H; split; auto; now intros g []|tauto].
    - rewrite IH, pos_and, andb_true_iff. split.
      + intros [[H1 H2] H3]. split; auto. intros g' [<-|H]; auto.
      + intros [H1 H2]. repeat split; auto; intros; apply H2; [now left|now right].
  Qed.

  Lemma pre_goalsC z gs : pre z -> Forall any gs -> forall acc, pre acc -> pre (goalsC z gs acc).
  Proof.
    intros Hz Hg. unfold goalsC. induction Hg as [|g gs Hg Hgs IH]; intros acc Ha; cbn [fold_left]; auto.
  Qed.

  Lemma goalLoopC_spec z gs : pre z -> forall j next data, Forall any gs ->
    exists data', goalLoopC c z j gs next data = Some (goalsC z gs next, data ++ data') /\
      (forall i, i < j \/ j + length gs <= i -> dataOf i data' = []) /\
      (forall i, i < length gs -> exists L,
           recorded z (nth i gs btrue) (dataOf (j + i) data') L (muYC z (nth i gs btrue))).
  Proof.
    intros Hz. induction gs as [|g gs IH]; intros j next data Hgs.
    - exists []. cbn. rewrite app_nil_r. repeat split; auto. intros i Hi. lia.
    - inversion Hgs as [|? ? Hg Hgs']; subst. cbn [goalLoopC].
      destruct (mu1LoopC_spec j z g data Hz Hg) as (y & live & Ds & L & -> & HY & HL).
      assert (y = muYC z g) as -> by (eapply isMuYC_unique; eauto using muYC_spec).
      destruct (IH (S j) (band next (muYC z g)) (data ++ map (pair j) Ds) Hgs')
        as (data' & E & H1 & H2).
      exists (map (pair j) Ds ++ data'). rewrite E, <- app_assoc.
      split; [reflexivity|]. cbn [length] in *. split.
      + intros i Hi. rewrite dataOf_app, dataOf_pair, H1 by lia.
        destruct (Nat.eqb_spec j i); [lia|reflexivity].
      + intros [|i] Hi.
        * exists L. rewrite Nat.add_0_r, dataOf_app, dataOf_pair, Nat.eqb_refl, H1, app_nil_r by lia. auto.
        * destruct (H2 i ltac:(lia)) as (L' & HL').
          exists L'. rewrite dataOf_app, dataOf_pair.
          replace (j + S i) with (S j + i) by lia. destruct (Nat.eqb_spec j (S j + i)); [lia|].
          cbn [nth app]. auto.
  Qed.

  (** ** Paths to a liveness assumption *)
  Definition stepG (next good : BF) : BF :=
    bor good (band (band (band (swapPrePost c (bexists (varCubePost c) good)) (safetyEnv c)) (nonDead c)) next).
  Definition iterG (a next : BF) (k : nat) : BF := Nat.iter k (stepG next) (goodStart c a next).

  Lemma any_iterG a next k : any a -> pre next -> any (iterG a next k).
  Proof.
    intros Ha Hn. induction k as [|k IH]; cbn.
    - unfold goodStart. auto 10.
    - unfold stepG. fold (iterG a next k). auto 12.
  Qed.
  Hint Resolve any_iterG : core.

  Definition edgeG (next : BF) (s t : state) : Prop :=
    pos next s = true /\ trans (safetyEnv c) s t = true /\ trans (safetySys c) s t = true /\ free t.

  Lemma goodStart_spec a next s t : pre next ->
    trans (goodStart c a next) s t = true <-> trans a s t = true /\ pos next t = true /\ edgeG next s t.
  Proof.
    intros Hn. unfold goodStart, edgeG. rewrite !trans_and, !andb_true_iff, trans_swap_pos, nonDead_spec by auto.
    rewrite (pos_trans c next s t Hn). tauto.
  Qed.

  Lemma iterG_S a next k s t : any a -> pre next ->
    trans (iterG a next (S k)) s t = true <->
    trans (iterG a next k) s t = true \/ ((exists u, trans (iterG a next k) t u = true) /\ edgeG next s t).
  Proof.
    intros Ha Hn. change (iterG a next (S k)) with (stepG next (iterG a next k)). unfold stepG, edgeG.
    rewrite trans_or, orb_true_iff, !trans_and, !andb_true_iff, trans_swap_pos, nonDead_spec by auto.
    rewrite (pos_trans c next s t Hn), exPost_pos by auto. tauto.
  Qed.

  Lemma iterG_le a next k k' s t : any a -> pre next -> k <= k' ->
    trans (iterG a next k) s t = true -> trans (iterG a next k') s t = true.
  Proof. intros Ha Hn L. induction L as [|k' L IH]; auto. intros H. apply iterG_S; auto. Qed.

  Lemma iterG_edge a next k s t : any a -> pre next -> trans (iterG a next k) s t = true ->
    edgeG next s t /\ pos next t = true.
  Proof.
    intros Ha Hn. revert s t. induction k as [|k IH]; intros s t.
    - intros H. apply goodStart_spec in H; auto. tauto.
    - rewrite iterG_S by auto. intros [H|[(u & H) H']]; auto. split; auto. apply IH in H. apply H.
  Qed.

  Lemma iterG_progress a next k s t : any a -> pre next -> trans (iterG a next k) s t = true ->
    trans a s t = true \/ exists k' u, k' < k /\ trans (iterG a next k') t u = true.
  Proof.
    intros Ha Hn. revert s t. induction k as [|k IH]; intros s t.
    - intros H. apply goodStart_spec in H; auto. tauto.
    - rewrite iterG_S by auto. intros [H|[(u & H) H']].
      + destruct (IH s t H) as [H'|(k' & u & L & H')]; auto. right. exists k', u. auto.
      + right. exists k, u. auto.
  Qed.

  Lemma iterG_mono a next next' k s t : any a -> pre next -> pre next' -> sub next next' ->
    trans (iterG a next k) s t = true -> trans (iterG a next' k) s t = true.
  Proof.
    intros Ha Hn Hn' HS.
    assert (HE : forall s t, edgeG next s t -> edgeG next' s t) by (unfold edgeG; firstorder).
    revert s t. induction k as [|k IH]; intros s t.
    - change (trans (goodStart c a next) s t = true -> trans (goodStart c a next') s t = true).
      rewrite !goodStart_spec by auto. intros (H1 & H2 & H3). auto.
    - rewrite !iterG_S by auto. intros [H|[(u & H) H']]; auto. right. split; eauto.
  Qed.

  (** The positions from which the liveness assumption can be satisfied. *)
  Definition goodM (a next : BF) : BF :=
    match goodLoop c 0 a next [] with Some (m, _) => m | None => bfalse end.

  (** The last round of the loop. *)
  Definition lastG (a next : BF) (K : nat) : Prop :=
    forall s t, trans (iterG a next (S K)) s t = true -> trans (iterG a next K) s t = true.

  Lemma lastG_all a next K k s t : any a -> pre next -> lastG a next K ->
    trans (iterG a next k) s t = true -> trans (iterG a next K) s t = true.
  Proof.
    intros Ha Hn HK.
    assert (G : forall k s t, trans (iterG a next (k + K)) s t = true -> trans (iterG a next K) s t = true).
    { clear k s t. induction k as [|k IH]; intros s t H; auto. cbn [plus] in H. apply iterG_S in H; auto.
      destruct H as [H|[(u & H) H']]; auto. apply HK. apply iterG_S; eauto. }
    intros H. apply (G k). revert H. apply iterG_le; auto. lia.
  Qed.

  Lemma goodLoop_gen j a next data : any a -> pre next -> exists K m,
    goodLoop c j a next data = Some (m, (iterG a next (S K), data ++ map (pair j) (map (iterG a next) (seq 0 (S K))))) /\
    lastG a next K /\ pre m /\ forall s, pos m s = true <-> exists t, trans (iterG a next K) s t = true.
  Proof.
    intros Ha Hn. unfold goodLoop.
    set (ws := fun k => bexists (varCubePost c) (iterG a next k)).
    assert (Hws : forall k s, pos (ws k) s = true <-> exists t, trans (iterG a next k) s t = true)
      by (intros; apply exPost_pos; auto).
    set (M := fix M k := match k with O => bfalse | S k => bor (ws k) (M k) end).
    assert (PM : forall k, pre (M k)) by (induction k; cbn; unfold ws; auto).
    assert (HM : forall k s, pos (M k) s = true <-> exists k', k' < k /\ pos (ws k') s = true).
    { induction k as [|k IH]; intros s; cbn [M].
      - rewrite pos_false. split; [discriminate|]. intros (k' & L & _). lia.
      - rewrite pos_or, orb_true_iff, IH. split.
        + intros [H|(k' & L & H)]; eauto.
        + intros (k' & L & H). destruct (Nat.eq_dec k' k) as [->|]; auto. right. exists k'. split; auto. lia. }
    destruct (fp_inc c Hk (goodBody c j next) (fun v d => bor (bexists (varCubePost c) (fst d)) v)
       (fun v d => (stepG next (fst d), snd d ++ [(j, fst d)]))
       (fun v d => exists k, v = M k /\ d = (iterG a next k, data ++ map (pair j) (map (iterG a next) (seq 0 k))))
       bfalse (goodStart c a next, data)) as (v & d & (K & -> & ->) & E & R & _).
    - exists 0. cbn. now rewrite app_nil_r.
    - intros v d (k & -> & ->). cbn [fst snd]. split; [reflexivity|]. split; [auto|].
      split; [auto|]. split; [apply sub_or_r|]. intros _. exists (S k). split; [reflexivity|].
      rewrite seq_S, !map_app, app_assoc. reflexivity.
    - cbn [fst snd] in *. exists K, (M K).
      assert (HE : forall s, pos (ws K) s = true -> pos (M K) s = true).
      { intros s H. rewrite <- E. rewrite pos_or. fold (ws K). now rewrite H. }
      assert (HX : forall s, pos (M K) s = true <-> exists t, trans (iterG a next K) s t = true).
      { intros s. split.
        - intros H. apply HM in H. destruct H as (k' & L & H). apply Hws in H. destruct H as (t & H).
          exists t. revert H. apply iterG_le; auto. lia.
        - intros H. apply HE. now apply Hws. }
      split; [|split; [|split]]; auto.
      + unfold goodLoop. rewrite R. rewrite seq_S, !map_app, app_assoc. reflexivity.
      + intros s t H. apply iterG_S in H; auto. destruct H as [H|[H H']]; auto.
        apply HX, HM in H. destruct H as (k' & L & H). apply (iterG_le a next (S k')); auto.
        apply iterG_S; auto. right. split; auto. now apply Hws.
  Qed.

  Lemma goodM_spec a next : any a -> pre next ->
    pre (goodM a next) /\ forall s, pos (goodM a next) s = true <-> exists k t, trans (iterG a next k) s t = true.
  Proof.
    intros Ha Hn. unfold goodM. destruct (goodLoop_gen 0 a next [] Ha Hn) as (K & m & -> & HK & Pm & Hm).
    split; auto. intros s. rewrite Hm. split; [eauto|]. intros (k & t & H). exists t. revert H. now apply lastG_all.
  Qed.
  Lemma pre_goodM a next : any a -> pre next -> pre (goodM a next).
  Proof. intros. now apply goodM_spec. Qed.
  Hint Resolve pre_goodM : core.

  Lemma goodLoop_spec j a next data : any a -> pre next -> exists K T,
    goodLoop c j a next data = Some (goodM a next, (T, data ++ map (pair j) (map (iterG a next) (seq 0 (S K))))) /\
    lastG a next K /\ T = iterG a next K.
  Proof.
    intros Ha Hn. destruct (goodLoop_gen j a next data Ha Hn) as (K & m & E & HK & Pm & Hm).
    exists K, (iterG a next (S K)). split; [|split]; auto.
    - rewrite E. replace m with (goodM a next); auto. apply (sub_antisym c); auto.
      + intros s. rewrite Hm. intros H. apply goodM_spec in H; auto. destruct H as (k & t & H). exists t. revert H. now apply lastG_all.
      + intros s. rewrite Hm. intros (t & H). apply goodM_spec; eauto.
    - apply trans_inj. intros s t. destruct (trans (iterG a next (S K)) s t) eqn:E1.
      + symmetry. now apply HK.
      + destruct (trans (iterG a next K) s t) eqn:E2; auto. rewrite <- E1. apply iterG_S; auto.
  Qed.

  Lemma goodM_mono a next next' : any a -> pre next -> pre next' -> sub next next' ->
    sub (goodM a next) (goodM a next').
  Proof.
    intros Ha Hn Hn' HS s H. apply goodM_spec in H; auto. destruct H as (k & t & H).
    apply goodM_spec; auto. exists k, t. now apply (iterG_mono a next next').
  Qed.

  (** The set is closed under predecessors. *)
  Lemma goodM_closed a next s t : any a -> pre next -> edgeG next s t -> pos (goodM a next) t = true ->
    pos (goodM a next) s = true.
  Proof.
    intros Ha Hn He H. apply goodM_spec in H; auto. destruct H as (k & u & H). apply goodM_spec; auto.
    exists (S k), t. apply iterG_S; eauto.
  Qed.
  Lemma goodM_base a next s t : any a -> pre next -> edgeG next s t -> trans a s t = true -> pos next t = true ->
    pos (goodM a next) s = true.
  Proof.
    intros Ha Hn He H Ht. apply goodM_spec; auto. exists 0, t. change (trans (goodStart c a next) s t = true). apply goodStart_spec; auto.
  Qed.

  (** ** The assumptions in turn *)
  Definition nextA (asms : list BF) (next : BF) : BF := fold_left (fun nx a => band nx (goodM a nx)) asms next.

  Lemma pre_nextA asms : Forall any asms -> forall next, pre next -> pre (nextA asms next).
  Proof.
    unfold nextA. induction 1 as [|a asms Ha Hs IH]; intros next Hn; cbn [fold_left]; auto.
  Qed.

  Lemma nextA_mono asms : Forall any asms -> forall next next', pre next -> pre next' -> sub next next' ->
    sub (nextA asms next) (nextA asms next').
  Proof.
    unfold nextA. induction 1 as [|a asms Ha Hs IH]; intros next next' Hn Hn' H; cbn [fold_left]; auto.
    apply IH; auto. intros s. rewrite !pos_and, !andb_true_iff. intros [H1 H2]. split; auto.
    revert H2. now apply goodM_mono.
  Qed.

  Lemma nextA_sub asms : forall next, sub (nextA asms next) next.
  Proof.
    unfold nextA. induction asms as [|a asms IH]; intros next; cbn [fold_left]; [apply sub_refl|].
    eapply sub_trans; [apply IH|]. apply sub_and_l.
  Qed.

  Lemma nextA_app l1 l2 next : nextA (l1 ++ l2) next = nextA l2 (nextA l1 next).
  Proof. unfold nextA. apply fold_left_app. Qed.

  Lemma asmGoalLoop_spec z asms : Forall any asms -> forall j next data tw, pre next ->
    exists data' tw', asmGoalLoop c z j asms next data tw = Some (nextA asms next, (data ++ data', tw ++ tw')) /\
      length tw' = length asms /\
      (forall i, i < j -> dataOf i data' = []) /\
      (forall l1 a l2, asms = l1 ++ a :: l2 -> exists K,
         lastG a (nextA l1 next) K /\
         dataOf (j + length l1) data' = map (iterG a (nextA l1 next)) (seq 0 (S K)) ++ [band (nonDead c) (swapPrePost c z)] /\
         nth (length l1) tw' bfalse = iterG a (nextA l1 next) K).
  Proof.
    induction 1 as [|a asms Ha Hs IH]; intros j next data tw Hn.
    - exists [], []. cbn. rewrite !app_nil_r. repeat split; auto. intros [|] ? ? E; discriminate.
    - cbn [asmGoalLoop]. destruct (goodLoop_spec j a next data Ha Hn) as (K & T & -> & HK & ->).
      set (ds := map (pair j) (map (iterG a next) (seq 0 (S K)))).
      set (bk := band (nonDead c) (swapPrePost c z)).
      destruct (IH (S j) (band next (goodM a next)) ((data ++ ds) ++ [(j, bk)]) (tw ++ [iterG a next K]))
        as (d' & tw' & E & H1 & H2 & H3); auto.
      assert (ED : forall i, dataOf i (ds ++ (j, bk) :: d') =
                 (if Nat.eqb j i then map (iterG a next) (seq 0 (S K)) ++ [bk] else []) ++ dataOf i d').
      { intros i. unfold ds. change ((j, bk) :: d') with (map (pair j) [bk] ++ d'). rewrite app_assoc, <- map_app, dataOf_app, dataOf_pair. reflexivity. }
      exists (ds ++ (j, bk) :: d'), (iterG a next K :: tw'). rewrite E. split; [|split; [|split]].
      + unfold nextA at 2. cbn [fold_left]. rewrite <- !app_assoc. reflexivity.
      + cbn. now rewrite H1.
      + intros i Hi. rewrite ED, H2 by lia. destruct (Nat.eqb_spec j i); [lia|reflexivity].
      + intros l1 b l2 EL. destruct l1 as [|a' l1]; cbn in EL; injection EL as <- EL.
        * exists K. cbn [length nth nextA fold_left]. rewrite Nat.add_0_r, ED, Nat.eqb_refl, H2, app_nil_r by lia. auto.
        * destruct (H3 l1 b l2 EL) as (K' & G1 & G2 & G3). exists K'. cbn [length nth].
          rewrite ED. replace (j + S (length l1)) with (S j + length l1) by lia.
          destruct (Nat.eqb_spec j (S j + length l1)); [lia|]. auto.
  Qed.

  (** ** Outer greatest fixed point *)
  Definition stepZC (z : BF) : BF := nextA (livenessAssumptions c) (goalsC z (livenessGuarantees c) btrue).

  Lemma pre_stepZC z : pre z -> pre (stepZC z).
  Proof. intros. apply pre_nextA; auto. apply pre_goalsC; auto. Qed.
  Hint Resolve pre_stepZC : core.

  Lemma stepZC_mono z z' : pre z -> pre z' -> sub z z' -> sub (stepZC z) (stepZC z').
  Proof.
    intros Hz Hz' H. apply nextA_mono; auto using pre_goalsC.
    intros s. rewrite !goalsC_spec. intros [_ Hs]. split; auto. intros g Hg. specialize (Hs g Hg). revert Hs.
    apply muYC_mono; auto. now apply (any_gua c Hwf).
  Qed.

  Definition iterZC (m : nat) : BF := Nat.iter m stepZC btrue.
  Lemma pre_iterZC m : pre (iterZC m).
  Proof. induction m; cbn; auto. Qed.
  Hint Resolve pre_iterZC : core.
  Lemma iterZC_dec m : sub (iterZC (S m)) (iterZC m).
  Proof. induction m as [|m IH]; [apply sub_true|]. apply stepZC_mono; auto. Qed.

  (** What computeWinningPositions returns. *)
  Record solvedC (w : BF) (data : list (nat * BF)) (gs : list BF) : Prop := {
    sc_fix : stepZC w = w;
    sc_iter : exists K, w = iterZC K;
    sc_goals : forall j, j < length (livenessGuarantees c) -> exists L,
      recorded w (nth j (livenessGuarantees c) btrue) (dataOf j data) L (muYC w (nth j (livenessGuarantees c) btrue));
    sc_len : length gs = length (livenessGuarantees c) + length (livenessAssumptions c);
    sc_same : forall j, j < length (livenessGuarantees c) -> nth j gs btrue = nth j (livenessGuarantees c) btrue;
    sc_asm : forall l1 a l2, livenessAssumptions c = l1 ++ a :: l2 ->
      let nx := nextA l1 (goalsC w (livenessGuarantees c) btrue) in exists K, lastG a nx K /\
        dataOf (length (livenessGuarantees c) + length l1) data =
          map (iterG a nx) (seq 0 (S K)) ++ [band (nonDead c) (swapPrePost c w)] /\
        nth (length (livenessGuarantees c) + length l1) gs btrue = bor a (bnot (iterG a nx K))
  }.

  Lemma computeCoop_spec : exists w data gs, computeCoop c = Some (w, data, gs) /\ solvedC w data gs.
  Proof.
    unfold computeCoop.
    set (round := fun z => match goalLoopC c z 0 (livenessGuarantees c) btrue [] with
      | Some (next, data) =>
          match asmGoalLoop c z (length (livenessGuarantees c)) (livenessAssumptions c) next data [] with
          | Some (_, d) => d | None => ([], []) end
      | None => ([], []) end).
    destruct (fp_dec c Hk (nu2BodyC c) (fun z _ => stepZC z) (fun z _ => round z)
      (fun z _ => exists K, z = iterZC K) btrue ([], [])) as (w & d & (K & ->) & E & R & _).
    - now exists 0.
    - intros z d (K & ->).
      destruct (goalLoopC_spec (iterZC K) (livenessGuarantees c) (pre_iterZC K) 0 btrue [] HG) as (d' & EG & _).
      destruct (asmGoalLoop_spec (iterZC K) (livenessAssumptions c) HA (length (livenessGuarantees c))
        (goalsC (iterZC K) (livenessGuarantees c) btrue) ([] ++ d') [] (pre_goalsC _ _ (pre_iterZC K) HG _ (dep_true _)))
        as (d'' & tw & EA & _).
      split; [|split; [auto|split; [auto|split; [apply iterZC_dec|intros _; now exists (S K)]]]].
      unfold nu2BodyC, round. cbn [fst]. rewrite EG, EA. reflexivity.
    - destruct (goalLoopC_spec (iterZC K) (livenessGuarantees c) (pre_iterZC K) 0 btrue [] HG) as (d' & EG & HD1 & HD2).
      destruct (asmGoalLoop_spec (iterZC K) (livenessAssumptions c) HA (length (livenessGuarantees c))
        (goalsC (iterZC K) (livenessGuarantees c) btrue) ([] ++ d') [] (pre_goalsC _ _ (pre_iterZC K) HG _ (dep_true _)))
        as (d'' & tw & EA & HT1 & HT2 & HT3).
      unfold round in R. rewrite EG, EA in R. rewrite R. cbn [app].
      exists (iterZC K), (d' ++ d''), (livenessGuarantees c ++ map (fun e => bor (fst e) (bnot (snd e))) (combine (livenessAssumptions c) tw)).
      split; [reflexivity|]. constructor; auto.
      + now exists K.
      + intros j Hj. destruct (HD2 j Hj) as (L & HL). exists L. rewrite dataOf_app, HT2, app_nil_r by auto. exact HL.
      + rewrite app_length, map_length, combine_length, HT1. lia.
      + intros j Hj. now apply app_nth1.
      + intros l1 a l2 EL nx. destruct (HT3 l1 a l2 EL) as (K' & G1 & G2 & G3). exists K'. split; auto. split.
        * rewrite dataOf_app, HD1 by lia. exact G2.
        * rewrite app_nth2_plus.
          rewrite (nth_indep _ btrue ((fun e : BF * BF => bor (fst e) (bnot (snd e))) (bfalse, bfalse))).
          -- rewrite (map_nth (fun e : BF * BF => bor (fst e) (bnot (snd e)))). rewrite combine_nth by auto. cbn [fst snd].
             rewrite G3. rewrite EL, app_nth2, Nat.sub_diag by lia. reflexivity.
          -- rewrite map_length, combine_length, HT1, EL, app_length. cbn. lia.
  Qed.

  Lemma solvedC_pre w data gs : solvedC w data gs -> pre w.
  Proof. intros S. destruct (sc_iter _ _ _ S) as (K & ->). auto. Qed.
End COOP.
