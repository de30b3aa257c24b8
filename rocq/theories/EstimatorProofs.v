(** * Estimators: what the printed formulas and the warnings mean *)

From Coq Require Import String Ascii Arith List Bool Lia.
From Verif Require Import BDD Loop Spec VarTypes Synth Sem FixBase EstimatorSpec Parser Estimator.
Import ListNotations.

(** ** The domain of a loaded file *)
Definition kindOf (t : VariableType) : kind :=
  match t with
  | ControllablePre => Controllable
  | UnobservablePre => Unobservable
  | EstimationPre => Estimate
  | _ => Observable
  end.
Definition domain_of (c : ctx) : domain :=
  mkDomain (fun k => kindOf (nth (2 * k) (varTypes c) NoneVariableType))
           (fun k => name_wish (nth (2 * k) (varNames c) ""%string))
           (fun s => pos (initEnv c) s && pos (initSys c) s)
           (trans (safetyEnv c)) (trans (safetySys c)).

Definition estKind (t : VariableType) : bool :=
  match t with ObservablePre | ControllablePre | UnobservablePre | EstimationPre => true | _ => false end.

Record wfE (c : ctx) : Prop := mkWfE {
  wfE_kinds : exists kinds, varTypes c = typesOf kinds /\ forallb estKind kinds = true;
  wfE_initEnv : dep (isPreInV c) (initEnv c);
  wfE_initSys : dep (isPreV c) (initSys c);
  wfE_safetyEnv : dep (isPrePostInV c) (safetyEnv c);
  wfE_safetySys : dep (isAnyV c) (safetySys c)
}.

(** Quantification over some variables of a transition. *)
Lemma exists_tv L f s t : trans (bexists L f) s t = true <->
  exists s' t', (forall k, ~ In (2 * k) L -> s' k = s k) /\ (forall k, ~ In (2 * k + 1) L -> t' k = t k) /\ trans f s' t' = true.
Proof.
  unfold trans. rewrite eval_exists. split.
  - intros (e & Ha & He). exists (fun k => e (2 * k)), (fun k => e (2 * k + 1)). repeat split.
    + intros k Hk. rewrite <- Ha by exact Hk. now rewrite tv_even.
    + intros k Hk. rewrite <- Ha by exact Hk. now rewrite tv_odd.
    + rewrite <- He. apply eval_ext. intros v. destruct (even_cases v) as [[k ->]|[k ->]]; now rewrite ?tv_even, ?tv_odd.
  - intros (s' & t' & Hs & Ht & E). exists (tv s' t'). split; [|exact E]. intros v Hv.
    destruct (even_cases v) as [[k ->]|[k ->]]; rewrite ?tv_even, ?tv_odd; symmetry; auto.
Qed.

Section EST.
  Variable c : ctx.
  Hypothesis Hwf : wfE c.
  Local Notation D := (domain_of c).
  Local Notation n := (nvars c).
  Local Notation any := (dep (isAnyV c)).
  Local Notation pre := (dep (isPreV c)).

  Lemma Hk : exists kinds, varTypes c = typesOf kinds /\ forallb isPreKind kinds = true.
  Proof.
    destruct (wfE_kinds c Hwf) as (ks & E & F). exists ks. split; auto. rewrite forallb_forall in *. intros x Hx.
    specialize (F x Hx). destruct x; try discriminate F; reflexivity.
  Qed.
  Lemma type_est k : k < n -> estKind (nth (2 * k) (varTypes c) NoneVariableType) = true.
  Proof.
    intros L. pose proof (nvars_spec c Hk) as E. destruct (wfE_kinds c Hwf) as (ks & A & F).
    rewrite A, nth_typesOf_even. rewrite A, length_typesOf in E. rewrite forallb_forall in F. apply F, nth_In. lia.
  Qed.
  Lemma kind_big k : n <= k -> d_kind D k = Observable.
  Proof. intros L. cbn. rewrite (type_big c Hk) by lia. reflexivity. Qed.

  Lemma in_even k tys : In (2 * k) (varsOf (varTypes c) tys) <->
    k < n /\ exists ty, In ty tys /\ inherits (nth (2 * k) (varTypes c) NoneVariableType) ty = true.
  Proof. rewrite in_varsOf, (nvars_spec c Hk). split; intros [L H]; (split; [lia|exact H]). Qed.
  Lemma in_odd k tys : In (2 * k + 1) (varsOf (varTypes c) tys) <->
    k < n /\ exists ty, In ty tys /\ inherits (postOf (nth (2 * k) (varTypes c) NoneVariableType)) ty = true.
  Proof. rewrite in_varsOf, (nvars_spec c Hk), (type_odd c Hk). split; intros [L H]; (split; [lia|exact H]). Qed.

  Ltac kinds k := let T := fresh "T" in
    match goal with
    | L : k < n |- _ => pose proof (type_est k L) as T; revert T; cbn [d_kind domain_of] in *;
        destruct (nth (2 * k) (varTypes c) NoneVariableType); intros T; try discriminate T
    end.

  Lemma unobs_even k : In (2 * k) (varCubeUnobservables c) <-> d_kind D k = Unobservable.
  Proof.
    unfold varCubeUnobservables. rewrite in_even. split.
    - intros [L (ty & I & H)]. kinds k; cbn in I; repeat destruct I as [<-|I]; try discriminate H; try contradiction; auto; lia.
    - intros E. destruct (Nat.lt_ge_cases k n) as [L|L]; [|rewrite (kind_big k L) in E; discriminate E].
      kinds k; try discriminate E. split; [exact L|]. exists UnobservablePre. cbn. auto.
  Qed.
  Lemma unobs_odd k : In (2 * k + 1) (varCubeUnobservables c) <-> d_kind D k = Unobservable.
  Proof.
    unfold varCubeUnobservables. rewrite in_odd. split.
    - intros [L (ty & I & H)]. kinds k; cbn in I; repeat destruct I as [<-|I]; try discriminate H; try contradiction; auto; lia.
    - intros E. destruct (Nat.lt_ge_cases k n) as [L|L]; [|rewrite (kind_big k L) in E; discriminate E].
      kinds k; try discriminate E. split; [exact L|]. exists UnobservablePost. cbn. auto.
  Qed.
  Lemma est_even k : ~ In (2 * k) (varCubeEstimationPost c).
  Proof.
    unfold varCubeEstimationPost. rewrite in_even. intros [L (ty & I & H)].
    kinds k; cbn in I; repeat destruct I as [<-|I]; try discriminate H; try contradiction; lia.
  Qed.
  Lemma est_odd k : In (2 * k + 1) (varCubeEstimationPost c) <-> d_kind D k = Estimate.
  Proof.
    unfold varCubeEstimationPost. rewrite in_odd. split.
    - intros [L (ty & I & H)]. kinds k; cbn in I; repeat destruct I as [<-|I]; try discriminate H; try contradiction; auto; lia.
    - intros E. destruct (Nat.lt_ge_cases k n) as [L|L]; [|rewrite (kind_big k L) in E; discriminate E].
      kinds k; try discriminate E. split; [exact L|]. exists EstimationPost. cbn. auto.
  Qed.
  Lemma but_even k : In (2 * k) (varCubeEverythingBut c) <-> d_kind D k = Unobservable.
  Proof.
    unfold varCubeEverythingBut. rewrite in_even. split.
    - intros [L (ty & I & H)]. kinds k; cbn in I; repeat destruct I as [<-|I]; try discriminate H; try contradiction; auto; lia.
    - intros E. destruct (Nat.lt_ge_cases k n) as [L|L]; [|rewrite (kind_big k L) in E; discriminate E].
      kinds k; try discriminate E. split; [exact L|]. exists UnobservablePre. cbn. auto.
  Qed.
  Lemma but_odd k : In (2 * k + 1) (varCubeEverythingBut c) <-> d_kind D k <> Observable.
  Proof.
    unfold varCubeEverythingBut. rewrite in_odd. split.
    - intros [L (ty & I & H)]. kinds k; cbn in I; repeat destruct I as [<-|I]; try discriminate H; try contradiction; discriminate.
    - intros E. destruct (Nat.lt_ge_cases k n) as [L|L]; [|rewrite (kind_big k L) in E; now elim E].
      split; [exact L|]. kinds k; [now elim E|exists ControllablePost|exists UnobservablePost|exists EstimationPost]; cbn; tauto.
  Qed.

  Lemma kind_dec (a b : kind) : {a = b} + {a <> b}.
  Proof. decide equality. Defined.

  Lemma exUnobs f s t : trans (bexists (varCubeUnobservables c) f) s t = true <->
    exists s' t', looks_same D s s' /\ looks_same D t t' /\ trans f s' t' = true.
  Proof.
    rewrite exists_tv. split; intros (s' & t' & H1 & H2 & H3); exists s', t'; repeat split; auto.
    - intros k Hn. apply H1. now rewrite unobs_even.
    - intros k Hn. apply H2. now rewrite unobs_odd.
    - intros k Hn. apply H1. now rewrite <- unobs_even.
    - intros k Hn. apply H2. now rewrite <- unobs_odd.
  Qed.
  Lemma exBut f s t : trans (bexists (varCubeEverythingBut c) f) s t = true <->
    exists s' t', looks_same D s s' /\ same_observation D t t' /\ trans f s' t' = true.
  Proof.
    rewrite exists_tv. split; intros (s' & t' & H1 & H2 & H3); exists s', t'; repeat split; auto.
    - intros k Hn. apply H1. now rewrite but_even.
    - intros k Hn. apply H2. rewrite but_odd. tauto.
    - intros k Hn. apply H1. now rewrite <- but_even.
    - intros k Hn. apply H2. rewrite but_odd in Hn. destruct (kind_dec (d_kind D k) Observable); tauto.
  Qed.
  Lemma trans_eq2 f s s' t t' : (forall k, s k = s' k) -> (forall k, t k = t' k) -> trans f s t = trans f s' t'.
  Proof. intros H1 H2. apply eval_ext. intros v. destruct (even_cases v) as [[k ->]|[k ->]]; rewrite ?tv_even, ?tv_odd; auto. Qed.
  Lemma exEst f s t : trans (bexists (varCubeEstimationPost c) f) s t = true <->
    exists t', same_but_estimates D t t' /\ trans f s t' = true.
  Proof.
    rewrite exists_tv. split.
    - intros (s' & t' & H1 & H2 & H3). exists t'. split.
      + intros k Hn. apply H2. now rewrite est_odd.
      + rewrite <- H3. apply trans_eq2; auto. intros k. symmetry. apply H1, est_even.
    - intros (t' & H1 & H2). exists s, t'. repeat split; auto. intros k Hn. apply H1. now rewrite <- est_odd.
  Qed.
  Lemma faEst f s t : trans (bforall (varCubeEstimationPost c) f) s t = true <->
    forall t', same_but_estimates D t t' -> trans f s t' = true.
  Proof.
    assert (E : bforall (varCubeEstimationPost c) f = bnot (bexists (varCubeEstimationPost c) (bnot f))).
    { apply bf_ext. intros e. rewrite eval_not. apply eq_true_iff_eq. rewrite eval_forall, negb_true_iff, <- not_true_iff_false, eval_exists. split.
      - intros H (e' & A & B). rewrite eval_not, (H e' A) in B. discriminate.
      - intros H e' A. destruct (eval f e') eqn:E; auto. elim H. exists e'. rewrite eval_not, E. auto. }
    rewrite E, trans_not, negb_true_iff, <- not_true_iff_false, exEst. split.
    - intros H t' A. destruct (trans f s t') eqn:B; auto. elim H. exists t'. rewrite trans_not, B. auto.
    - intros H (t' & A & B). rewrite trans_not, (H t' A) in B. discriminate.
  Qed.
  Lemma exPost f s t : any f -> trans (bexists (varCubePost c) f) s t = true <-> exists t', trans f s t' = true.
  Proof.
    intros Df. rewrite exists_tv. split.
    - intros (s' & t' & H1 & H2 & H3). exists t'. rewrite <- H3. apply trans_eq2; auto. intros k. symmetry. apply H1.
      rewrite (in_cubePost c Hk). intros (j & E & _). lia.
    - intros (t' & H). exists s, (fun k => if Nat.ltb k n then t' k else t k). repeat split.
      + intros k Hn. destruct (Nat.ltb_spec k n) as [L|L]; auto. elim Hn. apply (in_cubePost c Hk). eauto.
      + rewrite <- H. apply (trans_ext c Hk f); auto. intros k L. apply Nat.ltb_lt in L. now rewrite L.
  Qed.
  Lemma exPre f s t : any f -> trans (bexists (varCubePre c) f) s t = true <-> exists s', trans f s' t = true.
  Proof.
    intros Df. rewrite exists_tv. split.
    - intros (s' & t' & H1 & H2 & H3). exists s'. rewrite <- H3. apply trans_eq2; auto. intros k. symmetry. apply H2.
      rewrite (in_cubePre c Hk). intros (j & E & _). lia.
    - intros (s' & H). exists (fun k => if Nat.ltb k n then s' k else s k), t. repeat split.
      + intros k Hn. destruct (Nat.ltb_spec k n) as [L|L]; auto. elim Hn. apply (in_cubePre c Hk). eauto.
      + rewrite <- H. apply (trans_ext c Hk f); auto. intros k L. apply Nat.ltb_lt in L. now rewrite L.
  Qed.

  (** ** Reachable states *)
  Definition imageE (T r : BF) : BF := swapPrePost c (bexists (varCubePre c) (band r T)).
  Lemma dep_exPreE f : any f -> dep (fun v => isAnyV c v /\ Nat.even v = false) (bexists (varCubePre c) f).
  Proof.
    intros Df. eapply dep_exists; [exact Df|]. intros v Hv Hn. split; [exact Hv|].
    destruct (even_cases v) as [[k ->]|[k ->]]; [|apply even_double1]. elim Hn. apply (in_cubePre c Hk). exists k.
    unfold isAnyV in Hv. rewrite (nvars_spec c Hk) in Hv. split; [reflexivity|lia].
  Qed.
  Lemma pre_imageE T r : any T -> pre r -> pre (imageE T r).
  Proof.
    intros DT Dr. unfold imageE, swapPrePost. eapply dep_swap; [apply dep_exPreE; apply dep_and; [now apply isPre_isAny|exact DT]|].
    intros v [Hv Ev]. destruct (even_cases v) as [[k ->]|[k ->]]; [rewrite even_double in Ev; discriminate|].
    unfold isAnyV in Hv. rewrite (nvars_spec c Hk) in Hv.
    pose proof (swap_tv c Hk (fun _ => false) (fun _ => true) (2 * k + 1)) as SW.
    split.
    - apply (swapf_bound c Hk). rewrite (nvars_spec c Hk). lia.
    - rewrite (nvars_spec c Hk) in SW. specialize (SW ltac:(lia)). rewrite tv_odd in SW.
      destruct (even_cases (swapf (varVectorPre c) (varVectorPost c) (2 * k + 1))) as [[j E]|[j E]]; rewrite E in *; [apply even_double|].
      rewrite tv_odd in SW. discriminate.
  Qed.
  Lemma imageE_spec T r t : any T -> pre r ->
    pos (imageE T r) t = true <-> exists s, pos r s = true /\ trans T s t = true.
  Proof.
    intros DT Dr. rewrite <- (pos_trans c _ t t (pre_imageE T r DT Dr)). unfold imageE.
    assert (A : any (band r T)) by (apply dep_and; [now apply isPre_isAny|exact DT]).
    rewrite (trans_swap c Hk); [|eapply dep_weaken; [|apply dep_exPreE, A]; now intros v [Hv _]].
    rewrite exPre by exact A. split; intros (s & E); exists s.
    - rewrite trans_and, andb_true_iff, (pos_trans c) in E by exact Dr. exact E.
    - rewrite trans_and, andb_true_iff, (pos_trans c) by exact Dr. exact E.
  Qed.
  Lemma pre_init : pre (band (initSys c) (initEnv c)).
  Proof. apply dep_and; [apply (wfE_initSys c Hwf)|apply dep_weaken with (2 := wfE_initEnv c Hwf); now intros v [H _]]. Qed.

  Lemma reachE_spec T : any T -> exists r, reachE c T = Some r /\ pre r /\
    forall s, pos r s = true <-> visits D (fun s t => trans T s t = true) s.
  Proof.
    intros DT. set (init := band (initSys c) (initEnv c)). pose proof pre_init as Hinit. fold init in Hinit.
    set (V := visits D (fun s t => trans T s t = true)).
    set (Inv := fun st : BF * BF => pre (fst st) /\ pre (snd st) /\ sub (snd st) (fst st) /\ sub init (fst st) /\
       (forall s t, pos (snd st) s = true -> trans T s t = true -> pos (fst st) t = true) /\
       (forall s, pos (fst st) s = true -> V s)).
    assert (Inv (init, bfalse)) as H0.
    { refine (conj _ (conj _ (conj _ (conj _ (conj _ _))))); cbn [fst snd].
      - exact Hinit.
      - apply dep_false.
      - apply sub_false.
      - apply sub_refl.
      - intros s t H. rewrite pos_false in H. discriminate.
      - intros s. unfold init. rewrite pos_and, andb_true_iff. intros [H1 H2]. apply visits_init. cbn. now rewrite H1, H2. }
    assert (forall st, Inv st -> match reachBodyE c T st with
              | Cont st' => Inv st' /\ 2 ^ nvars c - card c (snd st') < 2 ^ nvars c - card c (snd st)
              | Done _ => True | Abort => False end) as Hs.
    { intros [r old] (I1 & I2 & I3 & I4 & I5 & I6). cbn [fst snd] in *. unfold reachBodyE.
      destruct (bf_eqb_spec r old) as [|Hne]; [exact I|]. split.
      - fold (imageE T r). refine (conj _ (conj _ (conj _ (conj _ (conj _ _))))); cbn [fst snd].
        + apply dep_or; [exact I1|now apply pre_imageE].
        + exact I1.
        + apply sub_or_l.
        + eapply sub_trans; [exact I4|apply sub_or_l].
        + intros s t H1 H2. rewrite pos_or, (proj2 (imageE_spec T r t DT I1)); [apply orb_true_r|eauto].
        + intros t. rewrite pos_or, orb_true_iff, imageE_spec by assumption.
          intros [H|(s & H1 & H2)]; [auto|]. eapply visits_step; [apply I6; exact H1|exact H2].
      - cbn [snd]. assert (card c old < card c r) by (apply card_lt; auto; exact Hk).
        pose proof (card_bound c r). lia. }
    destruct (run_total (reachBodyE c T) Inv (fun st => 2 ^ nvars c - card c (snd st)) (fpFuel c) (init, bfalse) H0 Hs) as (r & Er & Hr).
    { apply pow_lt_fuel; [exact Hk|lia]. }
    exists r. split; [exact Er|].
    assert (Inv (r, r)) as (I1 & _ & _ & I4 & I5 & I6).
    { destruct (Runs_last (reachBodyE c T) Inv _ _ Hr H0) as ([r' old] & HI & E).
      - intros st st' HI E. specialize (Hs st HI). rewrite E in Hs. exact (proj1 Hs).
      - unfold reachBodyE in E. destruct (bf_eqb_spec r' old) as [->|]; [|discriminate]. injection E as ->. exact HI. }
    cbn [fst snd] in *. split; [exact I1|]. intros s. split; [apply I6|].
    induction 1 as [s E|s t _ IH E].
    - apply I4. unfold init. rewrite pos_and. cbn in E. apply andb_true_iff in E. destruct E as [E1 E2]. now rewrite E1, E2.
    - exact (I5 s t IH E).
  Qed.
  Lemma visits_ext (R R' : state -> state -> Prop) s : (forall s t, visits D R s -> R s t -> R' s t) -> visits D R s -> visits D R' s.
  Proof. intros H. induction 1 as [s E|s t V IH E]; [now apply visits_init|]. eapply visits_step; eauto. Qed.

  Lemma any_env : any (safetyEnv c).
  Proof. eapply dep_weaken; [|apply (wfE_safetyEnv c Hwf)]. now intros v [H _]. Qed.
  Lemma any_sys : any (safetySys c).
  Proof. apply (wfE_safetySys c Hwf). Qed.

  (** ** The estimator *)
  Lemma estimator0_spec reach : pre reach ->
    (forall s, pos reach s = true <-> visits D (fun s t => trans (band (safetyEnv c) (safetySys c)) s t = true) s) ->
    forall s t, trans (estimator0 c reach) s t = true <-> safe_update D s t.
  Proof.
    intros Dr Hr s t. unfold estimator0. rewrite trans_not, negb_true_iff, <- not_true_iff_false, exUnobs.
    assert (V : forall s, pos reach s = true <-> visits D (fun s t => d_env D s t = true /\ d_sys D s t = true) s).
    { intros s0. rewrite Hr. split; apply visits_ext; intros a b _; rewrite trans_and, andb_true_iff; auto. }
    split.
    - intros H s' t' L1 L2 Hv He. destruct (d_sys D s' t') eqn:E; auto. elim H. exists s', t'. split; auto. split; auto.
      rewrite !trans_and, trans_not, (pos_trans c) by exact Dr. apply V in Hv. rewrite Hv. cbn in He, E. now rewrite He, E.
    - intros H (s' & t' & L1 & L2 & E). rewrite !trans_and, trans_not, (pos_trans c), !andb_true_iff, negb_true_iff in E by exact Dr.
      destruct E as [[E1 E2] E3]. apply V in E1. pose proof (H s' t' L1 L2 E1 E2) as X. cbn in X. congruence.
  Qed.

  (** The wishes for variables with numbers of at least [m] are considered. *)
  Definition wish k := if kind_dec (d_kind D k) Estimate then d_wish D k else None.
  Definition betterFrom (m : nat) (t' t : state) : Prop :=
    exists k b, m <= 2 * k /\ wish k = Some b /\ t' k = b /\ t k = negb b /\
      forall j b', k < j -> wish j = Some b' -> t' j = t j.
  Definition bestFrom (m : nat) (s t : state) : Prop :=
    safe_update D s t /\ forall t', same_but_estimates D t t' -> safe_update D s t' -> ~ betterFrom m t' t.

  Lemma wish_spec k b : wish k = Some b <-> d_kind D k = Estimate /\ d_wish D k = Some b.
  Proof. unfold wish. destruct (kind_dec (d_kind D k) Estimate); split; try tauto; try discriminate. Qed.
  Lemma better_from t' t : better D t' t <-> betterFrom 0 t' t.
  Proof.
    split.
    - intros (k & b & H1 & H2 & H3 & H4 & H5). exists k, b. rewrite wish_spec. repeat split; auto; [lia|].
      intros j b' L W. apply wish_spec in W. destruct W. eauto.
    - intros (k & b & _ & W & H3 & H4 & H5). apply wish_spec in W. destruct W. exists k, b. repeat split; auto.
      intros j b' L K W. apply (H5 j b' L). now apply wish_spec.
  Qed.

  (** Two states fulfil the wishes from [k] on equally, or one is better. *)
  Lemma compare k (t t' : state) : (forall j b, k <= j -> wish j = Some b -> t' j = t j) \/
    (exists j b, k <= j /\ wish j = Some b /\ t' j <> t j /\ forall i b', j < i -> wish i = Some b' -> t' i = t i).
  Proof.
    assert (W : forall j b, wish j = Some b -> j < n).
    { intros j b H. apply wish_spec in H. destruct (Nat.lt_ge_cases j n) as [L|L]; auto. rewrite (kind_big j L) in H. destruct H. discriminate. }
    destruct (Nat.le_gt_cases n k) as [L|L].
    { left. intros j b H1 H2. apply W in H2. lia. }
    replace k with (n - (n - k)) by lia. assert (n - k <= n) as B by lia. revert B. generalize (n - k) as d. induction d as [|d IH]; intros B.
    - left. intros j b H1 H2. apply W in H2. lia.
    - destruct IH as [IH|(j & b & H1 & H2)]; [lia| |right; exists j, b; split; [lia|exact H2]].
      destruct (wish (n - S d)) as [b|] eqn:E.
      + destruct (bool_dec (t' (n - S d)) (t (n - S d))) as [X|X].
        * left. intros j b' H1 H2. destruct (Nat.eq_dec j (n - S d)) as [->|]; auto. apply (IH j b'); auto. lia.
        * right. exists (n - S d), b. repeat split; auto. intros i b' H1 H2. apply (IH i b'); auto. lia.
      + left. intros j b' H1 H2. destruct (Nat.eq_dec j (n - S d)) as [->|]; [congruence|]. apply (IH j b'); auto. lia.
  Qed.

  Lemma sbe_sym t t' : same_but_estimates D t t' -> same_but_estimates D t' t.
  Proof. intros H k Hn. symmetry. auto. Qed.
  Lemma sbe_trans t t' t'' : same_but_estimates D t t' -> same_but_estimates D t' t'' -> same_but_estimates D t t''.
  Proof. intros H1 H2 k Hn. rewrite H2; auto. Qed.
  Lemma betterFrom_le m m' t t' : m <= m' -> betterFrom m' t t' -> betterFrom m t t'.
  Proof. intros L (k & b & H & R). exists k, b. split; [lia|exact R]. Qed.

  (** One more wish. *)
  Lemma best_step k b s t : wish k = Some b ->
    (bestFrom (2 * k) s t <-> bestFrom (2 * k + 1) s t /\
       (~ (exists t', same_but_estimates D t t' /\ bestFrom (2 * k + 1) s t' /\ t' k = b) \/ t k = b)).
  Proof.
    intros W. split.
    - intros [Sa H]. split.
      + split; auto. intros t' H1 H2 H3. apply (H t' H1 H2). eapply betterFrom_le; [|exact H3]. lia.
      + destruct (bool_dec (t k) b) as [E|N]; [now right|left]. intros (t' & H1 & [S' H'] & E').
        apply (H t' H1 S').
        destruct (compare (S k) t t') as [C|(j & b' & L & Wj & Nj & Rj)].
        * exists k, b. repeat split; auto. destruct (t k), b; auto; now elim N.
        * exfalso. destruct (bool_dec (t' j) b') as [X|X].
          -- apply (H t' H1 S'). exists j, b'. split; [lia|]. split; [exact Wj|]. split; [exact X|]. split; [|exact Rj].
             revert X Nj. destruct (t j), (t' j), b'; intros; congruence || reflexivity.
          -- apply (H' t (sbe_sym _ _ H1) Sa). exists j, b'. split; [lia|]. split; [exact Wj|].
             split; [revert X Nj; destruct (t j), (t' j), b'; intros; congruence || reflexivity|].
             split; [revert X; destruct (t' j), b'; intros; congruence || reflexivity|].
             intros i b'' Li Wi. symmetry. eauto.
    - intros [[Sa H] HD]. split; auto. intros u H1 Su (j & b' & L & Wj & Uj & Tj & Rj).
      destruct (Nat.eq_dec j k) as [->|Nj].
      + assert (Eb : b' = b) by congruence. rewrite Eb in Tj, Uj. destruct HD as [HD|HD]; [|exfalso; rewrite HD in Tj; clear - Tj; destruct b; discriminate Tj].
        apply HD. exists u. split; auto. split; auto. split; auto. intros v V1 V2 (i & bi & Li & Wi & Vi & Ui & Ri).
        apply (H v (sbe_trans _ _ _ H1 V1) V2). exists i, bi. repeat split; auto.
        * rewrite <- (Rj i bi); auto. lia.
        * intros x bx Lx Wx. rewrite (Ri x bx Lx Wx). apply (Rj x bx); auto. lia.
      + apply (H u H1 Su). exists j, b'. repeat split; auto. lia.
  Qed.
  Lemma best_skip k s t : wish k = None -> (bestFrom (2 * k) s t <-> bestFrom (2 * k + 1) s t).
  Proof.
    intros W. split; intros [Sa H]; split; auto; intros t' H1 H2 H3; apply (H t' H1 H2).
    - eapply betterFrom_le; [|exact H3]. lia.
    - destruct H3 as (j & b & L & Wj & R). exists j, b. split; [|auto]. destruct (Nat.eq_dec j k) as [->|]; [congruence|lia].
  Qed.
  Lemma best_odd k s t : bestFrom (2 * k + 1) s t <-> bestFrom (2 * S k) s t.
  Proof.
    split; intros [Sa H]; split; auto; intros t' H1 H2 (j & b & L & R); apply (H t' H1 H2); exists j, b; (split; [lia|exact R]).
  Qed.

  Lemma refine_spec F i : (forall s t, trans F s t = true <-> bestFrom (S i) s t) ->
    i < length (varTypes c) -> forall s t, trans (refine c F i) s t = true <-> bestFrom i s t.
  Proof.
    intros HF Li s t. destruct (even_cases i) as [[k ->]|[k ->]].
    - rewrite (nvars_spec c Hk) in Li. assert (Lk : k < n) by lia. pose proof (type_est k Lk) as T.
      replace (S (2 * k)) with (2 * k + 1) in HF by lia.
      assert (EW : wish k = if inherits (nth (2 * k) (varTypes c) NoneVariableType) EstimationPre then name_wish (nth (2 * k) (varNames c) ""%string) else None).
      { unfold wish. cbn [domain_of d_kind d_wish]. destruct (nth (2 * k) (varTypes c) NoneVariableType); try discriminate T; reflexivity. }
      unfold refine. replace (S (2 * k)) with (2 * k + 1) by lia.
      destruct (inherits (nth (2 * k) (varTypes c) NoneVariableType) EstimationPre); [|rewrite HF, best_skip; tauto].
      unfold name_wish in EW.
      assert (VT : forall a, trans (bvar (2 * k + 1)) s a = a k) by (intros a; unfold trans; now rewrite eval_var, tv_odd).
      destruct (prefix "min_" (nth (2 * k) (varNames c) ""%string)); [|destruct (prefix "max_" (nth (2 * k) (varNames c) ""%string))].
      3: rewrite HF, best_skip; tauto.
      + rewrite (best_step k true) by exact EW.
        rewrite trans_and, trans_or, trans_not, VT, andb_true_iff, orb_true_iff, negb_true_iff, <- not_true_iff_false, exEst, HF.
        apply and_iff_compat_l. apply or_iff_compat_r. apply not_iff_compat.
        split; intros (t' & H1 & H2); exists t'.
        * rewrite trans_and, andb_true_iff, HF, VT in H2. tauto.
        * rewrite trans_and, andb_true_iff, HF, VT. tauto.
      + rewrite (best_step k false) by exact EW.
        rewrite trans_and, trans_or, !trans_not, VT, andb_true_iff, orb_true_iff, !negb_true_iff, <- (not_true_iff_false (trans (bexists _ _) _ _)), exEst, HF.
        apply and_iff_compat_l. apply or_iff_compat_r. apply not_iff_compat.
        split; intros (t' & H1 & H2); exists t'.
        * rewrite trans_and, andb_true_iff, HF, trans_not, VT, negb_true_iff in H2. tauto.
        * rewrite trans_and, andb_true_iff, HF, trans_not, VT, negb_true_iff. tauto.
    - unfold refine. rewrite (type_odd c Hk). rewrite (nvars_spec c Hk) in Li. assert (Lk : k < n) by lia. pose proof (type_est k Lk) as T.
      replace (inherits (postOf (nth (2 * k) (varTypes c) NoneVariableType)) EstimationPre) with false
        by (destruct (nth (2 * k) (varTypes c) NoneVariableType); try discriminate T; reflexivity).
      rewrite HF, best_odd. now replace (S (2 * k + 1)) with (2 * S k) by lia.
  Qed.

  Lemma estimatorOf_spec reach : pre reach ->
    (forall s, pos reach s = true <-> visits D (fun s t => trans (band (safetyEnv c) (safetySys c)) s t = true) s) ->
    forall s t, trans (estimatorOf c reach) s t = true <-> best_update D s t.
  Proof.
    intros Dr Hr. unfold estimatorOf.
    assert (G : forall m F, m <= length (varTypes c) -> (forall s t, trans F s t = true <-> bestFrom m s t) ->
      forall s t, trans (fold_left (refine c) (rev (seq 0 m)) F) s t = true <-> bestFrom 0 s t).
    { induction m as [|m IH]; intros F L HF; [exact HF|]. rewrite seq_S, rev_app_distr. cbn [rev app fold_left plus].
      apply IH; [lia|]. apply refine_spec; auto; lia. }
    intros s t. rewrite (G (length (varTypes c)) _ (le_n _)).
    - unfold bestFrom, best_update. split; intros [Sa H]; split; auto; intros t' H1 H2 H3; apply (H t' H1 H2); now apply better_from.
    - clear s t. intros s t. rewrite (estimator0_spec reach Dr Hr). split; [|intros [Sa _]; exact Sa].
      intros Sa. split; auto. intros t' _ _ (k & b & L & W & _). apply wish_spec in W. destruct W as [W _].
      rewrite (nvars_spec c Hk) in L. rewrite kind_big in W by lia. discriminate.
  Qed.

  Lemma any_unobs f : any f -> any (bexists (varCubeUnobservables c) f).
  Proof. intros H. eapply dep_exists; [exact H|]. auto. Qed.
  Lemma any_refine F i : any F -> i < length (varTypes c) -> any (refine c F i).
  Proof.
    intros H L. unfold refine. destruct (inherits (nth i (varTypes c) NoneVariableType) EstimationPre) eqn:E; auto.
    assert (V : any (bvar (S i))).
    { apply dep_var. unfold isAnyV. rewrite (nvars_spec c Hk) in *. destruct (even_cases i) as [[k ->]|[k ->]]; [lia|].
      exfalso. rewrite (type_odd c Hk) in E. assert (Lk : k < n) by lia. pose proof (type_est k Lk) as T.
      destruct (nth (2 * k) (varTypes c) NoneVariableType); try discriminate T; discriminate E. }
    assert (X : forall f, any f -> any (bexists (varCubeEstimationPost c) f)) by (intros f Df; eapply dep_exists; [exact Df|]; auto).
    destruct (prefix "min_" _); [|destruct (prefix "max_" _); auto].
    - apply dep_and; auto. apply dep_or; auto. apply dep_not, X, dep_and; auto.
    - apply dep_and; auto. apply dep_or; [apply dep_not, X, dep_and; auto; now apply dep_not|now apply dep_not].
  Qed.
  Lemma any_estimator reach : pre reach -> any (estimatorOf c reach).
  Proof.
    intros Dr. unfold estimatorOf.
    assert (G : forall l F, (forall i, In i l -> i < length (varTypes c)) -> any F -> any (fold_left (refine c) l F)).
    { induction l as [|i l IH]; intros F H HF; cbn; auto. apply IH; [intros j Hj; apply H; now right|]. apply any_refine; auto. apply H. now left. }
    apply G.
    - intros i Hi. rewrite <- in_rev, in_seq in Hi. lia.
    - apply dep_not, any_unobs. apply dep_and; [apply dep_and; [now apply isPre_isAny|apply any_env]|apply dep_not, any_sys].
  Qed.

  (** *** Consequences *)
  Lemma best_sound s t : visits D (fun s t => d_env D s t = true /\ d_sys D s t = true) s -> d_env D s t = true -> best_update D s t ->
    d_sys D s t = true.
  Proof. intros V E [Sa _]. apply (Sa s t); auto; intros k _; reflexivity. Qed.
  Lemma visits_best s : visits D (fun s t => d_env D s t = true /\ best_update D s t) s ->
    visits D (fun s t => d_env D s t = true /\ d_sys D s t = true) s.
  Proof.
    induction 1 as [s E|s t V IH [E B]]; [now apply visits_init|]. eapply visits_step; [exact IH|]. split; auto. now apply best_sound.
  Qed.

  (** ** All results *)
  Theorem estimation_spec : exists e, estimation c = Some e /\
    let B := fun s t => trans (e_sys e) s t = true in
    let V := visits D (fun s t => d_env D s t = true /\ B s t) in
    any (e_sys e) /\ any (e_env e) /\ any (e_all e) /\
    (e_noInitial e = true <-> forall s, d_init D s = false) /\
    (forall s t, B s t <-> best_update D s t) /\
    (forall s t, trans (e_env e) s t = true <-> looks_possible D B s t) /\
    (e_envDead e = true <-> exists s, V s /\ forall t, ~ looks_possible D B s t) /\
    (e_sysDead e = true <-> exists s t, V s /\ (exists t, looks_possible D B s t) /\ forall t', same_but_estimates D t t' -> ~ B s t') /\
    (forall s t, trans (e_all e) s t = true <-> V s /\ d_env D s t = true /\ B s t).
  Proof.
    pose proof any_env as De. pose proof any_sys as Ds.
    destruct (reachE_spec (band (safetyEnv c) (safetySys c))) as (r & Er & Dr & Hr); [apply dep_and; auto|].
    unfold estimation. rewrite Er. set (F := estimatorOf c r).
    pose proof (estimatorOf_spec r Dr Hr) as HF. fold F in HF. pose proof (any_estimator r Dr) as DF. fold F in DF.
    destruct (reachE_spec (band (band (safetyEnv c) (safetySys c)) F)) as (r2 & Er2 & Dr2 & Hr2); [apply dep_and; auto; apply dep_and; auto|].
    rewrite Er2. set (A := assumptionOf c r2).
    assert (DA : any A).
    { unfold A, assumptionOf. eapply dep_exists; [|intros v Hv _; exact Hv]. apply dep_and; auto. now apply isPre_isAny. }
    set (B := fun s t => trans F s t = true).
    set (V := visits D (fun s t => d_env D s t = true /\ B s t)).
    assert (V2 : forall s, pos r2 s = true <-> V s).
    { intros s. rewrite Hr2. split.
      - apply visits_ext. intros a b _. rewrite !trans_and, !andb_true_iff. unfold B. tauto.
      - intros H. unfold V in H. induction H as [s E|s t V' IH [E H]]; [now apply visits_init|]. eapply visits_step; [exact IH|].
        rewrite !trans_and, H. cbn in E. rewrite E. replace (trans (safetySys c) s t) with true; auto. symmetry.
        apply (best_sound s t); auto; [|now apply HF]. apply visits_best. revert V'. apply visits_ext. intros a b _ [X Y]. split; auto. now apply HF. }
    assert (HA : forall s t, trans A s t = true <-> looks_possible D B s t).
    { intros s t. unfold A, assumptionOf. rewrite exBut. unfold looks_possible. fold V.
      split; intros (s' & t' & H1 & H2 & H3); exists s', t'; (split; [exact H1|split; [exact H2|]]).
      - rewrite trans_and, andb_true_iff, (pos_trans c) in H3 by exact Dr2. destruct H3 as [X Y]. split; [now apply V2|exact Y].
      - rewrite trans_and, andb_true_iff, (pos_trans c) by exact Dr2. destruct H3 as [X Y]. split; [now apply V2|exact Y]. }
    assert (PA : forall s t, V s -> d_env D s t = true -> trans A s t = true).
    { intros s t Hv He. apply HA. exists s, t. repeat split; auto; intros k _; reflexivity. }
    destruct (reachE_spec (band (band (safetyEnv c) A) F)) as (r3 & Er3 & Dr3 & Hr3); [apply dep_and; auto; apply dep_and; auto|].
    rewrite Er3.
    assert (V3 : forall s, pos r3 s = true <-> V s).
    { intros s. rewrite Hr3. split.
      - apply visits_ext. intros a b _. rewrite !trans_and, !andb_true_iff. unfold B. tauto.
      - intros H. unfold V in H. induction H as [s E|s t V' IH [E H]]; [now apply visits_init|]. eapply visits_step; [exact IH|].
        rewrite !trans_and, H, PA by auto. cbn in E. now rewrite E. }
    eexists. split; [reflexivity|]. cbn [e_noInitial e_sys e_env e_envDead e_sysDead e_all].
    fold B. cbv zeta. fold V.
    assert (X1 : forall s t, trans (envDeadEnds c A r3) s t = true <-> V s /\ forall t, ~ looks_possible D B s t).
    { intros s t. unfold envDeadEnds. rewrite trans_and, trans_not, andb_true_iff, negb_true_iff, <- not_true_iff_false, (pos_trans c r3), V3 by exact Dr3.
      rewrite exPost by exact DA. split.
      - intros [H1 H2]. split; auto. intros t' H. apply H1. exists t'. now apply HA.
      - intros [H1 H2]. split; auto. intros (t' & H). apply (H2 t'). now apply HA. }
    assert (some : forall f, negb (isFalse f) = true <-> exists s t, trans f s t = true).
    { intros f. rewrite negb_true_iff, isFalse_false. split.
      - intros (e & E). exists (fun k => e (2 * k)), (fun k => e (2 * k + 1)). rewrite <- E. apply eval_ext.
        intros v. destruct (even_cases v) as [[k ->]|[k ->]]; now rewrite ?tv_even, ?tv_odd.
      - intros (s & t & E). exists (tv s t). exact E. }
    split; [exact DF|]. split; [exact DA|]. split; [apply dep_and; [apply dep_and; auto; apply dep_and; auto|now apply isPre_isAny]|].
    split; [|split; [exact HF|split; [exact HA|split; [|split]]]].
    - rewrite isFalse_spec. split.
      + intros H s. destruct (d_init D s) eqn:E; auto. assert (X : pos r s = true) by (apply Hr; now apply visits_init).
        unfold pos in X. rewrite H in X. discriminate.
      + intros H e. destruct (eval r e) eqn:E; auto. exfalso.
        assert (X : exists s, pos r s = true).
        { exists (fun k => e (2 * k)). rewrite <- (pos_trans c _ _ (fun k => e (2 * k + 1)) Dr), <- E. apply eval_ext.
          intros v. destruct (even_cases v) as [[k ->]|[k ->]]; now rewrite ?tv_even, ?tv_odd. }
        destruct X as (s & X). apply Hr in X. induction X as [s X|]; auto. rewrite H in X. discriminate.
    - rewrite some. split; intros (s & H).
      + destruct H as (t & H). apply X1 in H. eauto.
      + exists s, s. now apply X1.
    - rewrite some. split; intros (s & t & H); exists s, t.
      + unfold sysDeadEnds in H. rewrite !trans_and, trans_not, !andb_true_iff, negb_true_iff, <- not_true_iff_false, X1, faEst, (pos_trans c r3), V3 in H by exact Dr3.
        destruct H as [[H1 H2] H3]. split; auto. split.
        * destruct (trans (bexists (varCubePost c) A) s s) eqn:E.
          -- apply exPost in E; auto. destruct E as (t' & E). exists t'. now apply HA.
          -- exfalso. apply H1. split; auto. intros t' X. apply HA in X. apply not_true_iff_false in E. apply E. apply exPost; eauto.
        * intros t' X Y. specialize (H2 t' X). rewrite trans_not in H2. unfold B in Y. rewrite Y in H2. discriminate.
      + unfold sysDeadEnds. rewrite !trans_and, trans_not, !andb_true_iff, negb_true_iff, <- not_true_iff_false, X1, faEst, (pos_trans c r3), V3 by exact Dr3.
        destruct H as (H1 & (t' & H2) & H3). split; auto. split.
        * intros [_ X]. apply (X t' H2).
        * intros u Hu. rewrite trans_not. specialize (H3 u Hu). unfold B in H3. destruct (trans F s u); [now elim H3|reflexivity].
    - intros s t. rewrite !trans_and, !andb_true_iff, (pos_trans c r3), V3 by exact Dr3. unfold B. split.
      + intros [[[H1 H2] H3] H4]. repeat split; auto.
      + intros (H1 & H2 & H3). repeat split; auto.
  Qed.

  (** ** There is a best update if there is a safe one *)
  Lemma ex_class f s t t' : same_but_estimates D t t' ->
    trans (bexists (varCubeEstimationPost c) f) s t' = trans (bexists (varCubeEstimationPost c) f) s t.
  Proof.
    intros H. apply eq_true_iff_eq. rewrite !exEst. split; intros (u & H1 & H2); exists u; (split; [|exact H2]).
    - now apply (sbe_trans t t').
    - apply (sbe_trans t' t); auto. now apply sbe_sym.
  Qed.
  Lemma refine_total F i s t : (exists t', same_but_estimates D t t' /\ trans F s t' = true) ->
    exists t', same_but_estimates D t t' /\ trans (refine c F i) s t' = true.
  Proof.
    intros (u & Hu & HF).
    assert (G : forall x, exists t', same_but_estimates D t t' /\
      trans (band F (bor (bnot (bexists (varCubeEstimationPost c) (band F x))) x)) s t' = true).
    { intros x. destruct (trans (bexists (varCubeEstimationPost c) (band F x)) s t) eqn:E.
      - pose proof E as E0. apply exEst in E0. destruct E0 as (t' & H1 & H2). exists t'. split; auto.
        rewrite trans_and, andb_true_iff in H2. destruct H2 as [H2 H3]. rewrite trans_and, trans_or, H2, H3. now rewrite orb_true_r.
      - exists u. split; auto. rewrite trans_and, trans_or, trans_not, (ex_class _ s t u Hu), E, HF. reflexivity. }
    unfold refine. destruct (inherits _ EstimationPre); [|eauto]. destruct (prefix "min_" _); [apply G|].
    destruct (prefix "max_" _); [apply G|eauto].
  Qed.
  Lemma best_exists s t : safe_update D s t -> exists t', same_but_estimates D t t' /\ best_update D s t'.
  Proof.
    intros Sa. destruct (reachE_spec (band (safetyEnv c) (safetySys c))) as (r & _ & Dr & Hr); [apply dep_and; [apply any_env|apply any_sys]|].
    assert (G : forall l F, (exists t', same_but_estimates D t t' /\ trans F s t' = true) ->
      exists t', same_but_estimates D t t' /\ trans (fold_left (refine c) l F) s t' = true).
    { induction l as [|i l IH]; intros F HF; [exact HF|]. cbn [fold_left]. apply IH. now apply refine_total. }
    destruct (G (rev (seq 0 (length (varTypes c)))) (estimator0 c r)) as (t' & H1 & H2).
    - exists t. split; [intros k _; reflexivity|]. now apply (estimator0_spec r Dr Hr).
    - exists t'. split; auto. now apply (estimatorOf_spec r Dr Hr).
  Qed.

  (** ** Updates are told by what can be seen *)
  Lemma looks_sym s s' : looks_same D s s' -> looks_same D s' s.
  Proof. intros H k Hn. symmetry. auto. Qed.
  Lemma looks_trans s s' s'' : looks_same D s s' -> looks_same D s' s'' -> looks_same D s s''.
  Proof. intros H1 H2 k Hn. rewrite H2; auto. Qed.
  Lemma safe_looks s t s' t' : looks_same D s s' -> looks_same D t t' -> safe_update D s t -> safe_update D s' t'.
  Proof. intros H1 H2 Sa a b Ha Hb. apply Sa; eapply looks_trans; eauto. Qed.
  Lemma best_looks s t s' t' : looks_same D s s' -> looks_same D t t' -> best_update D s t -> best_update D s' t'.
  Proof.
    intros H1 H2 [Sa HB]. split; [now apply (safe_looks s t)|]. intros u Hu Su (k & b & K & W & U & T & R).
    apply (HB (fun j => if kind_dec (d_kind D j) Estimate then u j else t j)).
    - intros j Hj. destruct (kind_dec (d_kind D j) Estimate); [contradiction|reflexivity].
    - apply (safe_looks s' u); auto; [now apply looks_sym|]. intros j Hj. destruct (kind_dec (d_kind D j) Estimate); [reflexivity|].
      rewrite (Hu j) by assumption. symmetry. now apply H2.
    - exists k, b. split; [exact K|]. split; [exact W|]. destruct (kind_dec (d_kind D k) Estimate); [|contradiction].
      split; [exact U|]. split; [rewrite <- T; symmetry; apply H2; congruence|]. intros j b' L Kj Wj.
      destruct (kind_dec (d_kind D j) Estimate); [|contradiction]. rewrite (R j b') by auto. apply H2. congruence.
  Qed.
  Lemma possible_looks B s t s' t' : looks_same D s s' -> same_observation D t t' -> looks_possible D B s t -> looks_possible D B s' t'.
  Proof.
    intros H1 H2 (a & b & Ha & Hb & R). exists a, b. split; [eapply looks_trans; [apply looks_sym; exact H1|exact Ha]|]. split; [|exact R].
    intros k Hn. rewrite (Hb k Hn). symmetry. auto.
  Qed.
  Lemma run_visits (B : state -> state -> Prop) pi m : runs_with D B pi m -> forall i, i <= m -> visits D (fun s t => d_env D s t = true /\ B s t) (pi i).
  Proof.
    intros [H0 H]. induction i as [|i IH]; intros L; [now apply visits_init|]. eapply visits_step; [apply IH; lia|]. apply H. lia.
  Qed.
  Lemma visits_run (B : state -> state -> Prop) s : visits D (fun s t => d_env D s t = true /\ B s t) s ->
    exists pi m, runs_with D B pi m /\ pi m = s.
  Proof.
    induction 1 as [s E|s t V (pi & m & [H0 H] & E) R].
    - exists (fun _ => s), 0. repeat split; auto; lia.
    - exists (fun i => if Nat.leb i m then pi i else t), (S m). split; [split|].
      + exact H0.
      + intros i Li. destruct (Nat.leb_spec i m) as [L1|L1]; [|lia]. destruct (Nat.leb_spec (S i) m) as [L2|L2]; [apply H; lia|].
        replace i with m by lia. now rewrite E.
      + destruct (Nat.leb_spec (S m) m); [lia|reflexivity].
  Qed.
End EST.
