(** * Meaning of the model's Boolean functions as sets of positions and transitions *)

From Coq Require Import Arith List Bool Lia.
From Verif Require Import BDD Spec VarTypes.
Import ListNotations.

(** ** From contexts to games (part of the specification) *)

(** The valuation of the BDD variables that encodes a transition: variable 2k is
    the current and 2k+1 the next value of the k-th declared variable. *)
Definition tv (s t : state) : nat -> bool :=
  fun v => if Nat.even v then s (Nat.div2 v) else t (Nat.div2 v).

(** Output variables of a loaded specification. *)
Definition isOut (c : ctx) (k : nat) : bool :=
  inherits (nth (2 * k) (varTypes c) NoneVariableType) PreOutput.

(** A Boolean function as a set of positions / of transitions. *)
Definition pos (f : BF) (s : state) : bool := eval f (tv s s).
Definition trans (f : BF) (s t : state) : bool := eval f (tv s t).

(** The GR(1) game denoted by a loaded specification. *)
Definition game_of (c : ctx) : game :=
  mkGame (isOut c) (pos (initEnv c)) (pos (initSys c))
         (trans (safetyEnv c)) (trans (safetySys c))
         (map trans (livenessAssumptions c)) (map trans (livenessGuarantees c)).

(** ** Well-formed contexts *)

(** The next-value type that belongs to a current-value type. *)
Definition postOf (t : VariableType) : VariableType :=
  match t with
  | Pre => Post
  | PreInput => PostInput
  | PreOutput => PostOutput
  | PreOutputFast => PostOutputFast
  | PreOutputSlow => PostOutputSlow
  | PreOutputBefore => PostOutputBefore
  | PreOutputAfter => PostOutputAfter
  | ObservablePre => ObservablePost
  | ControllablePre => ControllablePost
  | UnobservablePre => UnobservablePost
  | EstimationPre => EstimationPost
  | PreMotionState => PostMotionState
  | PreOtherOutput => PostOtherOutput
  | PreMotionControlOutput => PostMotionControlOutput
  | CurrentLivenessAssumptionCounterPre => CurrentLivenessAssumptionCounterPost
  | IsInftyCostPre => IsInftyCostPost
  | _ => NoneVariableType
  end.

Definition isPreKind (k : VariableType) : bool := inherits k PreInput || inherits k PreOutput.

Definition typesOf (kinds : list VariableType) : list VariableType :=
  flat_map (fun k => [k; postOf k]) kinds.

(** Supports. *)
Definition isPreV (c : ctx) (v : nat) : Prop := v < length (varTypes c) /\ Nat.even v = true.
Definition isPreInV (c : ctx) (v : nat) : Prop := isPreV c v /\ isOut c (Nat.div2 v) = false.
Definition isPrePostInV (c : ctx) (v : nat) : Prop :=
  v < length (varTypes c) /\ (Nat.even v = true \/ isOut c (Nat.div2 v) = false).
Definition isAnyV (c : ctx) (v : nat) : Prop := v < length (varTypes c).

Record wf (c : ctx) : Prop := mkWf {
  wf_kinds : exists kinds, varTypes c = typesOf kinds /\ forallb isPreKind kinds = true;
  wf_initEnv : dep (isPreInV c) (initEnv c);
  wf_initSys : dep (isPreV c) (initSys c);
  wf_safetyEnv : dep (isPrePostInV c) (safetyEnv c);
  wf_safetySys : dep (isAnyV c) (safetySys c);
  wf_asm : Forall (dep (isAnyV c)) (livenessAssumptions c);
  wf_gua : Forall (dep (isAnyV c)) (livenessGuarantees c);
  wf_asm_ne : livenessAssumptions c <> [];
  wf_gua_ne : livenessGuarantees c <> []
}.

(** ** Facts about types and vectors *)

Lemma inherits_post k : isPreKind k = true ->
  inherits (postOf k) PostInput = inherits k PreInput /\
  inherits (postOf k) PostOutput = inherits k PreOutput /\
  inherits (postOf k) PreInput = false /\ inherits (postOf k) PreOutput = false /\
  inherits k PostInput = false /\ inherits k PostOutput = false /\
  inherits (postOf k) Post = true /\ inherits (postOf k) Pre = false /\
  inherits k Post = false /\ inherits k Pre = true /\
  inherits k PreInput = negb (inherits k PreOutput).
Proof. destruct k; cbv; intros H; try discriminate; repeat split. Qed.

Lemma even_double n : Nat.even (2 * n) = true.
Proof. rewrite Nat.even_mul. reflexivity. Qed.
Lemma even_double1 n : Nat.even (2 * n + 1) = false.
Proof. rewrite Nat.even_add, Nat.even_mul. reflexivity. Qed.
Lemma div2_double1 n : Nat.div2 (2 * n + 1) = n.
Proof. rewrite Nat.add_1_r. apply Nat.div2_succ_double. Qed.

Lemma even_cases v : (exists k, v = 2 * k) \/ (exists k, v = 2 * k + 1).
Proof.
  destruct (Nat.even v) eqn:E.
  - apply Nat.even_spec in E. destruct E as [k ->]. left. exists k. lia.
  - assert (Nat.odd v = true) as O by (unfold Nat.odd; now rewrite E).
    apply Nat.odd_spec in O. destruct O as [k ->]. right. exists k. lia.
Qed.

Lemma tv_even s t k : tv s t (2 * k) = s k.
Proof. unfold tv. now rewrite even_double, Nat.div2_double. Qed.
Lemma tv_odd s t k : tv s t (2 * k + 1) = t k.
Proof. unfold tv. now rewrite even_double1, div2_double1. Qed.

Lemma length_typesOf kinds : length (typesOf kinds) = 2 * length kinds.
Proof. induction kinds as [|k ks IH]; cbn [typesOf flat_map app length] in *; auto. unfold typesOf in IH. rewrite IH. lia. Qed.

Lemma nth_typesOf_even kinds : forall k,
  nth (2 * k) (typesOf kinds) NoneVariableType = nth k kinds NoneVariableType.
Proof.
  induction kinds as [|a ks IH]; intros k.
  - destruct k; reflexivity.
  - destruct k as [|k]; [reflexivity|].
    replace (2 * S k) with (S (S (2 * k))) by lia. cbn [typesOf flat_map app nth]. apply IH.
Qed.
Lemma nth_typesOf_odd kinds : forall k,
  nth (2 * k + 1) (typesOf kinds) NoneVariableType = postOf (nth k kinds NoneVariableType).
Proof.
  induction kinds as [|a ks IH]; intros k.
  - destruct k; reflexivity.
  - destruct k as [|k]; [reflexivity|].
    replace (2 * S k + 1) with (S (S (2 * k + 1))) by lia. cbn [typesOf flat_map app nth]. apply IH.
Qed.

Lemma in_varsOf types tys v : In v (varsOf types tys) <->
  v < length types /\ exists ty, In ty tys /\ inherits (nth v types NoneVariableType) ty = true.
Proof.
  unfold varsOf. rewrite in_flat_map. split.
  - intros (ty & Hty & H). rewrite filter_In, in_seq in H. split; [lia|]. exists ty. tauto.
  - intros (Hl & ty & Hty & H). exists ty. rewrite filter_In, in_seq. repeat split; auto; lia.
Qed.

Section WF.
  Variable c : ctx.
  Hypothesis Hwf : exists kinds, varTypes c = typesOf kinds /\ forallb isPreKind kinds = true.

  (** Number of declared variables. *)
  Definition nvars : nat := Nat.div2 (length (varTypes c)).

  Lemma nvars_spec : length (varTypes c) = 2 * nvars.
  Proof.
    destruct Hwf as (kinds & E & _). unfold nvars. rewrite E, length_typesOf, Nat.div2_double. reflexivity.
  Qed.

  Lemma type_even k : k < nvars ->
    isPreKind (nth (2 * k) (varTypes c) NoneVariableType) = true.
  Proof.
    intros Hk. pose proof nvars_spec as L. destruct Hwf as (kinds & E & F).
    rewrite E, nth_typesOf_even. rewrite E, length_typesOf in L.
    rewrite forallb_forall in F. apply F. apply nth_In. lia.
  Qed.
  Lemma type_odd k : nth (2 * k + 1) (varTypes c) NoneVariableType
                     = postOf (nth (2 * k) (varTypes c) NoneVariableType).
  Proof.
    destruct Hwf as (kinds & E & F). rewrite E, nth_typesOf_even. apply nth_typesOf_odd.
  Qed.
  Lemma type_big v : 2 * nvars <= v -> nth v (varTypes c) NoneVariableType = NoneVariableType.
  Proof. intros H. apply nth_overflow. rewrite nvars_spec. lia. Qed.

  Lemma isOut_big k : nvars <= k -> isOut c k = false.
  Proof. intros H. unfold isOut. rewrite type_big by lia. reflexivity. Qed.

  Lemma isIn_spec k : k < nvars ->
    inherits (nth (2 * k) (varTypes c) NoneVariableType) PreInput = negb (isOut c k).
  Proof. intros H. apply type_even in H. apply inherits_post in H. unfold isOut. tauto. Qed.

  Ltac types :=
    repeat match goal with
    | k : nat, H : ?k < nvars |- _ =>
        lazymatch goal with
        | H' : isPreKind (nth (2 * k) _ _) = true |- _ => fail
        | _ => pose proof (type_even k H)
        end
    end.

  Lemma in_PostOutput v : In v (varCubePostOutput c) <->
    exists k, v = 2 * k + 1 /\ k < nvars /\ isOut c k = true.
  Proof.
    unfold varCubePostOutput. rewrite in_varsOf, nvars_spec. split.
    - intros (L & ty & [<-|[]] & H). destruct (even_cases v) as [[k ->]|[k ->]];
        assert (Hk : k < nvars) by lia; pose proof (type_even k Hk) as T; apply inherits_post in T.
      + destruct T as (_ & _ & _ & _ & _ & T & _). congruence.
      + exists k. repeat split; auto. rewrite type_odd in H. unfold isOut. destruct T as (_ & T & _). congruence.
    - intros (k & -> & L & H). split; [lia|]. exists PostOutput. split; [now left|].
      rewrite type_odd. pose proof (type_even k L) as T; apply inherits_post in T.
      unfold isOut in H. destruct T as (_ & T & _). congruence.
  Qed.

  Lemma in_PostInput v : In v (varCubePostInput c) <->
    exists k, v = 2 * k + 1 /\ k < nvars /\ isOut c k = false.
  Proof.
    unfold varCubePostInput. rewrite in_varsOf, nvars_spec. split.
    - intros (L & ty & [<-|[]] & H). destruct (even_cases v) as [[k ->]|[k ->]];
        assert (Hk : k < nvars) by lia; pose proof (isIn_spec k Hk) as I;
        pose proof (type_even k Hk) as T; apply inherits_post in T.
      + destruct T as (_ & _ & _ & _ & T & _). congruence.
      + exists k. repeat split; auto. rewrite type_odd in H. destruct T as (T & _).
        rewrite T in H. rewrite I in H. now destruct (isOut c k).
    - intros (k & -> & L & H). split; [lia|]. exists PostInput. split; [now left|].
      rewrite type_odd. pose proof (isIn_spec k L) as I.
      pose proof (type_even k L) as T; apply inherits_post in T.
      destruct T as (T & _). rewrite T, I, H. reflexivity.
  Qed.

  Lemma in_PreOutput v : In v (varCubePreOutput c) <->
    exists k, v = 2 * k /\ k < nvars /\ isOut c k = true.
  Proof.
    unfold varCubePreOutput. rewrite in_varsOf, nvars_spec. split.
    - intros (L & ty & [<-|[]] & H). destruct (even_cases v) as [[k ->]|[k ->]];
        assert (Hk : k < nvars) by lia; pose proof (type_even k Hk) as T; apply inherits_post in T.
      + exists k. repeat split; auto.
      + rewrite type_odd in H. destruct T as (_ & _ & _ & T & _). congruence.
    - intros (k & -> & L & H). split; [lia|]. exists PreOutput. split; [now left|]. exact H.
  Qed.

  Lemma in_PreInput v : In v (varCubePreInput c) <->
    exists k, v = 2 * k /\ k < nvars /\ isOut c k = false.
  Proof.
    unfold varCubePreInput. rewrite in_varsOf, nvars_spec. split.
    - intros (L & ty & [<-|[]] & H). destruct (even_cases v) as [[k ->]|[k ->]];
        assert (Hk : k < nvars) by lia; pose proof (isIn_spec k Hk) as I;
        pose proof (type_even k Hk) as T; apply inherits_post in T.
      + exists k. repeat split; auto. rewrite I in H. now destruct (isOut c k).
      + rewrite type_odd in H. destruct T as (_ & _ & T & _). congruence.
    - intros (k & -> & L & H). split; [lia|]. exists PreInput. split; [now left|].
      rewrite (isIn_spec k L), H. reflexivity.
  Qed.

  Lemma in_cubePre v : In v (varCubePre c) <-> exists k, v = 2 * k /\ k < nvars.
  Proof.
    replace (varCubePre c) with (varCubePreOutput c ++ varCubePreInput c).
    2:{ unfold varCubePre, varCubePreOutput, varCubePreInput, varsOf. cbn. now rewrite !app_nil_r. }
    rewrite in_app_iff, in_PreOutput, in_PreInput. split.
    - intros [(k & -> & H & _)|(k & -> & H & _)]; eauto.
    - intros (k & -> & H). destruct (isOut c k) eqn:E; [left|right]; exists k; auto.
  Qed.

  Lemma in_cubePost v : In v (varCubePost c) <-> exists k, v = 2 * k + 1 /\ k < nvars.
  Proof.
    replace (varCubePost c) with (varCubePostOutput c ++ varCubePostInput c).
    2:{ unfold varCubePost, varCubePostOutput, varCubePostInput, varsOf. cbn. now rewrite !app_nil_r. }
    rewrite in_app_iff, in_PostOutput, in_PostInput. split.
    - intros [(k & -> & H & _)|(k & -> & H & _)]; eauto.
    - intros (k & -> & H). destruct (isOut c k) eqn:E; [left|right]; exists k; auto.
  Qed.

  Lemma in_preVars v : In v (preVars c) <-> exists k, v = 2 * k /\ k < nvars.
  Proof.
    unfold preVars. rewrite in_varsOf, nvars_spec. split.
    - intros (L & ty & [<-|[]] & H). destruct (even_cases v) as [[k ->]|[k ->]];
        assert (Hk : k < nvars) by lia; pose proof (type_even k Hk) as T; apply inherits_post in T.
      + exists k. auto.
      + rewrite type_odd in H. intuition congruence.
    - intros (k & -> & L). split; [lia|]. exists Pre. split; [now left|].
      pose proof (type_even k L) as T; apply inherits_post in T. tauto.
  Qed.

  Lemma in_postVars v : In v (postVars c) <-> exists k, v = 2 * k + 1 /\ k < nvars.
  Proof.
    unfold postVars. rewrite in_varsOf, nvars_spec. split.
    - intros (L & ty & [<-|[]] & H). destruct (even_cases v) as [[k ->]|[k ->]];
        assert (Hk : k < nvars) by lia; pose proof (type_even k Hk) as T; apply inherits_post in T.
      + intuition congruence.
      + exists k. auto.
    - intros (k & -> & L). split; [lia|]. exists Post. split; [now left|]. rewrite type_odd.
      pose proof (type_even k L) as T; apply inherits_post in T. tauto.
  Qed.

  (** The swap of current and next variables. *)
  Lemma swap_lists ty ty' :
    (forall k, k < nvars -> inherits (nth (2 * k) (varTypes c) NoneVariableType) ty =
               inherits (nth (2 * k + 1) (varTypes c) NoneVariableType) ty' /\
               inherits (nth (2 * k + 1) (varTypes c) NoneVariableType) ty = false /\
               inherits (nth (2 * k) (varTypes c) NoneVariableType) ty' = false) ->
    Forall2 (fun x y => exists k, x = 2 * k /\ y = 2 * k + 1)
      (varsOf (varTypes c) [ty]) (varsOf (varTypes c) [ty']).
  Proof.
    intros H. unfold varsOf. cbn [flat_map]. rewrite !app_nil_r, nvars_spec.
    assert (G : forall n, n <= nvars ->
      Forall2 (fun x y => exists k, x = 2 * k /\ y = 2 * k + 1)
        (filter (fun i => inherits (nth i (varTypes c) NoneVariableType) ty) (seq 0 (2 * n)))
        (filter (fun i => inherits (nth i (varTypes c) NoneVariableType) ty') (seq 0 (2 * n)))).
    { induction n as [|n IH]; intros Hn; [constructor|].
      replace (2 * S n) with (2 * n + 2) by lia. rewrite seq_app, !filter_app.
      apply Forall2_app; [apply IH; lia|].
      cbn [Nat.add seq filter]. replace (S (2 * n)) with (2 * n + 1) by lia.
      destruct (H n Hn) as (E1 & E2 & E3). rewrite E2, E3, <- E1.
      destruct (inherits (nth (2 * n) (varTypes c) NoneVariableType) ty); repeat constructor.
      exists n. auto. }
    apply G. lia.
  Qed.

  Lemma swapf_spec xs ys :
    Forall2 (fun x y => exists k, x = 2 * k /\ y = 2 * k + 1) xs ys ->
    forall k, swapf xs ys (2 * k) = (if in_dec Nat.eq_dec (2 * k) xs then 2 * k + 1 else 2 * k) /\
              swapf xs ys (2 * k + 1) = (if in_dec Nat.eq_dec (2 * k) xs then 2 * k else 2 * k + 1).
  Proof.
    induction 1 as [|x y xs ys (m & -> & ->) H IH]; intros k.
    - cbn. auto.
    - destruct (IH k) as [I1 I2]. cbn [swapf].
      destruct (Nat.eq_dec k m) as [->|Hne].
      + destruct (in_dec Nat.eq_dec (2 * m) (2 * m :: xs)) as [_|N]; [|elim N; now left].
        rewrite !Nat.eqb_refl. split; auto.
        destruct (Nat.eqb_spec (2 * m + 1) (2 * m)); [lia|]. reflexivity.
      + rewrite I1, I2.
        replace (2 * k =? 2 * m) with false by (symmetry; apply Nat.eqb_neq; lia).
        replace (2 * k =? 2 * m + 1) with false by (symmetry; apply Nat.eqb_neq; lia).
        replace (2 * k + 1 =? 2 * m) with false by (symmetry; apply Nat.eqb_neq; lia).
        replace (2 * k + 1 =? 2 * m + 1) with false by (symmetry; apply Nat.eqb_neq; lia).
        destruct (in_dec Nat.eq_dec (2 * k) xs) as [I|N];
          destruct (in_dec Nat.eq_dec (2 * k) (2 * m :: xs)) as [I'|N']; auto.
        * elim N'. now right.
        * destruct I' as [E|I']; [lia|contradiction].
  Qed.

  Lemma vectors_spec :
    Forall2 (fun x y => exists k, x = 2 * k /\ y = 2 * k + 1) (varVectorPre c) (varVectorPost c).
  Proof.
    replace (varVectorPre c) with (varsOf (varTypes c) [PreInput] ++ varsOf (varTypes c) [PreOutput]).
    2:{ unfold varVectorPre, varsOf. cbn. now rewrite !app_nil_r. }
    replace (varVectorPost c) with (varsOf (varTypes c) [PostInput] ++ varsOf (varTypes c) [PostOutput]).
    2:{ unfold varVectorPost, varsOf. cbn. now rewrite !app_nil_r. }
    apply Forall2_app; apply swap_lists; intros k Hk; rewrite type_odd;
      pose proof (type_even k Hk) as T; apply inherits_post in T; intuition congruence.
  Qed.

  Lemma in_varVectorPre k : In (2 * k) (varVectorPre c) <-> k < nvars.
  Proof.
    unfold varVectorPre. rewrite in_varsOf, nvars_spec. split; [lia|].
    intros H. split; [lia|]. pose proof (type_even k H) as T. unfold isPreKind in T.
    apply orb_true_iff in T. destruct T as [T|T]; eexists; (split; [|exact T]); cbn; auto.
  Qed.

  Lemma swap_tv s t v : v < length (varTypes c) ->
    tv s t (swapf (varVectorPre c) (varVectorPost c) v) = tv t s v.
  Proof.
    rewrite nvars_spec. intros L. pose proof (swapf_spec _ _ vectors_spec) as S.
    destruct (even_cases v) as [[k ->]|[k ->]]; destruct (S k) as [S1 S2];
      assert (k < nvars) as Hk by lia; apply in_varVectorPre in Hk;
      destruct (in_dec Nat.eq_dec (2 * k) (varVectorPre c)); try contradiction;
      rewrite ?S1, ?S2, ?tv_even, ?tv_odd; reflexivity.
  Qed.

  Lemma trans_swap f s t : dep (isAnyV c) f -> trans (swapPrePost c f) s t = trans f t s.
  Proof.
    intros H. unfold trans, swapPrePost. rewrite eval_swap. apply H.
    intros v Hv. now apply swap_tv.
  Qed.

  Lemma swapf_bound v : v < length (varTypes c) ->
    swapf (varVectorPre c) (varVectorPost c) v < length (varTypes c).
  Proof.
    rewrite nvars_spec. intros L. pose proof (swapf_spec _ _ vectors_spec) as S.
    destruct (even_cases v) as [[k ->]|[k ->]]; destruct (S k) as [S1 S2];
      rewrite ?S1, ?S2; destruct (in_dec _ _ _); lia.
  Qed.

  Lemma dep_swapPrePost f : dep (isAnyV c) f -> dep (isAnyV c) (swapPrePost c f).
  Proof. intros H. eapply dep_swap; [exact H|]. intros v. apply swapf_bound. Qed.

  (** Quantifiers. *)
  Definition mrg (x y : state) : state := fun k => if isOut c k then y k else x k.

  Lemma exPostOut_trans f s t :
    trans (bexists (varCubePostOutput c) f) s t = true <-> exists y, trans f s (mrg t y) = true.
  Proof.
    unfold trans. rewrite eval_exists. split.
    - intros (e & Ha & He). exists (fun k => e (2 * k + 1)). rewrite <- He.
      apply eval_ext. intros v. destruct (even_cases v) as [[k ->]|[k ->]]; rewrite ?tv_even, ?tv_odd.
      + rewrite <- Ha; [now rewrite tv_even|]. rewrite in_PostOutput. intros (m & E & _). lia.
      + unfold mrg. destruct (isOut c k) eqn:E; auto.
        rewrite <- Ha; [now rewrite tv_odd|]. rewrite in_PostOutput. intros (m & E' & _ & O).
        assert (k = m) by lia. congruence.
    - intros (y & H). exists (tv s (mrg t y)). split; auto.
      intros v Hv. destruct (even_cases v) as [[k ->]|[k ->]]; rewrite ?tv_even, ?tv_odd; auto.
      unfold mrg. destruct (isOut c k) eqn:E; auto. elim Hv. apply in_PostOutput.
      exists k. repeat split; auto. destruct (Nat.lt_ge_cases k nvars); auto.
      rewrite isOut_big in E by auto. discriminate.
  Qed.

  Lemma faPostOut_trans f s t :
    trans (bforall (varCubePostOutput c) f) s t = true <-> forall y, trans f s (mrg t y) = true.
  Proof.
    unfold trans. rewrite eval_forall. split.
    - intros H y. apply H.
      intros v Hv. destruct (even_cases v) as [[k ->]|[k ->]]; rewrite ?tv_even, ?tv_odd; auto.
      unfold mrg. destruct (isOut c k) eqn:E; auto. elim Hv. apply in_PostOutput.
      exists k. repeat split; auto. destruct (Nat.lt_ge_cases k nvars); auto.
      rewrite isOut_big in E by auto. discriminate.
    - intros H e Ha. rewrite <- (H (fun k => e (2 * k + 1))).
      apply eval_ext. intros v. destruct (even_cases v) as [[k ->]|[k ->]]; rewrite ?tv_even, ?tv_odd.
      + rewrite <- Ha; [now rewrite tv_even|]. rewrite in_PostOutput. intros (m & E & _). lia.
      + unfold mrg. destruct (isOut c k) eqn:E; auto.
        rewrite <- Ha; [now rewrite tv_odd|]. rewrite in_PostOutput. intros (m & E' & _ & O).
        assert (k = m) by lia. congruence.
  Qed.

  Lemma faPostIn_trans f s t : dep (isAnyV c) f ->
    trans (bforall (varCubePostInput c) f) s t = true <-> forall x, trans f s (mrg x t) = true.
  Proof.
    intros D. unfold trans. rewrite eval_forall. split.
    - intros H x. rewrite <- (H (tv s (fun k => if Nat.ltb k nvars then mrg x t k else t k))).
      + apply D. intros v Hv. unfold isAnyV in Hv. rewrite nvars_spec in Hv.
        destruct (even_cases v) as [[k ->]|[k ->]]; rewrite ?tv_even, ?tv_odd; auto.
        replace (k <? nvars) with true; auto. symmetry. apply Nat.ltb_lt. lia.
      + intros v Hv. destruct (even_cases v) as [[k ->]|[k ->]]; rewrite ?tv_even, ?tv_odd; auto.
        destruct (Nat.ltb_spec k nvars); auto. unfold mrg. destruct (isOut c k) eqn:E; auto.
        elim Hv. apply in_PostInput. exists k. auto.
    - intros H e Ha. rewrite <- (H (fun k => e (2 * k + 1))).
      apply eval_ext. intros v. destruct (even_cases v) as [[k ->]|[k ->]]; rewrite ?tv_even, ?tv_odd.
      + rewrite <- Ha; [now rewrite tv_even|]. rewrite in_PostInput. intros (m & E & _). lia.
      + unfold mrg. destruct (isOut c k) eqn:E; auto.
        rewrite <- Ha; [now rewrite tv_odd|]. rewrite in_PostInput. intros (m & E' & _ & O).
        assert (k = m) by lia. congruence.
  Qed.

  Lemma exPostIn_trans f s t : dep (isAnyV c) f ->
    trans (bexists (varCubePostInput c) f) s t = true <-> exists x, trans f s (mrg x t) = true.
  Proof.
    intros D. split.
    - unfold trans. rewrite eval_exists. intros (e & Ha & He). exists (fun k => e (2 * k + 1)). rewrite <- He.
      apply eval_ext. intros v. destruct (even_cases v) as [[k ->]|[k ->]]; rewrite ?tv_even, ?tv_odd.
      + rewrite <- Ha; [now rewrite tv_even|]. rewrite in_PostInput. intros (m & E & _). lia.
      + unfold mrg. destruct (isOut c k) eqn:E; auto.
        rewrite <- Ha; [now rewrite tv_odd|]. rewrite in_PostInput. intros (m & E' & _ & O).
        assert (k = m) by lia. congruence.
    - intros (x & H). unfold trans. rewrite eval_exists.
      exists (tv s (fun k => if Nat.ltb k nvars then mrg x t k else t k)). split.
      + intros v Hv. destruct (even_cases v) as [[k ->]|[k ->]]; rewrite ?tv_even, ?tv_odd; auto.
        destruct (Nat.ltb_spec k nvars); auto. unfold mrg. destruct (isOut c k) eqn:E; auto.
        elim Hv. apply in_PostInput. exists k. auto.
      + rewrite <- H. apply D. intros v Hv. unfold isAnyV in Hv. rewrite nvars_spec in Hv.
        destruct (even_cases v) as [[k ->]|[k ->]]; rewrite ?tv_even, ?tv_odd; auto.
        replace (k <? nvars) with true; auto. symmetry. apply Nat.ltb_lt. lia.
  Qed.

  (** Functions of the current variables only. *)
  Lemma pos_trans f s t : dep (isPreV c) f -> trans f s t = pos f s.
  Proof.
    intros D. apply D. intros v [_ E]. unfold tv. now rewrite E.
  Qed.

  Lemma isPre_isAny f : dep (isPreV c) f -> dep (isAnyV c) f.
  Proof. apply dep_weaken. now intros v [H _]. Qed.

  Lemma trans_swap_pos f s t : dep (isPreV c) f -> trans (swapPrePost c f) s t = pos f t.
  Proof. intros D. rewrite trans_swap by now apply isPre_isAny. now apply pos_trans. Qed.

  Lemma exPreOut_pos f s : dep (isPreV c) f ->
    pos (bexists (varCubePreOutput c) f) s = true <-> exists y, pos f (mrg s y) = true.
  Proof.
    intros D. unfold pos. rewrite eval_exists. split.
    - intros (e & Ha & He). exists (fun k => e (2 * k)). rewrite <- He.
      apply D. intros v [Hv E]. destruct (even_cases v) as [[k ->]|[k ->]];
        [|rewrite even_double1 in E; discriminate].
      rewrite tv_even. unfold mrg. destruct (isOut c k) eqn:O; auto.
      rewrite <- Ha; [now rewrite tv_even|]. rewrite in_PreOutput. intros (m & E' & _ & O').
      assert (k = m) by lia. congruence.
    - intros (y & H). exists (tv (mrg s y) s). split.
      + intros v Hv. destruct (even_cases v) as [[k ->]|[k ->]]; rewrite ?tv_even, ?tv_odd; auto.
        unfold mrg. destruct (isOut c k) eqn:E; auto. elim Hv. apply in_PreOutput.
        exists k. repeat split; auto. destruct (Nat.lt_ge_cases k nvars); auto.
        rewrite isOut_big in E by auto. discriminate.
      + rewrite <- H. apply (pos_trans f (mrg s y) s D).
  Qed.

  Lemma faPreOut_pos f s : dep (isPreV c) f ->
    pos (bforall (varCubePreOutput c) f) s = true <-> forall y, pos f (mrg s y) = true.
  Proof.
    intros D. unfold pos. rewrite eval_forall. split.
    - intros H y. rewrite <- (H (tv (mrg s y) s)).
      + symmetry. apply (pos_trans f (mrg s y) s D).
      + intros v Hv. destruct (even_cases v) as [[k ->]|[k ->]]; rewrite ?tv_even, ?tv_odd; auto.
        unfold mrg. destruct (isOut c k) eqn:E; auto. elim Hv. apply in_PreOutput.
        exists k. repeat split; auto. destruct (Nat.lt_ge_cases k nvars); auto.
        rewrite isOut_big in E by auto. discriminate.
    - intros H e Ha. rewrite <- (H (fun k => e (2 * k))).
      apply D. intros v [Hv E]. destruct (even_cases v) as [[k ->]|[k ->]];
        [|rewrite even_double1 in E; discriminate].
      rewrite tv_even. unfold mrg. destruct (isOut c k) eqn:O; auto.
      rewrite <- Ha; [now rewrite tv_even|]. rewrite in_PreOutput. intros (m & E' & _ & O').
      assert (k = m) by lia. congruence.
  Qed.

  (** A function of the current inputs only, universally quantified over them. *)
  Lemma faPreIn_const f : dep (isPreInV c) f -> forall e,
    eval (bforall (varCubePreInput c) f) e = true <-> forall s, pos f s = true.
  Proof.
    intros D e. rewrite eval_forall. split.
    - intros H s. rewrite <- (H (fun v => if in_dec Nat.eq_dec v (varCubePreInput c) then tv s s v else e v)).
      + apply D. intros v [[Hv E] O]. destruct (in_dec _ _ _) as [I|N]; auto.
        elim N. apply in_PreInput. destruct (even_cases v) as [[k ->]|[k ->]];
          [|rewrite even_double1 in E; discriminate].
        exists k. rewrite Nat.div2_double in O. rewrite nvars_spec in Hv. repeat split; auto. lia.
      + intros v Hv. destruct (in_dec _ _ _); auto. contradiction.
    - intros H e' Ha. rewrite <- (H (fun k => e' (2 * k))).
      apply D. intros v [[Hv E] O]. destruct (even_cases v) as [[k ->]|[k ->]];
        [|rewrite even_double1 in E; discriminate]. now rewrite tv_even.
  Qed.

  Lemma pos_ext f s t : dep (isPreV c) f -> (forall k, k < nvars -> s k = t k) -> pos f s = pos f t.
  Proof.
    intros D H. apply D. intros v [Hv E]. rewrite nvars_spec in Hv.
    destruct (even_cases v) as [[k ->]|[k ->]]; [|rewrite even_double1 in E; discriminate].
    rewrite !tv_even. apply H. lia.
  Qed.

  Lemma trans_ext f s t s' t' : dep (isAnyV c) f -> (forall k, k < nvars -> s k = s' k) ->
    (forall k, k < nvars -> t k = t' k) -> trans f s t = trans f s' t'.
  Proof.
    intros D H H'. apply D. intros v Hv. unfold isAnyV in Hv. rewrite nvars_spec in Hv.
    destruct (even_cases v) as [[k ->]|[k ->]]; rewrite ?tv_even, ?tv_odd; [apply H|apply H']; lia.
  Qed.

  (** Every pair of functions on positions that agree everywhere are equal. *)
  Lemma pos_inj f g : dep (isPreV c) f -> dep (isPreV c) g -> (forall s, pos f s = pos g s) -> f = g.
  Proof.
    intros Df Dg H. apply bf_ext. intros e.
    rewrite (Df e (tv (fun k => e (2 * k)) (fun k => e (2 * k)))).
    rewrite (Dg e (tv (fun k => e (2 * k)) (fun k => e (2 * k)))).
    - apply H.
    - intros v [_ E]. destruct (even_cases v) as [[k ->]|[k ->]];
        [|rewrite even_double1 in E; discriminate]. now rewrite tv_even.
    - intros v [_ E]. destruct (even_cases v) as [[k ->]|[k ->]];
        [|rewrite even_double1 in E; discriminate]. now rewrite tv_even.
  Qed.

  Lemma trans_inj f g : (forall s t, trans f s t = trans g s t) -> f = g.
  Proof.
    intros H. apply bf_ext. intros e.
    rewrite (eval_ext f e (tv (fun k => e (2 * k)) (fun k => e (2 * k + 1)))).
    rewrite (eval_ext g e (tv (fun k => e (2 * k)) (fun k => e (2 * k + 1)))).
    - apply H.
    - intros v. destruct (even_cases v) as [[k ->]|[k ->]]; now rewrite ?tv_even, ?tv_odd.
    - intros v. destruct (even_cases v) as [[k ->]|[k ->]]; now rewrite ?tv_even, ?tv_odd.
  Qed.
End WF.

(** ** Simple evaluation facts *)
Lemma pos_and f g s : pos (band f g) s = pos f s && pos g s.
Proof. apply eval_and. Qed.
Lemma pos_or f g s : pos (bor f g) s = pos f s || pos g s.
Proof. apply eval_or. Qed.
Lemma pos_not f s : pos (bnot f) s = negb (pos f s).
Proof. apply eval_not. Qed.
Lemma pos_imp f g s : pos (bimp f g) s = implb (pos f s) (pos g s).
Proof. apply eval_imp. Qed.
Lemma pos_true s : pos btrue s = true. Proof. reflexivity. Qed.
Lemma pos_false s : pos bfalse s = false. Proof. reflexivity. Qed.
Lemma trans_and f g s t : trans (band f g) s t = trans f s t && trans g s t.
Proof. apply eval_and. Qed.
Lemma trans_or f g s t : trans (bor f g) s t = trans f s t || trans g s t.
Proof. apply eval_or. Qed.
Lemma trans_not f s t : trans (bnot f) s t = negb (trans f s t).
Proof. apply eval_not. Qed.
Lemma trans_imp f g s t : trans (bimp f g) s t = implb (trans f s t) (trans g s t).
Proof. apply eval_imp. Qed.
Lemma trans_true s t : trans btrue s t = true. Proof. reflexivity. Qed.
Lemma trans_false s t : trans bfalse s t = false. Proof. reflexivity. Qed.
#[global] Hint Rewrite pos_and pos_or pos_not pos_imp pos_true pos_false
  trans_and trans_or trans_not trans_imp trans_true trans_false : sem.

(** ** Counting: chains of sets of positions are short *)

(** All Boolean vectors of a given length. *)
Fixpoint vectors (n : nat) : list (list bool) :=
  match n with
  | O => [[]]
  | S n => map (cons false) (vectors n) ++ map (cons true) (vectors n)
  end.

Definition ofVec (l : list bool) : state := fun k => nth k l false.
Definition toVec (n : nat) (s : state) : list bool := map s (seq 0 n).

Lemma vectors_length n : length (vectors n) = 2 ^ n.
Proof.
  induction n as [|n IH]; auto. cbn [vectors]. rewrite app_length, !map_length, IH. cbn. lia.
Qed.

Lemma in_vectors n : forall l, length l = n -> In l (vectors n).
Proof.
  induction n as [|n IH]; intros l H.
  - destruct l; [now left|discriminate].
  - destruct l as [|b l]; [discriminate|]. injection H as H. cbn [vectors]. apply in_app_iff.
    destruct b; [right|left]; apply in_map; auto.
Qed.

Lemma toVec_in n s : In (toVec n s) (vectors n).
Proof. apply in_vectors. unfold toVec. now rewrite map_length, seq_length. Qed.

Lemma ofVec_toVec n s k : k < n -> ofVec (toVec n s) k = s k.
Proof.
  intros H. unfold ofVec, toVec.
  rewrite (nth_indep _ false (s 0)) by now rewrite map_length, seq_length.
  rewrite map_nth, seq_nth by auto. reflexivity.
Qed.

(** Number of positions in a set. *)
Definition card (c : ctx) (f : BF) : nat :=
  length (filter (fun l => pos f (ofVec l)) (vectors (nvars c))).

Lemma filter_length_le {A} (p q : A -> bool) l : (forall x, In x l -> p x = true -> q x = true) ->
  length (filter p l) <= length (filter q l).
Proof.
  induction l as [|a l IH]; intros H; cbn; auto.
  assert (IH' := IH (fun x Hx => H x (or_intror Hx))).
  specialize (H a (or_introl eq_refl)).
  destruct (p a); [rewrite H by auto; cbn; lia|]. destruct (q a); cbn; lia.
Qed.

Lemma filter_length_lt {A} (p q : A -> bool) l : (forall x, In x l -> p x = true -> q x = true) ->
  (exists x, In x l /\ p x = false /\ q x = true) ->
  length (filter p l) < length (filter q l).
Proof.
  induction l as [|a l IH]; intros H (x & Hx & Hp & Hq); [destruct Hx|].
  assert (L := filter_length_le p q l (fun x Hx => H x (or_intror Hx))).
  cbn. destruct Hx as [->|Hx].
  - rewrite Hp, Hq. cbn. lia.
  - assert (IH' := IH (fun x Hx => H x (or_intror Hx)) (ex_intro _ x (conj Hx (conj Hp Hq)))).
    specialize (H a (or_introl eq_refl)).
    destruct (p a); [rewrite H by auto; cbn; lia|]. destruct (q a); cbn; lia.
Qed.

Lemma filter_length_all {A} (p : A -> bool) l : length (filter p l) <= length l.
Proof. induction l as [|a l IH]; cbn; auto. destruct (p a); cbn; lia. Qed.

Lemma card_bound c f : card c f <= 2 ^ nvars c.
Proof. unfold card. rewrite <- vectors_length. apply filter_length_all. Qed.

Lemma card_lt c f g (Hk : exists kinds, varTypes c = typesOf kinds /\ forallb isPreKind kinds = true) :
  dep (isPreV c) f -> dep (isPreV c) g ->
  (forall s, pos f s = true -> pos g s = true) -> f <> g -> card c f < card c g.
Proof.
  intros Df Dg Hle Hne. apply filter_length_lt; auto.
  destruct (existsb (fun l => negb (pos f (ofVec l)) && pos g (ofVec l)) (vectors (nvars c))) eqn:E.
  - apply existsb_exists in E. destruct E as (l & Hl & E). apply andb_true_iff in E.
    destruct E as [E1 E2]. apply negb_true_iff in E1. exists l. auto.
  - exfalso. apply Hne. apply (pos_inj c); auto. intros s.
    destruct (pos f s) eqn:Ef; [now rewrite Hle|].
    destruct (pos g s) eqn:Eg; auto. exfalso.
    assert (existsb (fun l => negb (pos f (ofVec l)) && pos g (ofVec l)) (vectors (nvars c)) = true); [|congruence].
    apply existsb_exists. exists (toVec (nvars c) s). split; [apply toVec_in|].
    rewrite (pos_ext c Hk f _ s Df), (pos_ext c Hk g _ s Dg), Ef, Eg; auto;
      intros k Hk'; now apply ofVec_toVec.
Qed.
