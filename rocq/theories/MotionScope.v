(** * Which variables the parts of robot specifications refer to *)

From Coq Require Import String Ascii Arith NArith List Bool Lia Sorted.
From Verif Require Import BDD Loop Spec VarTypes Synth Sem FixBase Parser ParserProofs Motion MotionProofs MotionFile.
Import ListNotations.
Local Open Scope string_scope.

(** Declared variables with one of the given types. *)
Definition typed (c : ctx) (ts : list VariableType) (v : nat) : Prop :=
  v < length (varTypes c) /\ In (nth v (varTypes c) NoneVariableType) ts.

Definition motionTypes : list VariableType := [PreMotionState; PostMotionState].
(** What the formulas may mention, next to the regions. *)
Definition scInit : list VariableType := [PreInput; PreOtherOutput] ++ motionTypes.
Definition scEnvTrans : list VariableType := [PreInput; PreOtherOutput; PostInput; PostOtherOutput] ++ motionTypes.
Definition scEnvLive : list VariableType := [PreInput; PreOtherOutput; PostInput] ++ motionTypes.
Definition scSys : list VariableType := [PreInput; PreOtherOutput; PostInput; PostOtherOutput; PostMotionControlOutput] ++ motionTypes.

Definition scoped (c : ctx) : Prop :=
  dep (typed c scInit) (initEnv c) /\ dep (typed c scInit) (initSys c) /\
  dep (typed c scEnvTrans) (safetyEnv c) /\ dep (typed c scSys) (safetySys c) /\
  Forall (dep (typed c scEnvLive)) (livenessAssumptions c) /\ Forall (dep (typed c scSys)) (livenessGuarantees c).

Section SCOPE.
  Variable ord : nat -> bool.
  Variable readBDD : string -> list nat -> option BF.
  Hypothesis Hread : honest readBDD.

  Definition InvS (st : modeM * ctx * bddMap) : Prop :=
    let '(_, c, bs) := st in scoped c /\ Forall (fun nb => dep (typed c motionTypes) (snd nb)) bs.

  Lemma formula_typed c bs al ts line b : length (varNames c) = length (varTypes c) ->
    Forall (fun nb => dep (typed c motionTypes) (snd nb)) bs ->
    (forall t, In t al \/ In t motionTypes -> In t ts) ->
    formulaEx ord c bs al line = inl b -> dep (typed c ts) b.
  Proof.
    intros HL HB HT. unfold formulaEx, parseFormulaEx. destruct (parseRecEx _ _ _ _ _ _ _ _) as [[v r]|e| |] eqn:E; cbn; try discriminate.
    destruct (String.eqb _ _); cbn; try discriminate. destruct v as [b'|]; cbn; try discriminate. intros X. injection X as <-.
    eapply (parseRecEx_dep _ _ _ _ _ (typed c ts)) in E; [exact E| | |constructor].
    - intros i Hi Ha. split; [now rewrite <- HL|]. apply HT. now left.
    - eapply Forall_impl; [|exact HB]. cbv beta. intros nb. apply dep_weaken. intros v [V1 V2]. split; auto.
  Qed.

  Lemma typed_addVars c t t' l ts v : typed c ts v -> typed (addVars c t t' l) ts v.
  Proof. unfold typed, addVars. cbn. rewrite app_length. intros [H1 H2]. split; [lia|]. now rewrite app_nth1. Qed.

  Lemma addVars_scoped c bs t t' l m : InvS (m, c, bs) -> InvS (m, addVars c t t' l, bs).
  Proof.
    intros [(D1 & D2 & D3 & D4 & D5 & D6) HB].
    assert (W : forall ts f, dep (typed c ts) f -> dep (typed (addVars c t t' l) ts) f) by (intros ts f; apply dep_weaken; intros v; apply typed_addVars).
    split; [split; [|split; [|split; [|split; [|split]]]]|].
    - apply W, D1.
    - apply W, D2.
    - apply W, D3.
    - apply W, D4.
    - eapply Forall_impl; [|exact D5]. intros f. apply W.
    - eapply Forall_impl; [|exact D6]. intros f. apply W.
    - eapply Forall_impl; [|exact HB]. cbv beta. intros nb. apply W.
  Qed.

  Lemma swap_typed c f : (exists kinds, varTypes c = typesOf kinds /\ forallb isPreKind kinds = true) ->
    dep (typed c motionTypes) f -> dep (typed c motionTypes) (swapPrePost c f).
  Proof.
    intros Hk H. unfold swapPrePost. eapply dep_swap; [exact H|]. intros v [V1 V2]. split; [now apply swapf_bound|].
    pose proof (swapf_spec _ _ (vectors_spec c Hk)) as S. pose proof (type_odd c Hk) as TO.
    destruct Hk as (kinds & E & F).
    destruct (even_cases v) as [[k ->]|[k ->]]; destruct (S k) as [S1 S2]; [rewrite S1|rewrite S2]; destruct (in_dec _ _ _); auto.
    - rewrite TO. destruct V2 as [<-|[X|[]]]; [right; now left|]. exfalso. rewrite E in X. rewrite nth_typesOf_even in X.
      assert (I : In (nth k kinds NoneVariableType) kinds).
      { apply nth_In. destruct (Nat.lt_ge_cases k (length kinds)); auto. rewrite nth_overflow in X by auto. discriminate X. }
      rewrite forallb_forall in F. apply F in I. rewrite <- X in I. discriminate I.
    - rewrite TO in V2. destruct V2 as [X|[X|[]]]; destruct (nth (2 * k) (varTypes c) NoneVariableType); try discriminate X. now left.
  Qed.

  Lemma processLineM_scoped st line st' : InvM st -> InvS st -> processLineM ord readBDD st line = inl st' -> InvS st'.
  Proof.
    destruct st as [[m c] bs]. intros [HA _] [HC HB]. unfold processLineM. destruct (trim line) as [|a l] eqn:ET; [intros E; injection E as <-; now split|].
    set (ln := String a l). destruct (a =? "#")%char; [intros E; injection E as <-; now split|].
    destruct (a =? "[")%char; [destruct (categoryM ln); [intros E; injection E as <-; now split|discriminate]|].
    assert (HL : length (varNames c) = length (varTypes c)) by apply HA.
    assert (FF : forall al ts (k : BF -> ctx) m', (forall t, In t al \/ In t motionTypes -> In t ts) ->
      (forall b, dep (typed c ts) b -> scoped (k b) /\ varTypes (k b) = varTypes c) ->
      mbind (formulaEx ord c bs al ln) (fun b => inl (m', k b, bs)) = inl st' -> InvS st').
    { intros al ts k m' HT HK E. destruct (formulaEx ord c bs al ln) as [b|] eqn:EF; cbn in E; [|discriminate]. injection E as <-.
      apply (formula_typed c bs al ts) in EF; auto. destruct (HK b EF) as [H1 H2]. split; auto.
      eapply Forall_impl; [|exact HB]. cbv beta. intros nb. apply dep_weaken. intros v. unfold typed. now rewrite H2. }
    pose proof HC as HC0. destruct HC as (D1 & D2 & D3 & D4 & D5 & D6).
    assert (T : forall iE iS sE sS lA lG, dep (typed c scInit) iE -> dep (typed c scInit) iS -> dep (typed c scEnvTrans) sE -> dep (typed c scSys) sS ->
      Forall (dep (typed c scEnvLive)) lA -> Forall (dep (typed c scSys)) lG ->
      scoped (mkCtx (varNames c) (varTypes c) lA lG iE iS sE sS) /\ varTypes (mkCtx (varNames c) (varTypes c) lA lG iE iS sE sS) = varTypes c).
    { intros. split; [|reflexivity]. repeat (split; [assumption|]). assumption. }
    destruct m as [[]| | | |].
    - discriminate.
    - intros E; injection E as <-. now apply addVars_scoped.
    - discriminate.
    - apply (FF _ scInit); [cbn; tauto|]. intros b Hb. apply T; auto. now apply dep_and.
    - apply (FF _ scInit); [cbn; tauto|]. intros b Hb. apply T; auto. now apply dep_and.
    - apply (FF _ scEnvTrans); [cbn; tauto|]. intros b Hb. apply T; auto. now apply dep_and.
    - apply (FF _ scSys); [cbn; tauto|]. intros b Hb. apply T; auto. now apply dep_and.
    - apply (FF _ scEnvLive); [cbn; tauto|]. intros b Hb. apply T; auto. apply Forall_app. auto.
    - apply (FF _ scSys); [cbn; tauto|]. intros b Hb. apply T; auto. apply Forall_app. auto.
    - intros E; injection E as <-. now apply addVars_scoped.
    - intros E; injection E as <-. now apply addVars_scoped.
    - intros E; injection E as <-. now apply addVars_scoped.
    - destruct (splitSpace ln) as [[n file]|]; [|discriminate]. destruct (readBDD file _) as [b|] eqn:ER; [|discriminate].
      destruct (findBDD bs n); [discriminate|]. intros E. injection E as <-. split; auto.
      assert (Db : dep (typed c motionTypes) b).
      { eapply dep_weaken; [|exact (Hread _ _ _ ER)]. intros v. unfold exactly. rewrite <- in_rev, filter_In, in_seq. intros [V1 V2]. split; [lia|].
        apply vt_eqb_eq in V2. rewrite V2. now left. }
      constructor; [|constructor; auto]. cbn [snd]. apply swap_typed; auto. destruct HA as ((kinds & EK & F) & _).
      exists kinds. split; auto. now apply motKind'_pre.
  Qed.

  Lemma readM_scoped content robotFile c robot : readM ord readBDD content robotFile = inl (c, robot) -> scoped c.
  Proof.
    unfold readM. destruct (processLinesM ord readBDD _ _) as [[[m c'] bs]|] eqn:E; cbn [mbind]; [|discriminate].
    destruct (readBDD robotFile (robotVars c')) as [r|] eqn:ER; [|discriminate]. intros X. injection X as -> ->.
    assert (G : forall lines st st', InvM st -> InvS st -> processLinesM ord readBDD st lines = inl st' -> InvS st').
    { induction lines as [|l lines IH]; intros st st' H HS; cbn [processLinesM]; [intros X; injection X as <-; auto|].
      destruct (processLineM ord readBDD st l) as [st1|] eqn:E1; cbn [mbind]; [|discriminate].
      apply IH; [eapply (processLineM_inv ord readBDD Hread); eauto|eapply processLineM_scoped; eauto]. }
    apply G in E; [apply E| |].
    - split; [|constructor]. split; [now exists []|]. split; [reflexivity|]. unfold emptyCtx; cbn. repeat split; try apply dep_true; constructor.
    - split; [|constructor]. unfold emptyCtx, scoped; cbn [initEnv initSys safetyEnv safetySys livenessAssumptions livenessGuarantees].
      repeat split; try apply dep_true; constructor.
  Qed.
End SCOPE.

(** The variables of a type, in decreasing order. *)
Lemma exactly_spec c t : t <> NoneVariableType ->
  (forall i, In i (exactly c t) <-> nth_error (varTypes c) i = Some t) /\ StronglySorted gt (exactly c t).
Proof.
  intros Ht. split.
  - intros i. unfold exactly. rewrite <- in_rev, filter_In, in_seq, vt_eqb_eq. split.
    + intros [L E]. rewrite (nth_error_nth' _ NoneVariableType) by lia. now rewrite E.
    + intros E. assert (i < length (varTypes c)) by (apply nth_error_Some; congruence). split; [lia|]. now apply nth_error_nth.
  - unfold exactly.
    assert (S : forall n a f, StronglySorted lt (filter f (seq a n)) /\ Forall (fun i => a <= i) (filter f (seq a n))).
    { induction n as [|n IH]; intros a f; cbn [seq filter]; [split; constructor|]. destruct (IH (S a) f) as [S1 S2].
      assert (S3 : Forall (fun i => a <= i) (filter f (seq (S a) n))) by (eapply Forall_impl; [|exact S2]; intros; cbn in *; lia).
      destruct (f a); split; auto; constructor; auto. }
    specialize (S (length (varTypes c)) 0 (fun i => vt_eqb (nth i (varTypes c) NoneVariableType) t)). destruct S as [S _].
    induction S as [|a l S IH H]; cbn [rev]; [constructor|].
    assert (G : forall l', StronglySorted gt l' -> Forall (fun i => a < i) l' -> StronglySorted gt (l' ++ [a])%list).
    { induction l' as [|b l' IH']; intros S1 F1; cbn; [repeat constructor|]. inversion S1 as [|x y S2 S3]; subst. inversion F1 as [|x y F2 F3]; subst. constructor; auto.
      apply Forall_app. split; auto. }
    apply G; auto. apply Forall_rev. exact H.
Qed.
