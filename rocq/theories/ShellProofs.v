(** * The interactive shell: positions, transitions and plays *)

From Coq Require Import String Ascii NArith ZArith Arith List Bool Lia.
From Verif Require Import BDD Loop Spec VarTypes Synth Sem FixBase GameSound SynthProofs Verdict Solvers SolversProofs
  AutSpec Explicit DetProofs ExplicitProofs ExplicitGame Counter Parser ShellSpec Shell ShellText.
Import ListNotations.
Local Open Scope list_scope.

Local Arguments isOut : simpl never.

(** ** Lists of variables *)
Lemma filter_ext_lt {A} (f g : A -> bool) l : (forall x, In x l -> f x = g x) -> filter f l = filter g l.
Proof.
  induction l as [|a l IH]; intros H; cbn; auto. rewrite H by now left.
  rewrite IH by (intros; apply H; now right). reflexivity.
Qed.

Lemma filter_pairs (P q : nat -> bool) (b : bool) n :
  (forall k, k < n -> P (2 * k + (if b then 1 else 0)) = q k /\ P (2 * k + (if b then 0 else 1)) = false) ->
  filter P (seq 0 (2 * n)) = map (fun k => 2 * k + (if b then 1 else 0)) (filter q (seq 0 n)).
Proof.
  induction n as [|n IH]; intros H; [reflexivity|].
  replace (2 * S n) with (2 * n + 2) by lia. rewrite seq_app, filter_app, IH by (intros k Hk; apply H; lia).
  replace (S n) with (n + 1) by lia. rewrite (seq_app n 1 0), filter_app, map_app. f_equal.
  destruct (H n ltac:(lia)) as [H1 H2]. cbn [seq filter Nat.add map].
  replace (n + (n + 0)) with (2 * n) by lia. destruct b.
  - rewrite Nat.add_0_r in H2. rewrite H2. replace (S (2 * n)) with (2 * n + 1) by lia. rewrite H1.
    destruct (q n); reflexivity.
  - rewrite Nat.add_0_r in H1. rewrite H1. replace (S (2 * n)) with (2 * n + 1) by lia. rewrite H2.
    destruct (q n); cbn [map]; rewrite ?Nat.add_0_r; reflexivity.
Qed.

Section VARS.
  Variable c : ctx.
  Hypothesis Hk : exists kinds, varTypes c = typesOf kinds /\ forallb isPreKind kinds = true.
  Local Notation N := (nvars c).

  Lemma varsT_gen ty (b : bool) (q : nat -> bool) :
    (forall k, k < N -> inherits (nth (2 * k + (if b then 1 else 0)) (varTypes c) NoneVariableType) ty = q k /\
                        inherits (nth (2 * k + (if b then 0 else 1)) (varTypes c) NoneVariableType) ty = false) ->
    varsT c ty = map (fun k => 2 * k + (if b then 1 else 0)) (filter q (seq 0 N)).
  Proof.
    intros H. unfold varsT, varsOf. cbn [flat_map]. rewrite app_nil_r, (nvars_spec c Hk).
    now apply (filter_pairs (fun i => inherits (nth i (varTypes c) NoneVariableType) ty)).
  Qed.

  Lemma varsT_PreInput : varsT c PreInput = map (fun k => 2 * k) (inputVars c).
  Proof.
    rewrite (varsT_gen PreInput false (fun k => negb (isOut c k))).
    - apply map_ext. intros; lia.
    - intros k Hk'. rewrite Nat.add_0_r, (isIn_spec c Hk k Hk'), (type_odd c Hk). split; auto.
      pose proof (type_even c Hk k Hk') as T. apply inherits_post in T. tauto.
  Qed.
  Lemma varsT_PreOutput : varsT c PreOutput = map (fun k => 2 * k) (outputVars c).
  Proof.
    rewrite (varsT_gen PreOutput false (isOut c)).
    - apply map_ext. intros; lia.
    - intros k Hk'. rewrite Nat.add_0_r, (type_odd c Hk). split; auto.
      pose proof (type_even c Hk k Hk') as T. apply inherits_post in T. tauto.
  Qed.
  Lemma varsT_PostInput : varsT c PostInput = map (fun k => 2 * k + 1) (inputVars c).
  Proof.
    apply (varsT_gen PostInput true (fun k => negb (isOut c k))).
    intros k Hk'. rewrite Nat.add_0_r, (type_odd c Hk).
    pose proof (type_even c Hk k Hk') as T. apply inherits_post in T. rewrite <- (isIn_spec c Hk k Hk'). tauto.
  Qed.
  Lemma varsT_PostOutput : varsT c PostOutput = map (fun k => 2 * k + 1) (outputVars c).
  Proof.
    apply (varsT_gen PostOutput true (isOut c)).
    intros k Hk'. rewrite Nat.add_0_r, (type_odd c Hk). unfold isOut.
    pose proof (type_even c Hk k Hk') as T. apply inherits_post in T. tauto.
  Qed.

  Lemma in_inputVars k : In k (inputVars c) <-> k < N /\ isOut c k = false.
  Proof. unfold inputVars. rewrite filter_In, in_seq, negb_true_iff. intuition lia. Qed.
  Lemma in_outputVars k : In k (outputVars c) <-> k < N /\ isOut c k = true.
  Proof. unfold outputVars. rewrite filter_In, in_seq. intuition lia. Qed.
  Lemma in_shellVars k : In k (shellVars c) <-> k < N.
  Proof.
    unfold shellVars. rewrite in_app_iff, in_inputVars, in_outputVars. split; [tauto|].
    intros H. destruct (isOut c k); auto.
  Qed.

  Lemma valuesOf_same s t : valuesOf c s = valuesOf c t <-> same N s t.
  Proof.
    unfold valuesOf, same. split.
    - intros E k Hk'. apply in_shellVars in Hk'. revert Hk' E. generalize (shellVars c). intros l.
      induction l as [|a l IH]; [now intros []|]. cbn. intros [->|H] E; injection E as E1 E2; auto.
    - intros H. apply map_ext_in. intros k Hk'. apply H. now apply in_shellVars.
  Qed.

  (** ** The digits of a single position *)
  Lemma digitOf_ptOf l k : k < N -> digitOf (ptOf c l) (2 * k) = nth k l false.
  Proof.
    intros Hk'. unfold digitOf. destruct (nth k l false) eqn:E.
    - apply negb_true_iff, isFalse_false. exists (tv (ofVec l) (ofVec l)).
      rewrite eval_and, eval_var, tv_even. unfold ofVec at 1. rewrite E. apply (pos_ptOf c). now intros j _.
    - apply negb_false_iff, isFalse_spec. intros e. rewrite eval_and, eval_var.
      destruct (eval (ptOf c l) e) eqn:E'; [|apply andb_false_r]. rewrite andb_true_r.
      rewrite eval_ptOf in E'. rewrite E' by auto. exact E.
  Qed.

  Lemma positionValues_ptOf l : positionValues c (ptOf c l) = valuesOf c (ofVec l).
  Proof.
    unfold positionValues, valuesOf, shellVars. rewrite varsT_PreInput, varsT_PreOutput.
    rewrite <- map_app, map_map. apply map_ext_in. intros k Hk'. apply in_shellVars in Hk'.
    now rewrite digitOf_ptOf.
  Qed.

  (** ** Bits *)
  Lemma bitLits_spec vars : forall l f e, length l = length vars ->
    eval (bitLits vars l f) e = true <-> eval f e = true /\ map e vars = l.
  Proof.
    induction vars as [|v vars IH]; intros [|b l] f e H; try discriminate.
    - cbn. tauto.
    - injection H as H. unfold bitLits. cbn [combine fold_left fst snd map].
      fold (bitLits vars l (band f (literal v b))). rewrite IH by auto. rewrite eval_and, andb_true_iff.
      assert (E : eval (literal v b) e = true <-> e v = b).
      { unfold literal. destruct b; rewrite ?eval_not, eval_var; destruct (e v); cbn; split; auto. }
      rewrite E. split; [intros [[H1 H2] H3]; subst; auto|]. intros [H1 H2]. injection H2 as H2 H3. auto.
  Qed.

  Lemma bitLits_post x f s t : trans (bitLits (varsT c PostInput) (map x (inputVars c)) f) s t = true <->
    trans f s t = true /\ same_in (game_of c) N t x.
  Proof.
    unfold trans at 1. rewrite varsT_PostInput, bitLits_spec by now rewrite !map_length.
    rewrite map_map. assert (E : map (fun k => tv s t (2 * k + 1)) (inputVars c) = map t (inputVars c)).
    { apply map_ext. intros k. apply tv_odd. }
    rewrite E. unfold trans. split; intros [H1 H2]; split; auto.
    - intros k Hk' Ho. cbn in Ho. assert (Hin : In k (inputVars c)) by now apply in_inputVars.
      revert Hin H2. generalize (inputVars c). intros l.
      induction l as [|a l IH]; [now intros []|]. cbn. intros [->|H] E'; injection E' as E1 E2; auto.
    - apply map_ext_in. intros k Hin. apply in_inputVars in Hin. apply H2; cbn; tauto.
  Qed.

  (** ** Choosing a transition *)
  Definition picked (vs : list nat) (f d : BF) : Prop :=
    exists e0, eval f e0 = true /\ forall e, eval d e = eval f e && agreeOn vs e e0.

  Lemma picked_random rand vs : forall k f, isFalse f = false -> picked vs f (fst (determinizeRandomized rand k f vs)).
  Proof.
    induction vs as [|v vs IH]; intros k f Hf; cbn [determinizeRandomized].
    - apply isFalse_false in Hf. destruct Hf as (e0 & H). exists e0. split; auto.
      intros e. cbn. now rewrite andb_true_r.
    - set (g := if isFalse _ then _ else _).
      assert (G : exists b, (exists e, eval f e = true /\ e v = b) /\
                    forall e, eval g e = eval f e && Bool.eqb (e v) b).
      { apply isFalse_false in Hf. destruct Hf as (e0 & H). unfold g.
        assert (L : forall b e, eval (literal v b) e = Bool.eqb (e v) b).
        { intros b e. unfold literal. destruct b; rewrite ?eval_not, eval_var; now destruct (e v). }
        destruct (isFalse (band f (literal v (negb (rand k))))) eqn:E.
        - exists (rand k). split; [|intros e; now rewrite eval_and, L].
          exists e0. split; auto. rewrite isFalse_spec in E. specialize (E e0).
          rewrite eval_and, L, H in E. cbn in E. now destruct (e0 v), (rand k).
        - exists (negb (rand k)). split; [|intros e; now rewrite eval_and, L].
          apply isFalse_false in E. destruct E as (e & E). rewrite eval_and, L in E.
          apply andb_true_iff in E. destruct E as [E1 E2]. exists e. split; auto. now apply eqb_prop. }
      destruct G as (b & (e1 & H1 & H1') & Hb).
      destruct (IH (S k) g) as (e2 & H2 & H3).
      + apply isFalse_false. exists e1. rewrite Hb, H1, H1'. now destruct b.
      + exists e2. rewrite Hb in H2. apply andb_true_iff in H2. destruct H2 as [H2 H2'].
        apply eqb_prop in H2'. split; auto. intros e. rewrite H3, Hb. cbn [agreeOn forallb]. rewrite H2'.
        fold (agreeOn vs e e2). now destruct (eval f e), (Bool.eqb (e v) b).
  Qed.

  Lemma dep_random (P : nat -> Prop) rand vs : (forall v, In v vs -> P v) -> forall k f, dep P f ->
    dep P (fst (determinizeRandomized rand k f vs)).
  Proof.
    induction vs as [|v vs IH]; intros Hv k f Hf; cbn [determinizeRandomized]; auto.
    apply IH; [intros; apply Hv; now right|].
    assert (Pv : P v) by (apply Hv; now left).
    assert (L : forall b, dep P (literal v b)).
    { intros b. unfold literal. destruct b; [|apply dep_not]; now apply dep_var. }
    destruct (isFalse _); apply dep_and; auto.
  Qed.

  Lemma picked_post f d l : dep (isAnyV c) f -> length l = N -> picked (postVars c) f d ->
    (forall s t, trans f s t = true -> same N s (ofVec l)) ->
    exists u, length u = N /\ trans f (ofVec l) (ofVec u) = true /\
      forall s t, trans d s t = true <-> same N s (ofVec l) /\ same N t (ofVec u).
  Proof.
    intros Hf Hl (e0 & H0 & HE) HP.
    set (s0 := fun k => e0 (2 * k)). set (t0 := fun k => e0 (2 * k + 1)).
    assert (E0 : trans f s0 t0 = true).
    { rewrite <- H0. unfold trans. apply eval_ext. intros v.
      destruct (even_cases v) as [[k ->]|[k ->]]; rewrite ?tv_even, ?tv_odd; reflexivity. }
    pose proof (HP _ _ E0) as S0.
    assert (Hst : forall s t, same N s (ofVec l) -> same N t t0 -> trans f s t = true).
    { intros s t Hs Ht. rewrite <- E0. apply (trans_ext c Hk); auto.
      intros k Hk'. rewrite Hs, S0; auto. }
    exists (toVec N t0). split; [apply toVec_length|]. split.
    - apply Hst; [now intros k _|apply same_toVec].
    - intros s t. unfold trans at 1. rewrite HE, andb_true_iff, agreeOn_iff. split.
      + intros [H1 H2]. split; [apply (HP s t H1)|].
        apply same_trans with t0; [|apply same_sym, same_toVec].
        intros k Hk'. unfold t0. rewrite <- (H2 (2 * k + 1)); [now rewrite tv_odd|].
        apply (in_postVars c Hk). eauto.
      + intros [H1 H2]. assert (S : same N t t0) by (eapply same_trans; [exact H2|apply same_toVec]).
        split; [now apply Hst|]. intros v Hv. apply (in_postVars c Hk) in Hv.
        destruct Hv as (k & -> & Hk'). rewrite tv_odd. now apply S.
  Qed.
End VARS.

(** ** Transitions of the shell for realizable specifications *)
Section MAKE.
  Variable c : ctx.
  Hypothesis Hwf : wf c.
  Let Hk := wf_kinds c Hwf.
  Let HSe := wf_safetyEnv c Hwf.
  Local Notation N := (nvars c).
  Local Notation M := (length (livenessGuarantees c)).
  Local Notation g := (game_of c).
  Let Mpos : 0 < M.
  Proof. pose proof (wf_gua_ne c Hwf). destruct (livenessGuarantees c); [now elim H|cbn; lia]. Qed.

  Variable w : BF.
  Variable data : list (nat * BF).
  Variable L : nat -> list (BF * BF).
  Hypothesis HX : exactW c w.
  Hypothesis Hw : dep (isPreV c) w.
  Hypothesis HL : forall j, j < M -> dataOf j data = map fst (L j) /\
    goodEnt c w (nth j (livenessGuarantees c) btrue) (L j) w.
  Let t := mkTable true w (map (positional c data) (seq 0 M)).

  Lemma strat_any j : j < M -> dep (isAnyV c) (positional c data j).
  Proof.
    intros Hj. apply (any_positional c Hwf).
    apply (data_any c w data L) in HL. rewrite Forall_forall in HL |- *. intros e He Ee. apply HL; auto. lia.
  Qed.

  Lemma strat_nth j : j < M -> nth_error (t_strategies t) j = Some (positional c data j).
  Proof.
    intros Hj. cbn. rewrite nth_error_map.
    assert (E : nth_error (seq 0 M) j = Some j).
    { rewrite (nth_error_nth' _ 0) by now rewrite seq_length. now rewrite seq_nth. }
    now rewrite E.
  Qed.

  Lemma jump_point comb j l u : dep (isAnyV c) comb -> j < M ->
    (forall s t, trans comb s t = true <-> same N s (ofVec l) /\ same N t (ofVec u)) ->
    jump (S M) c j j true comb = Some (nextGoal c j l u).
  Proof.
    intros Ac Hj HD. destruct (nextGoal_spec c Hwf j l u Hj) as (d & _ & <- & _). apply jump_S; auto.
    intros i Hi. unfold test.
    destruct (trans (nth i (livenessGuarantees c) bfalse) (ofVec l) (ofVec u)) eqn:E.
    - apply negb_true_iff, isFalse_false. exists (tv (ofVec l) (ofVec u)). rewrite eval_and.
      apply andb_true_iff. split; [exact E|]. apply (HD (ofVec l) (ofVec u)). split; now intros k _.
    - apply negb_false_iff, isFalse_spec. intros e. rewrite eval_and.
      destruct (eval comb e) eqn:Ec; [|apply andb_false_r]. rewrite andb_true_r.
      assert (Ee : forall f, eval f e = trans f (fun k => e (2 * k)) (fun k => e (2 * k + 1))).
      { intros f. apply eval_ext. intros x. destruct (even_cases x) as [[k ->]|[k ->]]; now rewrite ?tv_even, ?tv_odd. }
      rewrite Ee in Ec. apply HD in Ec. destruct Ec as [E1 E2]. rewrite Ee, <- E.
      apply (trans_ext c Hk); auto. apply (gua_any c Hwf).
  Qed.

  Definition inputCube (x : state) : BF := bitLits (varsT c PostInput) (map x (inputVars c)) btrue.

  Lemma safeE_same s x y : same_in g N x y -> trans (safetyEnv c) s x = trans (safetyEnv c) s y.
  Proof.
    intros H. apply HSe. intros v [Hv Ev]. destruct (even_cases v) as [[k ->]|[k ->]]; rewrite ?tv_even, ?tv_odd; auto.
    rewrite even_double1, div2_double1 in Ev. destruct Ev as [Ev|Ev]; [discriminate|].
    apply H; auto. rewrite nvars_spec in Hv by auto. lia.
  Qed.

  Lemma makeTrans_spec rnd l j r x : length l = N -> pos w (ofVec l) = true -> j < M ->
    let sh := mkShell (ptOf c l) j r in
    if trans (safetyEnv c) (ofVec l) x then
      exists u r', makeTrans rnd c t sh (inputCube x) =
                     Next (RPosition (valuesOf c (ofVec u)) (nextGoal c j l u), mkShell (ptOf c u) (nextGoal c j l u) r') /\
        length u = N /\ same_in g N (ofVec u) x /\
        trans (stratT c false (positional c data) j) (ofVec l) (ofVec u) = true
    else makeTrans rnd c t sh (inputCube x) = Next (RError, sh).
  Proof.
    intros Hl Hp Hj sh. unfold makeTrans. cbn [sh_pos sh_goal sh_rand sh].
    set (tr := band (band (ptOf c l) (inputCube x)) (safetyEnv c)).
    assert (HT : forall s u, trans tr s u = true <->
              same N s (ofVec l) /\ same_in g N u x /\ trans (safetyEnv c) s u = true).
    { intros s u. unfold tr. rewrite !trans_and, !andb_true_iff, trans_ptOf. unfold inputCube.
      rewrite (bitLits_post c Hk). rewrite trans_true. tauto. }
    destruct (trans (safetyEnv c) (ofVec l) x) eqn:E.
    - assert (F : isFalse tr = false).
      { apply isFalse_false. exists (tv (ofVec l) x). apply (HT (ofVec l) x). split; [now intros k _|].
        split; auto. now intros k _ _. }
      rewrite F, (strat_nth j Hj).
      set (f := band tr (positional c data j)).
      assert (Af : dep (isAnyV c) f).
      { unfold f, tr, inputCube. repeat apply dep_and; [apply isPre_isAny, pre_ptOf; auto| | |now apply strat_any].
        - assert (G : forall vs, (forall v, In v vs -> isAnyV c v) -> forall bs f0, dep (isAnyV c) f0 -> dep (isAnyV c) (bitLits vs bs f0)).
          { induction vs as [|v vs IH]; intros Hv [|b bs] f0 Hf0; auto. unfold bitLits. cbn [combine fold_left fst snd].
            apply IH; [intros; apply Hv; now right|]. apply dep_and; auto.
            assert (isAnyV c v) by (apply Hv; now left).
            unfold literal. destruct b; [|apply dep_not]; now apply dep_var. }
          apply G; [|apply dep_true]. intros v Hv. rewrite (varsT_PostInput c Hk) in Hv. apply in_map_iff in Hv.
          destruct Hv as (k & <- & Hv). apply (in_inputVars c) in Hv. unfold isAnyV. rewrite (nvars_spec c Hk). lia.
        - now apply isPrePostIn_isAny. }
      assert (HF : forall s u, trans f s u = true <-> same N s (ofVec l) /\ same_in g N u x /\
                trans (stratT c false (positional c data) j) s u = true).
      { intros s u. unfold f, stratT. rewrite !trans_and, !andb_true_iff, HT. tauto. }
      assert (FF : isFalse f = false).
      { destruct (stratT_covers c Hwf false w data L HL j (ofVec l) x Hj Hp E) as (y & Hy).
        apply isFalse_false. exists (tv (ofVec l) (mrg c x y)). apply (HF (ofVec l) (mrg c x y)).
        split; [now intros k _|]. split; auto. intros k _ Ho. cbn in Ho. unfold mrg. now rewrite Ho. }
      set (d := match rnd with None => (determinize f (postVars c), r) | Some rand => determinizeRandomized rand r f (postVars c) end).
      assert (PV : forall v, In v (postVars c) -> isAnyV c v).
      { intros v Hv. apply (in_postVars c Hk) in Hv. destruct Hv as (k & -> & Hv). unfold isAnyV. rewrite (nvars_spec c Hk). lia. }
      assert (Hd : picked (postVars c) f (fst d) /\ dep (isAnyV c) (fst d)).
      { unfold d. destruct rnd as [rand|].
        - split; [now apply picked_random|now apply dep_random].
        - split; [now apply determinize_spec|now apply dep_determinize]. }
      destruct d as [comb r'] eqn:Ed. cbn [fst] in Hd. destruct Hd as [Hd Ad].
      destruct (picked_post c Hk f comb l Af Hl Hd) as (u & Hu & Hfu & HD); [intros s v Hv; now apply HF in Hv|].
      rewrite (jump_point comb j l u Ad Hj HD).
      rewrite (next_point c Hk comb l u Hu Ad HD).
      exists u, r'. split; [now rewrite positionValues_ptOf|]. apply HF in Hfu. tauto.
    - assert (F : isFalse tr = true).
      { apply isFalse_spec. intros e. destruct (eval tr e) eqn:Ee; auto.
        assert (Et : trans tr (fun k => e (2 * k)) (fun k => e (2 * k + 1)) = true).
        { rewrite <- Ee. apply eval_ext. intros v. destruct (even_cases v) as [[k ->]|[k ->]]; rewrite ?tv_even, ?tv_odd; auto. }
        apply HT in Et. destruct Et as (E1 & E2 & E3). rewrite (safeE_same _ _ _ E2) in E3.
        etransitivity; [symmetry; exact E3|]. etransitivity; [|exact E].
        apply (trans_ext c Hk); [now apply isPrePostIn_isAny|exact E1|reflexivity]. }
      now rewrite F.
  Qed.
End MAKE.

(** ** A sequence of transitions *)
Section PLAY.
  Variable c : ctx.
  Hypothesis Hwf : wf c.
  Let Hk := wf_kinds c Hwf.
  Local Notation N := (nvars c).
  Local Notation M := (length (livenessGuarantees c)).
  Local Notation g := (game_of c).
  Let Mpos : 0 < M.
  Proof. pose proof (wf_gua_ne c Hwf). destruct (livenessGuarantees c); [now elim H|cbn; lia]. Qed.

  Variable w : BF.
  Variable data : list (nat * BF).
  Variable L : nat -> list (BF * BF).
  Hypothesis HX : exactW c w.
  Hypothesis Hw : dep (isPreV c) w.
  Hypothesis HL : forall j, j < M -> dataOf j data = map fst (L j) /\
    goodEnt c w (nth j (livenessGuarantees c) btrue) (L j) w.
  Let t := mkTable true w (map (positional c data) (seq 0 M)).
  Variable rand : nat -> bool.
  Variable r : nat -> bool.
  Variable x : nat -> state.
  Variable l0 : list bool.
  Hypothesis Hl0 : length l0 = N.
  Hypothesis Hp0 : pos w (ofVec l0) = true.
  Variables g0 k0 : nat.
  Hypothesis Hg0 : g0 < M.

  Definition stepOf (n : nat) (sh : shell) : outcome (reply * shell) :=
    makeTrans (if r n then Some rand else None) c t sh (inputCube c (x n)).
  Fixpoint runSh (n : nat) : shell :=
    match n with
    | O => mkShell (ptOf c l0) g0 k0
    | S n => match stepOf n (runSh n) with Next (_, s) => s | _ => runSh n end
    end.
  Definition vecAt (n : nat) : list bool := toVec N (fun k => digitOf (sh_pos (runSh n)) (2 * k)).
  Definition stAt (n : nat) : state := ofVec (vecAt n).
  Definition goalAt (n : nat) : nat := sh_goal (runSh n).
  Definition permitted (n : nat) : bool := trans (safetyEnv c) (stAt n) (x n).

  Lemma vec_ptOf l : length l = N -> toVec N (fun k => digitOf (ptOf c l) (2 * k)) = l.
  Proof.
    intros H. apply (same_vec c); auto; [apply toVec_length|].
    intros k Hk'. rewrite ofVec_toVec by auto. now rewrite digitOf_ptOf.
  Qed.

  Lemma run_inv n : runSh n = mkShell (ptOf c (vecAt n)) (goalAt n) (sh_rand (runSh n)) /\
    length (vecAt n) = N /\ pos w (stAt n) = true /\ goalAt n < M.
  Proof.
    unfold stAt, vecAt, goalAt. induction n as [|n (E & H1 & H2 & H3)].
    - cbn [runSh sh_pos sh_goal sh_rand]. rewrite (vec_ptOf l0 Hl0). auto.
    - cbn [runSh]. set (sh := runSh n) in *. unfold stepOf.
      set (l := toVec N (fun k => digitOf (sh_pos sh) (2 * k))) in *.
      pose proof (makeTrans_spec c Hwf w data L HL (if r n then Some rand else None) l (sh_goal sh) (sh_rand sh) (x n) H1 H2 H3) as G.
      cbv zeta in G. rewrite <- E in G. fold t in G.
      destruct (trans (safetyEnv c) (ofVec l) (x n)).
      + destruct G as (u & r' & G1 & G2 & G3 & G4). rewrite G1. cbn [sh_pos sh_goal sh_rand].
        rewrite (vec_ptOf u G2). split; auto. split; auto. split; [|now apply (nextGoal_lt c Hwf)].
        apply (stratT_good c Hwf false w data L HL (sh_goal sh)) in G4; tauto.
      + rewrite G. unfold l in E, H1, H2. auto.
  Qed.

  Definition replyAt (n : nat) : reply :=
    if permitted n then RPosition (valuesOf c (stAt (S n))) (goalAt (S n)) else RError.

  Lemma run_step n : stepOf n (runSh n) = Next (replyAt n, runSh (S n)) /\
    if permitted n then
      same_in g N (stAt (S n)) (x n) /\ goalAt (S n) = nextGoal c (goalAt n) (vecAt n) (vecAt (S n)) /\
      trans (stratT c false (positional c data) (goalAt n)) (stAt n) (stAt (S n)) = true
    else runSh (S n) = runSh n.
  Proof.
    destruct (run_inv n) as (E & H1 & H2 & H3).
    pose proof (makeTrans_spec c Hwf w data L HL (if r n then Some rand else None) (vecAt n) (goalAt n) (sh_rand (runSh n)) (x n) H1 H2 H3) as G.
    cbv zeta in G. rewrite <- E in G. fold t in G. fold (stepOf n (runSh n)) in G.
    unfold replyAt, permitted. fold (stAt n) in G.
    destruct (trans (safetyEnv c) (stAt n) (x n)) eqn:ES.
    - destruct G as (u & r' & G1 & G2 & G3 & G4).
      assert (ER : runSh (S n) = mkShell (ptOf c u) (nextGoal c (goalAt n) (vecAt n) u) r') by (cbn [runSh]; now rewrite G1).
      assert (EV : vecAt (S n) = u) by (unfold vecAt; rewrite ER; now apply vec_ptOf).
      assert (EG : goalAt (S n) = nextGoal c (goalAt n) (vecAt n) u) by (unfold goalAt at 1; now rewrite ER).
      unfold stAt. rewrite EV, G1, EG, ER. auto.
    - cbn [runSh]. rewrite G. auto.
  Qed.

  Lemma run_session m : forall n i, before (joinText (map (fun k => transText c (r k) (x k)) (seq n m))) i ->
    sess rand c t (runSh n) i = (map replyAt (seq n m), Exits).
  Proof.
    induction m as [|m IH]; intros n i Hi; cbn [seq map] in *; [now apply sess_end|].
    cbn [joinText] in Hi. rewrite sess_eq.
    set (rest := joinText _) in Hi.
    pose proof (fun l rest' => sess_command rand c t (runSh n) _ i l rest' Hi) as SC.
    set (bits := bitsText (map (x n) (inputVars c))).
    assert (Lb : length (map (x n) (inputVars c)) = length (varsT c PostInput)).
    { rewrite (varsT_PostInput c Hk), !map_length. reflexivity. }
    assert (ET : (transText c (r n) (x n) ++ rest)%string =
                 ((if r n then "XMAKETRANSRANDOM" else "XMAKETRANS") ++ newline ++ (bits ++ newline ++ rest))%string).
    { unfold transText. rewrite !app_assoc_s. reflexivity. }
    destruct (run_step n) as [RS _]. unfold stepOf in RS.
    destruct (r n) eqn:Er.
    - rewrite (SC _ _ ET) by (reflexivity || discriminate).
      change (toUpper (trim "XMAKETRANSRANDOM")) with "XMAKETRANSRANDOM"%string.
      rewrite exec_makeTransRandom. unfold bits. rewrite readBits_bits by auto.
      cbn [obind fst snd]. fold (inputCube c (x n)). rewrite RS. cbn [obind].
      rewrite (IH (S n)) by constructor. reflexivity.
    - rewrite (SC _ _ ET) by (reflexivity || discriminate).
      change (toUpper (trim "XMAKETRANS")) with "XMAKETRANS"%string.
      rewrite exec_makeTrans by reflexivity. unfold bits. rewrite readBits_bits by auto.
      cbn [obind fst snd]. fold (inputCube c (x n)). rewrite RS. cbn [obind].
      rewrite (IH (S n)) by constructor. reflexivity.
  Qed.

  Lemma run_live : (exists n0, forall n, n0 <= n -> permitted n = true) ->
    (forall q, In q (g_liveA g) -> inf_often q stAt) ->
    forall q, In q (g_liveG g) -> inf_often q stAt.
  Proof.
    intros (n0 & HE) HA q Hq.
    set (pi := fun n => stAt (n0 + n)). set (jn := fun n => goalAt (n0 + n)).
    assert (HS : forall A (f : nat -> A) n, f (n0 + S n) = f (S (n0 + n))) by (intros A f n; f_equal; lia).
    assert (Lq : inf_often q pi).
    { apply in_map_iff in Hq. destruct Hq as (q0 & <- & Hq0).
      destruct (In_nth _ _ btrue Hq0) as (j & Hj & Ej).
      apply (all_goals g (fun s => pos w s = true) M (fun j => trans (nth j (livenessGuarantees c) btrue))
               (fun j => lift (L j))) with (pi := pi) (jn := jn) (j := j) in Hj; [now rewrite Ej in Hj| | | | | |].
      - intros i Hi. apply goodEnt_ranked. now apply HL.
      - intros n. apply run_inv.
      - intros n. unfold pi, jn. rewrite HS.
        destruct (run_step (n0 + n)) as [_ R]. rewrite HE in R by lia. destruct R as (R1 & R2 & R3).
        apply (stratT_follow c Hwf false w data L HL); auto; [apply run_inv|].
        unfold stratT in R3. rewrite trans_and, andb_true_iff in R3. tauto.
      - intros n. unfold pi, jn. rewrite !HS.
        destruct (run_step (n0 + n)) as [_ R]. rewrite HE in R by lia. destruct R as (R1 & -> & R3).
        assert (Hlt : goalAt (n0 + n) < M) by apply run_inv.
        destruct (nextGoal_spec c Hwf (goalAt (n0 + n)) (vecAt (n0 + n)) (vecAt (S (n0 + n))) Hlt)
          as (d & Hd & _ & E & H1 & H2).
        exists d. split; auto. split; auto.
        assert (Ed : forall i, i < M -> nth i (livenessGuarantees c) btrue = nth i (livenessGuarantees c) bfalse)
          by (intros; now apply nth_indep).
        split.
        + intros e He. rewrite Ed by (apply Nat.mod_upper_bound; lia). exact (H1 e He).
        + intros HG. destruct d as [|d]; [|lia]. specialize (H2 Mpos).
          rewrite Nat.add_0_r, Nat.mod_small in H2 by auto.
          rewrite Ed in HG by auto. unfold test in H2. unfold stAt in HG. congruence.
      - intros q' Hq' n. destruct (HA q' Hq' (n0 + n)) as (m & Hm & H). exists (m - n0). split; [lia|].
        unfold pi in *. rewrite HS. replace (n0 + (m - n0)) with m by lia. exact H.
      - unfold pi. apply run_inv. }
    intros n. destruct (Lq n) as (m & Hm & H). exists (n0 + m). split; [lia|].
    unfold pi in *. now rewrite HS in H.
  Qed.
End PLAY.

(** ** The beginning *)
Lemma startShell_cases alg c : wf c ->
  exists w data L, solve alg c = Some (w, data) /\ exactW c w /\ dep (isPreV c) w /\
    (forall j, j < length (livenessGuarantees c) -> dataOf j data = map fst (L j) /\
       goodEnt c w (nth j (livenessGuarantees c) btrue) (L j) w) /\
    verdictOf (initialCheck c w) = checkRealizability c.
Proof.
  intros Hwf. destruct (solve_spec c Hwf alg) as (w & d & E & S).
  destruct (solved_ranked c Hwf w d S) as (L & HL).
  exists w, d, L. split; auto. split; [eapply solved_exact; eauto|]. split; [eapply solved_pre; eauto|].
  split; [intros j Hj; destruct (HL j Hj) as (A & B & _); auto|].
  pose proof (verdict_same alg false c Hwf) as V. unfold verdictWith in V. rewrite E in V. exact V.
Qed.

Lemma start_realizable alg c : wf c -> realizable (game_of c) ->
  exists w data L, exactW c w /\ dep (isPreV c) w /\
    (forall j, j < length (livenessGuarantees c) -> dataOf j data = map fst (L j) /\
       goodEnt c w (nth j (livenessGuarantees c) btrue) (L j) w) /\
    verdictOf (initialCheck c w) = Realizable /\
    startShell alg c = Some (mkTable true w (map (positional c data) (seq 0 (length (livenessGuarantees c))))).
Proof.
  intros Hwf HR. destruct (startShell_cases alg c Hwf) as (w & d & L & E & HX & Hw & HL & V).
  exists w, d, L. split; auto. split; auto. split; auto.
  destruct (check_cases c Hwf) as [[C _]|[_ C]].
  - rewrite C in V. split; auto. unfold startShell. now rewrite E, V.
  - exfalso. destruct HR as (f & Hf). destruct (C f) as (x & Hx). now apply Hx.
Qed.

(** A winning initial position for every permitted initial input. *)
Lemma initial_position c w s : wf c -> dep (isPreV c) w -> verdictOf (initialCheck c w) = Realizable ->
  pos (initEnv c) s = true ->
  exists y, pos (band (band w (initEnv c)) (initSys c)) (mrg c s y) = true.
Proof.
  intros Hwf Hw V Hs. pose proof (wf_kinds c Hwf) as Hk.
  set (q := band w (initSys c)).
  assert (Pq : dep (isPreV c) q) by (apply dep_and; auto; apply wf_initSys; auto).
  set (f := bimp (initEnv c) (bexists (varCubePreOutput c) q)).
  assert (Df : dep (isPreInV c) f).
  { apply dep_imp; [now apply wf_initEnv|now apply dep_exPreOut]. }
  destruct (const_cases c Hwf (initialCheck c w) f Df eq_refl) as [[_ G]|[E _]]; [|congruence].
  specialize (G s). unfold f in G. rewrite pos_imp, Hs in G. cbn [implb] in G.
  apply exPreOut_pos in G; auto. destruct G as (y & Hy). exists y.
  unfold q in Hy. rewrite pos_and, andb_true_iff in Hy. destruct Hy as [Y1 Y2].
  rewrite !pos_and, Y1, Y2, andb_true_r. cbn [andb].
  rewrite (preIn_merge c (initEnv c) s y s) by now apply wf_initEnv.
  rewrite <- Hs. apply (pos_ext c Hk); [apply preIn_pre; now apply wf_initEnv|].
  intros k _. apply mrg_id.
Qed.
