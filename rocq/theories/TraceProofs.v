(** * Proofs about abstract winning traces *)

From Coq Require Import Arith List Bool Lia.
From Verif Require Import BDD Loop Spec VarTypes Synth Sem FixBase SynthProofs Verdict AutSpec Explicit DetProofs Counter CounterExtract.
From Verif Require Import Analyze AnalyzeProofs Interact InteractSpec InteractProofs Shell ShellSpec ShellProofs ShellMarks TraceSpec Trace.
Import ListNotations.

(** ** Lists *)
Lemma length_setNth {A} i (a : A) l : length (setNth i a l) = length l.
Proof. revert i. induction l as [|b l IH]; intros [|i]; cbn [setNth length]; auto. Qed.
Lemma nth_setNth {A} i j (a d : A) l : i < length l -> nth j (setNth i a l) d = if Nat.eqb j i then a else nth j l d.
Proof.
  revert i j. induction l as [|b l IH]; intros i j H; [cbn in H; lia|].
  destruct i as [|i], j as [|j]; cbn [setNth nth Nat.eqb]; auto. apply IH. cbn in H. lia.
Qed.
Lemma fold_inv {A B} (f : A -> B -> A) (P : A -> Prop) l : forall a, P a -> (forall a b, In b l -> P a -> P (f a b)) -> P (fold_left f l a).
Proof.
  induction l as [|b l IH]; intros a Ha H; cbn [fold_left]; auto. apply IH; [apply H; [now left|auto]|].
  intros a' b' Hin. apply H. now right.
Qed.

Lemma filter_true_length {A} (l : list A) : length (filter (fun _ => true) l) = length l.
Proof. induction l as [|a l IH]; cbn [filter length]; auto. Qed.
Lemma flat_map_const_length {A B} (f : A -> list B) m l : (forall a, In a l -> length (f a) = m) -> length (flat_map f l) = length l * m.
Proof.
  intros H. induction l as [|a l IH]; cbn [flat_map length]; auto. rewrite app_length, (H a (or_introl eq_refl)), IH; [lia|].
  intros b Hb. apply H. now right.
Qed.
Lemma length_preVars c : length (preVars c) <= length (varTypes c).
Proof.
  unfold preVars, varsOf. cbn [flat_map]. rewrite app_nil_r. rewrite <- (seq_length (length (varTypes c)) 0) at 2.
  generalize (seq 0 (length (varTypes c))) as l. intros l. induction l as [|a l IH]; cbn [filter length]; auto.
  destruct (inherits _ _); cbn [length]; lia.
Qed.

Section TRACE.
  Variable c : ctx.
  Hypothesis Hwf : wf c.
  Variable env : bool.
  Let Hk := wf_kinds c Hwf.
  Let EX := extends_refl c Hwf.
  Local Notation n := (nvars c).
  Local Notation pre := (dep (isPreV c)).
  Local Notation SE := (trans (safetyEnv c)).
  Local Notation SS := (trans (safetySys c)).
  Local Notation g := (game_of c).

  (** ** The predecessors *)
  Definition can (w : BF) (s : state) : Prop :=
    if env then exists x, forall y, envB c w s x y = true else forall x, exists y, sysB c w s x y = true.
  Lemma sysPre_alt w : sysPre c w = bforall (varCubePostInput c) (bexists (varCubePostOutput c)
           (bor (band (safetySys c) (swapPrePost c w)) (bnot (safetyEnv c)))).
  Proof.
    unfold sysPre. do 2 f_equal. apply bf_ext. intros e. rewrite eval_imp, eval_or, eval_not. rewrite orb_comm. now destruct (eval (safetyEnv c) e).
  Qed.
  Lemma preOf_trans w s t : pre w -> trans (preOf c env w) s t = true <-> can w s.
  Proof.
    intros D. unfold preOf, can. destruct env.
    - exact (envPart_trans c c Hwf EX w s t D).
    - rewrite sysPre_alt. exact (sysPart_trans c c Hwf EX w s t D).
  Qed.
  Lemma preOf_pos w s : pre w -> pos (preOf c env w) s = true <-> can w s.
  Proof. apply (preOf_trans w s s). Qed.
  Lemma can_ext w s s' : pre w -> (forall k, k < n -> s k = s' k) -> can w s -> can w s'.
  Proof.
    intros D H. unfold can. destruct env.
    - intros (x & Hx). exists x. intros y. rewrite <- (Hx y). symmetry. now apply (envB_ext c Hwf).
    - intros Hx x. destruct (Hx x) as (y & Hy). exists y. rewrite <- Hy. symmetry. now apply (sysB_ext c Hwf).
  Qed.
  Lemma pre_preOf w : pre w -> pre (preOf c env w).
  Proof.
    intros D. eapply (dep_of_trans c Hwf); [intros s t; now apply preOf_trans|].
    intros s s' H. now apply can_ext.
  Qed.
  Lemma can_mono w w' s : sub w w' -> can w s -> can w' s.
  Proof.
    intros H. unfold can. destruct env.
    - intros (x & Hx). exists x. intros y. apply (envB_mono c _ _ _ _ _ H). apply Hx.
    - intros Hx x. destruct (Hx x) as (y & Hy). exists y. now apply (sysB_mono c _ _ _ _ _ H).
  Qed.

  (** ** The distances *)
  Definition W (k : nat) : BF := Nat.iter k (fun w => bor w (preOf c env w)) bfalse.
  Lemma W_S k : W (S k) = bor (W k) (preOf c env (W k)). Proof. reflexivity. Qed.
  Lemma W_env k : env = true -> W k = WE c k.
  Proof.
    intros E. induction k as [|k IH]; auto. rewrite W_S, IH. unfold preOf. now rewrite E.
  Qed.
  Lemma W_sys k : env = false -> W k = WS c k.
  Proof.
    intros E. induction k as [|k IH]; auto. rewrite W_S, IH. change (WS c (S k)) with (sysRound c (WS c k)).
    unfold sysRound. rewrite <- sysPre_alt. unfold preOf. now rewrite E.
  Qed.
  Lemma pre_W k : pre (W k).
  Proof. induction k; [apply dep_false|]. rewrite W_S. apply dep_or; auto. now apply pre_preOf. Qed.
  Lemma sub_W k : sub (W k) (W (S k)). Proof. apply sub_or_l. Qed.
  Lemma W_step k s : pos (W (S k)) s = true <-> can (W k) s.
  Proof.
    unfold can. destruct env eqn:E.
    - rewrite !W_env by auto. apply (WE_step c c Hwf EX).
    - rewrite !W_sys by auto. apply (WS_step c c Hwf EX).
  Qed.

  Lemma distLoop : exists r, run (distBody c env) (fpFuel c) (bfalse, []) = Some r /\
    match r with
    | Some (w, ds) => exists k, 1 <= k /\ w = W k /\ ds = map W (seq 0 k) /\ initOf c env (W k) = true /\
        forall j, 1 <= j < k -> initOf c env (W j) = false
    | None => forall j, 1 <= j -> initOf c env (W j) = false
    end.
  Proof.
    set (Inv := fun st : BF * list BF => exists k, fst st = W k /\ snd st = map W (seq 0 k) /\
      forall j, 1 <= j <= k -> initOf c env (W j) = false).
    assert (St : forall st st', Inv st -> distBody c env st = Cont st' ->
      Inv st' /\ fst st' = bor (fst st) (preOf c env (fst st)) /\ fst st' <> fst st).
    { intros [w ds] st' (k & I1 & I2 & I3) E. cbn [fst snd] in *. unfold distBody in E. subst w ds.
      change (bor (W k) (preOf c env (W k))) with (W (S k)) in *.
      destruct (initOf c env (W (S k))) eqn:EI; [discriminate|].
      destruct (bf_eqb_spec (W (S k)) (W k)) as [|Ne]; [discriminate|]. injection E as <-. cbn [fst snd].
      split; [|split; auto]. exists (S k). cbn [fst snd]. split; auto. split.
      - rewrite seq_S, map_app. reflexivity.
      - intros j Hj. destruct (Nat.eq_dec j (S k)) as [->|]; auto. apply I3. lia. }
    assert (I0 : Inv (bfalse, [])) by (exists 0; repeat split; intros j Hj; lia).
    destruct (run_total (distBody c env) Inv (fun st => 2 ^ nvars c - card c (fst st)) (fpFuel c) (bfalse, [])) as (r & Er & Hr); auto.
    - intros [w ds] I. destruct (distBody c env (w, ds)) as [st'|o|] eqn:E; auto.
      + destruct (St _ _ I E) as (I' & E1 & E2). split; auto. cbn [fst] in *.
        assert (card c w < card c (fst st')).
        { destruct I as (k & I & _), I' as (k' & I' & _). cbn [fst] in I, I'. apply (card_lt c w (fst st') Hk).
          - rewrite I. apply pre_W.
          - rewrite I'. apply pre_W.
          - rewrite E1. apply sub_or_l.
          - congruence. }
        pose proof (card_bound c (fst st')). lia.
      + unfold distBody in E. destruct (initOf c env _); [discriminate|]. destruct (bf_eqb _ _); discriminate.
    - apply pow_lt_fuel; auto. lia.
    - exists r. split; auto.
      destruct (Runs_last (distBody c env) Inv _ _ Hr) as ([w ds] & (k & I1 & I2 & I3) & Ed); auto.
      { intros st st' I E. now apply (St st st'). }
      cbn [fst snd] in *. unfold distBody in Ed. subst w ds. change (bor (W k) (preOf c env (W k))) with (W (S k)) in *.
      destruct (initOf c env (W (S k))) eqn:EI.
      + injection Ed as <-. exists (S k). split; [lia|]. split; auto. split; [now rewrite seq_S, map_app|]. split; auto.
        intros j Hj. apply I3. lia.
      + destruct (bf_eqb_spec (W (S k)) (W k)) as [Eq|]; [|discriminate]. injection Ed as <-. intros j Hj.
        destruct (Nat.le_gt_cases j k) as [L|L]; [apply I3; lia|].
        assert (Z : forall m, W (m + k) = W k).
        { induction m as [|m IH]; auto. cbn [Nat.add]. rewrite W_S, IH. exact Eq. }
        replace j with ((j - k) + k) by lia. rewrite Z, <- Eq. exact EI.
  Qed.

  (** ** Restricting the columns *)

  (** Column [i] from the end: the positions of distance at most [i] with some fixed values. *)
  Definition lits (L : list (nat * bool)) (s : state) : Prop := forall k b, In (k, b) L -> k < n /\ s k = b.
  Definition restricted (i : nat) (d : BF) : Prop :=
    exists L, (forall k b, In (k, b) L -> k < n) /\ forall s, pos d s = true <-> pos (W i) s = true /\ lits L s.
  Definition shrunk (K : nat) (start : BF) (ds : list BF) : Prop :=
    length ds = S K /\ nth K ds bfalse = start /\
    (forall i, i <= K -> pre (nth i ds bfalse)) /\
    (forall i, i < K -> restricted i (nth i ds bfalse)) /\
    (forall i, i < K -> sub (nth (S i) ds bfalse) (preOf c env (nth i ds bfalse))).

  Lemma literal_pos k b s : pos (literal (2 * k) b) s = true <-> s k = negb b.
  Proof.
    unfold literal, pos. destruct b; rewrite ?eval_not, eval_var, tv_even; destruct (s k); cbn; intuition congruence.
  Qed.
  Lemma pre_literal k b : k < n -> pre (literal (2 * k) b).
  Proof.
    intros H. assert (pre (bvar (2 * k))).
    { apply dep_var. split; [rewrite (nvars_spec c Hk); lia|apply even_double]. }
    unfold literal. destruct b; auto. now apply dep_not.
  Qed.

  Lemma bleq_sub f h : pre f -> pre h -> bleq f h = true <-> sub f h.
  Proof.
    intros Df Dh. rewrite bleq_spec. split; [intros H s; apply H|]. intros H e. rewrite !(eval_pre c) by auto. apply H.
  Qed.

  Lemma shrunk_tryOne K start i k b st : shrunk K start (fst st) -> i < K -> k < n ->
    shrunk K start (fst (tryOne c env i (2 * k) b st)).
  Proof.
    destruct st as [ds m]. cbn [fst]. intros (H1 & H2 & H3 & H4 & H5) Hi Hlt. unfold tryOne.
    destruct (bleq _ _ && _) eqn:E; cbn [fst]; [|split; auto].
    apply andb_true_iff in E. destruct E as [E _]. set (d := nth i ds bfalse) in *. set (cand := band d (literal (2 * k) b)) in *.
    assert (Dc : pre cand) by (apply dep_and; [apply H3; lia|now apply pre_literal]).
    apply bleq_sub in E; [|apply H3; lia|now apply pre_preOf].
    assert (N : forall j, nth j (setNth i cand ds) bfalse = if Nat.eqb j i then cand else nth j ds bfalse).
    { intros j. apply nth_setNth. lia. }
    split; [now rewrite length_setNth|]. split; [|split; [|split]].
    - rewrite N. destruct (Nat.eqb_spec K i); [lia|auto].
    - intros j Hj. rewrite N. destruct (Nat.eqb j i); auto.
    - intros j Hj. rewrite N. destruct (Nat.eqb_spec j i) as [->|]; auto.
      destruct (H4 i Hi) as (L & HL & HP). fold d in HP. exists ((k, negb b) :: L). split.
      + intros k' b' [X|X]; [injection X as <- _; auto|eauto].
      + intros s. unfold cand. rewrite pos_and, andb_true_iff, HP, literal_pos. unfold lits. split.
        * intros [[P1 P2] P3]. split; auto. intros k' b' [X|X]; [injection X as <- <-; auto|auto].
        * intros [P1 P2]. split; [split; auto|]; [intros; apply P2; now right|]. apply P2. now left.
    - intros j Hj. rewrite !N. destruct (Nat.eqb_spec j i) as [->|Ne].
      + destruct (Nat.eqb_spec (S i) i); [lia|]. exact E.
      + destruct (Nat.eqb_spec (S j) i) as [<-|]; auto. eapply sub_trans; [apply sub_and_l|]. now apply H5.
  Qed.

  Lemma in_attempts size i v b : In (i, (v, b)) (attempts c size) <-> i < size - 1 /\ In v (preVars c).
  Proof.
    unfold attempts. rewrite in_flat_map. split.
    - intros (i' & H1 & H2). apply in_flat_map in H2. destruct H2 as (v' & H2 & H3).
      rewrite <- in_rev in H1. apply in_seq in H1.
      destruct H3 as [X|[X|[]]]; injection X as <- <- <-; split; auto; lia.
    - intros [H1 H2]. exists i. split; [rewrite <- in_rev; apply in_seq; lia|]. apply in_flat_map. exists v. split; auto.
      destruct b; cbn; auto.
  Qed.

  (** Attempts that would still change something. *)
  Definition open_ (ds : list BF) (a : nat * (nat * bool)) : bool :=
    negb (bf_eqb (band (nth (fst a) ds bfalse) (literal (fst (snd a)) (snd (snd a)))) (nth (fst a) ds bfalse)).
  Definition smaller (ds' ds : list BF) : Prop := length ds' = length ds /\
    forall j e, eval (nth j ds' bfalse) e = true -> eval (nth j ds bfalse) e = true.
  Lemma open_smaller ds ds' a : length ds' = length ds ->
    (forall j, nth j ds' bfalse = nth j ds bfalse \/ exists l, nth j ds' bfalse = band (nth j ds bfalse) l) ->
    open_ ds' a = true -> open_ ds a = true.
  Proof.
    unfold open_. intros HL H. destruct a as [i [v b]]. cbn [fst snd]. rewrite !negb_true_iff.
    intros E. destruct (bf_eqb_spec (band (nth i ds bfalse) (literal v b)) (nth i ds bfalse)) as [Eq|]; auto.
    rewrite <- E. symmetry. apply bf_eqb_eq. destruct (H i) as [-> | (l & ->)]; auto.
    apply bf_ext. intros e. rewrite !eval_and. assert (X := f_equal (fun f => eval f e) Eq). cbn beta in X. rewrite eval_and in X.
    destruct (eval (nth i ds bfalse) e), (eval (literal v b) e), (eval l e); cbn in *; auto.
  Qed.
  Definition count (size : nat) (ds : list BF) : nat := length (filter (open_ ds) (attempts c size)).
  Lemma filter_le {A} (p q : A -> bool) l : (forall a, p a = true -> q a = true) -> length (filter p l) <= length (filter q l).
  Proof.
    intros H. induction l as [|a l IH]; cbn [filter]; auto. destruct (p a) eqn:P.
    - rewrite (H a P). cbn [length]. lia.
    - destruct (q a); cbn [length]; lia.
  Qed.
  Lemma filter_lt {A} (p q : A -> bool) l a : (forall a, p a = true -> q a = true) -> In a l -> p a = false -> q a = true ->
    length (filter p l) < length (filter q l).
  Proof.
    intros H. induction l as [|b l IH]; intros Hin P Q; [easy|]. cbn [filter]. destruct Hin as [->|Hin].
    - rewrite P, Q. cbn [length]. pose proof (filter_le p q l H). lia.
    - specialize (IH Hin P Q). destruct (p b) eqn:PB; [rewrite (H b PB); cbn [length]; lia|]. destruct (q b); cbn [length]; lia.
  Qed.
  Lemma tryOne_count size a st : In a (attempts c size) -> length (fst st) = size ->
    let st' := tryOne c env (fst a) (fst (snd a)) (snd (snd a)) st in
    length (fst st') = size /\ (st' = st \/ (snd st' = true /\ count size (fst st') < count size (fst st))).
  Proof.
    destruct st as [ds m], a as [i [v b]]. cbn [fst snd]. intros Hin HL. unfold tryOne.
    destruct (bleq _ _ && _) eqn:E; cbn [fst snd]; [|auto]. rewrite length_setNth. split; auto. right. split; auto.
    pose proof (proj1 (in_attempts _ _ _ _) Hin) as [Hi _].
    apply andb_true_iff in E. destruct E as [_ E]. set (cand := band (nth i ds bfalse) (literal v b)) in *.
    assert (N : forall j, nth j (setNth i cand ds) bfalse = if Nat.eqb j i then cand else nth j ds bfalse).
    { intros j. apply nth_setNth. lia. }
    apply (filter_lt _ _ _ (i, (v, b))); auto.
    - intros a. apply open_smaller; [apply length_setNth|]. intros j. rewrite N. destruct (Nat.eqb_spec j i) as [->|]; auto.
      right. now exists (literal v b).
    - unfold open_. cbn [fst snd]. rewrite !N, Nat.eqb_refl. apply negb_false_iff. apply bf_eqb_eq. unfold cand.
      apply bf_ext. intros e. rewrite !eval_and. now destruct (eval (nth i ds bfalse) e), (eval (literal v b) e).
  Qed.

  (** After a pass without change, nothing can be changed. *)
  Definition final (ds : list BF) : Prop := forall i v b, S i < length ds -> In v (preVars c) ->
    let cand := band (nth i ds bfalse) (literal v b) in
    bleq (nth (S i) ds bfalse) (preOf c env cand) && negb (bf_eqb cand (nth i ds bfalse)) = false.
  Lemma pass_spec ds : let r := pass c env ds in
    length (fst r) = length ds /\
    (if snd r then count (length ds) (fst r) < count (length ds) ds else fst r = ds /\ final ds).
  Proof.
    cbn zeta. unfold pass. set (size := length ds).
    set (step := fun st (a : nat * (nat * bool)) => tryOne c env (fst a) (fst (snd a)) (snd (snd a)) st).
    assert (G : forall l st, incl l (attempts c size) -> length (fst st) = size ->
      let r := fold_left step l st in length (fst r) = size /\
      ((r = st /\ forall a, In a l -> step st a = st) \/ (snd r = true /\ count size (fst r) < count size (fst st)))).
    { induction l as [|a l IH]; intros st HI HL; cbn [fold_left]; [split; auto; left; split; auto; intros a []|].
      destruct (tryOne_count size a st) as [T1 T2]; [apply HI; now left|auto|].
      change (tryOne c env (fst a) (fst (snd a)) (snd (snd a)) st) with (step st a) in *.
      destruct (IH (step st a)) as [I1 I2]; [intros x Hx; apply HI; now right|auto|]. split; auto.
      destruct T2 as [T2|[T2 T3]].
      - rewrite T2 in *. destruct I2 as [[I2 I3]|I2]; [|auto]. left. split; auto. intros a' [<-|Ha]; auto.
      - right. destruct I2 as [[I2 _]|[I2 I3]]; [rewrite I2; auto|]. split; auto. lia. }
    destruct (G (attempts c size) (ds, false) (incl_refl _) eq_refl) as [G1 G2]. fold step. split; auto.
    destruct G2 as [[G2 G3]|[G2 G3]].
    - rewrite G2. cbn [fst snd]. split; auto. intros i v b Hi Hv. cbn zeta.
      assert (Hin : In (i, (v, b)) (attempts c size)) by (apply in_attempts; split; [unfold size; lia|auto]).
      specialize (G3 _ Hin). unfold step, tryOne in G3. cbn [fst snd] in G3.
      destruct (bleq _ _ && _); auto. discriminate (f_equal snd G3).
    - rewrite G2. exact G3.
  Qed.

  Lemma count_bound ds : count (length ds) ds < 2 ^ passFuel c ds.
  Proof.
    unfold count, passFuel. apply Nat.le_lt_trans with (length ds * (2 * length (varTypes c))).
    - eapply Nat.le_trans; [apply (filter_le _ (fun _ => true)); auto|]. rewrite (filter_true_length (attempts c (length ds))).
      unfold attempts. rewrite flat_map_const_length with (m := 2 * length (preVars c)).
      + rewrite rev_length, seq_length. apply Nat.mul_le_mono; [lia|]. apply Nat.mul_le_mono; auto. apply length_preVars.
      + intros i _. rewrite flat_map_const_length with (m := 2); auto. lia.
    - rewrite Nat.pow_add_r, Nat.pow_succ_r'. pose proof (Nat.pow_gt_lin_r 2 (length ds) ltac:(lia)).
      pose proof (Nat.pow_gt_lin_r 2 (length (varTypes c)) ltac:(lia)). nia.
  Qed.
  Lemma shrunk_pass K start ds : shrunk K start ds -> shrunk K start (fst (pass c env ds)).
  Proof.
    intros H. unfold pass. apply fold_inv; auto. intros st [i [v b]] Hin Hs. cbn [fst snd].
    apply in_attempts in Hin. destruct Hin as [Hi Hv]. apply (in_preVars c Hk) in Hv. destruct Hv as (k & -> & Hlt).
    apply shrunk_tryOne; auto. destruct H as [H _]. lia.
  Qed.
  Lemma passLoop K start ds : shrunk K start ds ->
    exists ds', run (passBody c env) (passFuel c ds) ds = Some ds' /\ shrunk K start ds' /\ final ds'.
  Proof.
    intros H0. set (Inv := fun d => shrunk K start d). set (size := length ds).
    assert (LS : forall d, Inv d -> length d = size) by (intros d I; destruct I as [I _], H0 as [H0 _]; unfold size; lia).
    destruct (run_total (passBody c env) Inv (count size) (passFuel c ds) ds) as (r & Er & Hr); auto.
    - intros d I. unfold passBody. pose proof (pass_spec d) as P. pose proof (shrunk_pass K start d I) as S'.
      rewrite (LS d I) in P. destruct (pass c env d) as [d' m]. cbn [fst snd] in *. destruct m; auto. split; [exact S'|apply P].
    - apply count_bound.
    - exists r. split; auto. destruct (Runs_last (passBody c env) Inv _ _ Hr) as (d & I & Ed); auto.
      { intros d d' I E. unfold passBody in E. pose proof (shrunk_pass K start d I) as S'. destruct (pass c env d) as [d1 m]. destruct m; [|discriminate].
        injection E as <-. exact S'. }
      unfold passBody in Ed. pose proof (pass_spec d) as P. destruct (pass c env d) as [d1 m]. destruct m; [discriminate|]. injection Ed as <-.
      cbn [fst snd] in P. destruct P as (_ & -> & F). split; auto.
  Qed.

  Lemma shrunk_start k l : 1 <= k -> pos (W k) (ofVec l) = true -> shrunk k (ptOf c l) (map W (seq 0 k) ++ [ptOf c l]).
  Proof.
    intros Hk1 HP. set (ds := map W (seq 0 k) ++ [ptOf c l]).
    assert (LM : length (map W (seq 0 k)) = k) by now rewrite map_length, seq_length.
    assert (N : forall i, i < k -> nth i ds bfalse = W i).
    { intros i Hi. unfold ds. rewrite app_nth1 by lia. change bfalse with (W 0). rewrite map_nth, seq_nth; auto. }
    assert (NK : nth k ds bfalse = ptOf c l).
    { unfold ds. rewrite app_nth2 by lia. now rewrite LM, Nat.sub_diag. }
    split; [unfold ds; rewrite app_length, LM; cbn [length]; lia|]. split; auto. split; [|split].
    - intros i Hi. destruct (Nat.eq_dec i k) as [->|]; [rewrite NK; apply (pre_ptOf c Hk)|rewrite N by lia; apply pre_W].
    - intros i Hi. rewrite N by auto. exists []. split; [intros k' b' []|]. intros s. split; [|tauto]. intros H. split; auto. intros k' b' [].
    - intros i Hi. rewrite (N i Hi). intros s Hs. apply preOf_pos; [apply pre_W|]. apply W_step.
      destruct (Nat.eq_dec (S i) k) as [E|]; [|now rewrite N in Hs by lia].
      rewrite E in *. rewrite NK in Hs. apply (pos_ptOf c) in Hs. rewrite <- HP. apply (pos_ext c Hk); [apply pre_W|exact Hs].
  Qed.

  (** ** Cells *)
  Lemma cell_spec d k b : pre d -> fitsCell (cellOf d (2 * k)) b <-> exists s, pos d s = true /\ s k = b.
  Proof.
    intros D. unfold cellOf. destruct (isFalse d) eqn:E0.
    { rewrite isFalse_spec in E0. cbn [fitsCell]. split; [easy|]. intros (s & Hs & _). unfold pos in Hs. rewrite E0 in Hs. discriminate. }
    apply isFalse_false in E0. destruct E0 as (e & He). rewrite (eval_pre c) in He by auto.
    destruct (isFalse (band d (bvar (2 * k)))) eqn:E1.
    { rewrite isFalse_spec in E1. assert (A : forall s, pos d s = true -> s k = false).
      { intros s Hs. specialize (E1 (tv s s)). rewrite eval_and, eval_var, tv_even in E1. unfold pos in Hs. rewrite Hs in E1. exact E1. }
      cbn [fitsCell]. split; [intros ->; eauto|]. intros (s & Hs & <-). auto. }
    apply isFalse_false in E1. destruct E1 as (e1 & H1). rewrite eval_and, eval_var in H1. apply andb_true_iff in H1. destruct H1 as [H1 H1'].
    rewrite (eval_pre c) in H1 by auto.
    destruct (isFalse (band d (bnot (bvar (2 * k))))) eqn:E2.
    { rewrite isFalse_spec in E2. assert (A : forall s, pos d s = true -> s k = true).
      { intros s Hs. specialize (E2 (tv s s)). rewrite eval_and, eval_not, eval_var, tv_even in E2. unfold pos in Hs. rewrite Hs in E2.
        now apply negb_false_iff in E2. }
      cbn [fitsCell]. split; [intros ->; eauto|]. intros (s & Hs & <-). auto. }
    apply isFalse_false in E2. destruct E2 as (e2 & H2). rewrite eval_and, eval_not, eval_var in H2. apply andb_true_iff in H2. destruct H2 as [H2 H2'].
    rewrite (eval_pre c) in H2 by auto. apply negb_true_iff in H2'. cbn [fitsCell]. split; auto. intros _. destruct b; eauto.
  Qed.
  Lemma rowVars_shell : rowVars c = map (fun k => 2 * k) (shellVars c).
  Proof. exact (preShell c Hk). Qed.
  Definition colOf (d : BF) : list cell := map (cellOf d) (rowVars c).
  Lemma describes_iff d s : describes (shellVars c) (colOf d) s <-> forall k, k < n -> fitsCell (cellOf d (2 * k)) (s k).
  Proof.
    unfold describes, colOf. rewrite rowVars_shell, map_map.
    assert (Z : forall l, Forall2 (fun v a => fitsCell a (s v)) l (map (fun k => cellOf d (2 * k)) l) <->
                       forall k, In k l -> fitsCell (cellOf d (2 * k)) (s k)).
    { induction l as [|k l IH]; cbn [map]; split; intros H.
      - intros k [].
      - constructor.
      - inversion H; subst. intros k' [<-|Hin]; auto. now apply IH.
      - constructor; [apply H; now left|]. apply IH. intros k' Hin. apply H. now right. }
    rewrite Z. split; intros H k Hin; apply H; now apply (in_shellVars c).
  Qed.
  Lemma describes_in d s : pre d -> pos d s = true -> describes (shellVars c) (colOf d) s.
  Proof. intros D H. apply describes_iff. intros k _. apply cell_spec; eauto. Qed.
  Lemma describes_restricted i d s : pre d -> restricted i d ->
    pos d s = true <-> pos (W i) s = true /\ describes (shellVars c) (colOf d) s.
  Proof.
    intros D (L & HL & HP). split.
    - intros H. split; [now apply HP in H|now apply describes_in].
    - intros [H1 H2]. apply HP. split; auto. intros k b Hin. split; [eauto|].
      pose proof (proj1 (describes_iff d s) H2 k (HL k b Hin)) as F. apply cell_spec in F; auto. destruct F as (s' & Hs & <-).
      apply HP in Hs. destruct Hs as [_ Hs]. now apply (Hs k b).
  Qed.
  Lemma describes_point l s : describes (shellVars c) (colOf (ptOf c l)) s <-> pos (ptOf c l) s = true.
  Proof.
    split; [|apply describes_in, (pre_ptOf c Hk)]. intros H. apply (pos_ptOf c). intros k Hlt.
    pose proof (proj1 (describes_iff _ s) H k Hlt) as F. apply cell_spec in F; [|apply (pre_ptOf c Hk)].
    destruct F as (s' & Hs & <-). apply (pos_ptOf c) in Hs. now apply Hs.
  Qed.
  Lemma colOf_point l : colOf (ptOf c l) = map (fun k => if ofVec l k then One else Zero) (shellVars c).
  Proof.
    unfold colOf. rewrite rowVars_shell, map_map. apply map_ext_in. intros k Hin. apply (in_shellVars c) in Hin.
    assert (D : pre (ptOf c l)) by apply (pre_ptOf c Hk).
    assert (F : forall b, fitsCell (cellOf (ptOf c l) (2 * k)) b <-> b = ofVec l k).
    { intros b. rewrite (cell_spec _ _ _ D). split.
      - intros (s & Hs & <-). apply (pos_ptOf c) in Hs. now apply Hs.
      - intros ->. exists (ofVec l). split; auto. apply (pos_ptOf c). now intros j _. }
    pose proof (F true) as F1. pose proof (F false) as F2.
    destruct (cellOf (ptOf c l) (2 * k)), (ofVec l k); cbn [fitsCell] in *; intuition congruence.
  Qed.

  (** Columns of the table. *)
  Lemma columns_nth ds K j : length ds = S K -> j <= K ->
    columnOf (t_columns (tableOf c ds)) j = colOf (nth (K - j) ds bfalse).
  Proof.
    intros HL Hj. unfold columnOf, tableOf. cbn [t_columns].
    change (map (fun d => map (cellOf d) (rowVars c)) (rev ds)) with (map colOf (rev ds)).
    rewrite (nth_indep _ [] (colOf bfalse)) by (rewrite map_length, rev_length; lia).
    rewrite (map_nth colOf (rev ds) bfalse j), rev_nth by lia. do 2 f_equal. lia.
  Qed.

  (** ** Strictness *)
  Lemma entry_col d k a : entry (shellVars c) (colOf d) k a -> k < n /\ a = cellOf d (2 * k).
  Proof.
    intros (r & H1 & H2). split; [apply (in_shellVars c); eapply nth_error_In; eauto|].
    unfold colOf in H2. rewrite rowVars_shell, map_map, (map_nth_error _ _ _ H1) in H2. congruence.
  Qed.
  Lemma strict ds K start i k b : shrunk K start ds -> final ds -> i < K -> entry (shellVars c) (colOf (nth i ds bfalse)) k Any ->
    ~ forall s, pos (nth (S i) ds bfalse) s = true -> can (band (nth i ds bfalse) (literal (2 * k) (negb b))) s.
  Proof.
    intros (H1 & _ & H3 & _) HF Hi HC H. apply entry_col in HC. destruct HC as [Hlt HC].
    assert (D : pre (nth i ds bfalse)) by (apply H3; lia).
    assert (DB : pre (band (nth i ds bfalse) (literal (2 * k) (negb b)))) by (apply dep_and; auto; now apply pre_literal).
    assert (B : bleq (nth (S i) ds bfalse) (preOf c env (band (nth i ds bfalse) (literal (2 * k) (negb b)))) = true).
    { apply bleq_sub; [apply H3; lia|now apply pre_preOf|]. intros s Hs. apply preOf_pos; auto. }
    assert (Hin : In (2 * k) (preVars c)) by (apply (in_preVars c Hk); eauto).
    specialize (HF i (2 * k) (negb b) ltac:(lia) Hin). cbn zeta in HF. rewrite B in HF.
    cbn [andb] in HF. rewrite negb_false_iff in HF. apply bf_eqb_eq in HF.
    assert (X : fitsCell (cellOf (nth i ds bfalse) (2 * k)) (negb b)) by (rewrite <- HC; exact I).
    apply cell_spec in X; auto. destruct X as (s & Hs & Hb). rewrite <- HF, pos_and, andb_true_iff, literal_pos, negb_involutive in Hs.
    destruct Hs as [_ Hs]. rewrite Hs in Hb. now destruct b.
  Qed.

  (** ** The result *)
  Lemma traceOf_spec : exists r, traceOf c env = Some r /\
    match r with
    | Nothing => forall j, 1 <= j -> initOf c env (W j) = false
    | NoStrategy => exists k, 1 <= k /\ initOf c env (W k) = true /\ (forall j, 1 <= j < k -> initOf c env (W j) = false) /\
        forall s, pos (initEnv c) s = true -> pos (initSys c) s = true -> pos (W k) s = false
    | Table t => exists K l ds, 1 <= K /\ initOf c env (W K) = true /\ (forall j, 1 <= j < K -> initOf c env (W j) = false) /\
        pos (initEnv c) (ofVec l) = true /\ pos (initSys c) (ofVec l) = true /\ pos (W K) (ofVec l) = true /\
        shrunk K (ptOf c l) ds /\ final ds /\ t = tableOf c (lastInput c env ds)
    end.
  Proof.
    unfold traceOf. destruct distLoop as ([[w ds]|] & -> & H).
    - destruct H as (k & H1 & -> & -> & H2 & H3). set (st := band (band (initEnv c) (initSys c)) (W k)).
      assert (D : pre st).
      { apply dep_and; [apply dep_and; [apply (initEnv_pre c Hwf)|apply (wf_initSys c Hwf)]|apply pre_W]. }
      destruct (isFalse st) eqn:E.
      + exists NoStrategy. split; auto. exists k. split; auto. split; auto. split; auto. intros s HE HS.
        rewrite isFalse_spec in E. specialize (E (tv s s)). change (pos st s = false) in E. unfold st in E.
        rewrite !pos_and, HE, HS in E. exact E.
      + destruct (determinize_pre c Hk st D E) as (l & _ & HP & ->). unfold st in HP. rewrite !pos_and, !andb_true_iff in HP.
        destruct HP as [[P1 P2] P3]. destruct (passLoop k (ptOf c l) _ (shrunk_start k l H1 P3)) as (ds' & -> & HS & HF).
        eexists. split; [reflexivity|]. cbv beta iota. exists k, l, ds'. auto 12.
    - exists Nothing. auto.
  Qed.
End TRACE.

(** ** The system's trace *)
Section SYSTEM.
  Variable c : ctx.
  Hypothesis Hwf : wf c.
  Let Hk := wf_kinds c Hwf.
  Let EX := extends_refl c Hwf.
  Local Notation n := (nvars c).
  Local Notation pre := (dep (isPreV c)).
  Local Notation SE := (trans (safetyEnv c)).
  Local Notation SS := (trans (safetySys c)).
  Local Notation g := (game_of c).

  Lemma sysInit_spec w : pre w -> sysInit c w = true <->
    forall x, exists y, pos (initEnv c) (mrg c x y) = true -> pos (initSys c) (mrg c x y) = true /\ pos w (mrg c x y) = true.
  Proof.
    intros D. rewrite <- (winsClassical_spec c c Hwf EX Hwf w D). unfold sysInit, winsClassical, initialCheck.
    set (A := bexists (varCubePreOutput c) (bimp (initEnv c) (band (initSys c) w))).
    set (B := bimp (initEnv c) (bexists (varCubePreOutput c) (band w (initSys c)))).
    assert (IE : pre (initEnv c)) by apply (initEnv_pre c Hwf).
    assert (IS : pre (initSys c)) by apply (wf_initSys c Hwf).
    assert (X : A = B); [|now rewrite X].
    assert (P1 : pre (bimp (initEnv c) (band (initSys c) w))) by (apply dep_imp; auto; now apply dep_and).
    assert (P2 : pre (band w (initSys c))) by now apply dep_and.
    apply (pos_inj c).
    - apply (preIn_pre c). now apply (dep_exPreOut c Hwf).
    - apply dep_imp; auto. apply (preIn_pre c). now apply (dep_exPreOut c Hwf).
    - intros s. apply eq_true_iff_eq. unfold A, B. rewrite pos_imp.
      assert (EE : forall y, pos (initEnv c) (mrg c s y) = pos (initEnv c) s).
      { intros y. rewrite (preIn_merge c (initEnv c) s y s) by apply (wf_initEnv c Hwf). apply eval_ext. intros v.
        unfold tv, mrg. destruct (Nat.even v); now destruct (isOut c _). }
      rewrite (exPreOut_pos c Hk _ _ P1). split.
      + intros (y & Hy). rewrite pos_imp, EE in Hy. destruct (pos (initEnv c) s); cbn [implb] in *; auto.
        rewrite (exPreOut_pos c Hk _ _ P2). exists y. rewrite pos_and in *. now rewrite andb_comm.
      + intros H. destruct (pos (initEnv c) s) eqn:E; cbn [implb] in H.
        * rewrite (exPreOut_pos c Hk _ _ P2) in H. destruct H as (y & Hy). exists y. rewrite pos_imp, EE. cbn [implb].
          rewrite pos_and in *. now rewrite andb_comm.
        * exists s. rewrite pos_imp, EE. reflexivity.
  Qed.
  Lemma sysInit_wins k : initOf c false (W c false k) = true <-> sys_wins_within g k.
  Proof.
    unfold initOf. rewrite sysInit_spec by (apply (pre_W c Hwf)). unfold sys_wins_within. rewrite (W_sys c false k eq_refl).
    split; intros H x; destruct (H x) as (y & Hy); exists y; intros HE; destruct (Hy HE) as [H1 H2]; (split; [exact H1|]);
      now apply (sys_falsifies_spec c c Hwf EX).
  Qed.

  Lemma system_trace K l ds : 1 <= K -> pos (initEnv c) (ofVec l) = true -> pos (initSys c) (ofVec l) = true ->
    shrunk c false K (ptOf c l) ds ->
    systemtrace g (shellVars c) K (t_columns (tableOf c (lastInput c false ds))).
  Proof.
    intros HK PE PS (H1 & H2 & H3 & H4 & H5). unfold lastInput. rewrite andb_false_r.
    assert (CN : forall j, j <= K -> columnOf (t_columns (tableOf c ds)) j = colOf c (nth (K - j) ds bfalse)).
    { intros j Hj. now apply columns_nth. }
    set (f := fun h x => sysMove c (nth (K - length h) ds bfalse) (hd (fun _ => false) h) x).
    exists (ofVec l), f. split.
    { split; auto. split; auto. rewrite CN, Nat.sub_0_r, H2 by lia. apply (colOf_point c Hwf). }
    intros x. set (pi := play_from g f (ofVec l) x). cbn zeta.
    assert (G : forall j, j <= K ->
      (exists m, m < K /\ (forall i, i < m -> SE (pi i) (pi (S i)) = true) /\ (forall i, i < m -> SS (pi i) (pi (S i)) = true) /\
         SE (pi m) (pi (S m)) = false /\ (forall i, i <= m -> describes (shellVars c) (columnOf (t_columns (tableOf c ds)) i) (pi i))) \/
      (pos (nth (K - j) ds bfalse) (pi j) = true /\ (forall i, i < j -> SE (pi i) (pi (S i)) = true) /\ (forall i, i < j -> SS (pi i) (pi (S i)) = true) /\
       (forall i, i <= j -> describes (shellVars c) (columnOf (t_columns (tableOf c ds)) i) (pi i)))).
    { induction j as [|j IH]; intros Hj.
      - right. assert (P0 : pos (nth K ds bfalse) (ofVec l) = true) by (rewrite H2; apply (pos_ptOf c); now intros k _).
        rewrite Nat.sub_0_r. split; [exact P0|]. split; [lia|]. split; [lia|].
        intros i Hi. replace i with 0 by lia. rewrite CN, Nat.sub_0_r by lia. apply (describes_in c Hwf); auto.
      - destruct IH as [IH|(I1 & I2 & I3 & I4)]; [lia|auto|].
        assert (D : pre (nth (K - S j) ds bfalse)) by (apply H3; lia).
        replace (K - j) with (S (K - S j)) in I1 by lia. apply H5 in I1; [|lia]. apply (preOf_pos c Hwf false _ _ D) in I1.
        destruct (I1 (x (S j))) as (y & Hy).
        assert (B : sysB c (nth (K - S j) ds bfalse) (pi j) (x (S j)) (f (history_from g f (ofVec l) x j) (x (S j))) = true).
        { unfold f at 1. rewrite length_history_from, hd_history_from. unfold sysMove.
          apply (choose_spec n) with (x := y); auto. intros y1 y2 Hyy. now apply (sysB_ext c Hwf). }
        change (sysB c (nth (K - S j) ds bfalse) (pi j) (x (S j)) (f (history_from g f (ofVec l) x j) (x (S j)))) with
          ((SS (pi j) (pi (S j)) && pos (nth (K - S j) ds bfalse) (pi (S j))) || negb (SE (pi j) (pi (S j)))) in B.
        destruct (SE (pi j) (pi (S j))) eqn:ESE.
        + rewrite orb_false_r in B. apply andb_true_iff in B. destruct B as [B1 B2]. right. split; auto.
          split; [|split].
          * intros i Hi. destruct (Nat.eq_dec i j) as [->|]; auto. apply I2. lia.
          * intros i Hi. destruct (Nat.eq_dec i j) as [->|]; auto. apply I3. lia.
          * intros i Hi. destruct (Nat.eq_dec i (S j)) as [->|]; [|apply I4; lia]. rewrite CN by lia. now apply (describes_in c Hwf).
        + left. exists j. split; [lia|]. auto. }
    destruct (G K (le_n K)) as [X|(I1 & _)]; auto. exfalso. rewrite Nat.sub_diag in I1.
    destruct (H4 0 ltac:(lia)) as (L & _ & HP). apply HP in I1. destruct I1 as [I1 _]. discriminate I1.
  Qed.

  (** The positions of a column. *)
  Lemma system_column K l ds j s : pos (W c false K) (ofVec l) = true -> shrunk c false K (ptOf c l) ds -> j <= K ->
    pos (nth (K - j) ds bfalse) s = true <-> sys_falsifies g (K - j) s /\ describes (shellVars c) (columnOf (t_columns (tableOf c ds)) j) s.
  Proof.
    intros PW (H1 & H2 & H3 & H4 & H5) Hj. rewrite (columns_nth c ds K) by auto.
    rewrite <- (sys_falsifies_spec c c Hwf EX), <- (W_sys c false _ eq_refl).
    destruct (Nat.eq_dec j 0) as [->|].
    - rewrite Nat.sub_0_r, H2, (describes_point c Hwf). split; [|tauto]. intros P. split; auto.
      rewrite <- PW. apply (pos_ext c Hk); [apply (pre_W c Hwf)|]. now apply (pos_ptOf c).
    - apply (describes_restricted c Hwf); [apply H3; lia|apply H4; lia].
  Qed.
  Lemma can_sys w s : can c false w s <-> sys_forces g (fun t => pos w t = true) s.
  Proof.
    unfold can, sys_forces. split; intros H x; destruct (H x) as (y & Hy); exists y.
    - apply orb_true_iff in Hy. destruct Hy as [Hy|Hy]; [right; now apply andb_true_iff in Hy|left; now apply negb_true_iff in Hy].
    - apply orb_true_iff. destruct Hy as [Hy|Hy]; [right; now apply negb_true_iff|left; now apply andb_true_iff].
  Qed.
  Lemma sys_forces_mono (P Q : state -> Prop) s : (forall t, P t -> Q t) -> sys_forces g P s -> sys_forces g Q s.
  Proof. intros H F x. destruct (F x) as (y & [Hy|[Hy1 Hy2]]); exists y; auto. Qed.
  Lemma system_strict K l ds j : pos (W c false K) (ofVec l) = true -> shrunk c false K (ptOf c l) ds -> final c false ds -> S j <= K ->
    let D := fun j s => sys_falsifies g (K - j) s /\ describes (shellVars c) (columnOf (t_columns (tableOf c ds)) j) s in
    (forall s, D j s -> sys_forces g (D (S j)) s) /\
    (forall k b, entry (shellVars c) (columnOf (t_columns (tableOf c ds)) (S j)) k Any ->
       ~ forall s, D j s -> sys_forces g (fun t => D (S j) t /\ t k = b) s).
  Proof.
    intros PW HS HF Hj D.
    assert (HD : forall j s, j <= K -> pos (nth (K - j) ds bfalse) s = true <-> D j s) by (intros; now apply system_column with (l := l)).
    pose proof HS as (H1 & H2 & H3 & H4 & H5). assert (EK : K - j = S (K - S j)) by lia. split.
    - intros s Hs. apply HD in Hs; [|lia]. rewrite EK in Hs. apply H5 in Hs; [|lia].
      apply (preOf_pos c Hwf false) in Hs; [|apply H3; lia]. apply can_sys in Hs. revert Hs. apply sys_forces_mono. intros t. now apply HD.
    - intros k b HE F. rewrite (columns_nth c ds K) in HE by auto. revert HE. intros HE.
      apply (strict c Hwf false ds K (ptOf c l) (K - S j) k b HS HF ltac:(lia) HE).
      intros s Hs. rewrite <- EK in Hs. apply HD in Hs; [|lia]. apply can_sys. generalize (F s Hs). apply sys_forces_mono.
      intros t [Ht Hb]. rewrite pos_and, andb_true_iff, literal_pos, negb_involutive. split; auto. now apply HD.
  Qed.
End SYSTEM.

(** ** The environment's trace *)
Section ENVIRONMENT.
  Variable c : ctx.
  Hypothesis Hwf : wf c.
  Let Hk := wf_kinds c Hwf.
  Let EX := extends_refl c Hwf.
  Local Notation n := (nvars c).
  Local Notation pre := (dep (isPreV c)).
  Local Notation any := (dep (isAnyV c)).
  Local Notation SE := (trans (safetyEnv c)).
  Local Notation SS := (trans (safetySys c)).
  Local Notation g := (game_of c).

  Lemma envInit_code k : initOf c true (W c true k) = true <-> codeEnv g k.
  Proof. rewrite (W_env c true k eq_refl). exact (codeEnv_spec c Hwf c EX Hwf k). Qed.

  (** The last column. *)
  Lemma faPre_trans f s t : any f -> trans (bforall (varCubePre c) f) s t = true <-> forall s', trans f s' t = true.
  Proof.
    intros D. unfold trans. rewrite eval_forall. split.
    - intros H s'. rewrite <- (H (tv (fun k => if Nat.ltb k n then s' k else s k) t)).
      + apply (trans_ext c Hk f); [exact D| |reflexivity]. intros k Hlt. apply Nat.ltb_lt in Hlt. now rewrite Hlt.
      + intros v Hv. destruct (even_cases v) as [[k ->]|[k ->]]; rewrite ?tv_even, ?tv_odd; [|reflexivity].
        destruct (Nat.ltb_spec k n) as [L|L]; [|reflexivity]. elim Hv. apply (in_cubePre c Hk). eauto.
    - intros H e He. rewrite <- (H (fun k => e (2 * k))). apply D. intros v Hv.
      destruct (even_cases v) as [[k ->]|[k ->]]; rewrite ?tv_even, ?tv_odd; [reflexivity|].
      rewrite <- He; [now rewrite tv_odd|]. rewrite (in_cubePre c Hk). intros (m & E & _). lia.
  Qed.
  Definition lastSet (d : BF) : BF := bforall (varCubePre c) (bforall (varCubePostOutput c)
      (bor (band (safetyEnv c) (bnot (safetySys c))) (bnot d))).
  Lemma lastSet_trans d s t : pre d -> trans (lastSet d) s t = true <->
    forall s', pos d s' = true -> forall y, SE s' (mrg c t y) = true /\ SS s' (mrg c t y) = false.
  Proof.
    intros D. unfold lastSet.
    assert (DB : any (bor (band (safetyEnv c) (bnot (safetySys c))) (bnot d))).
    { apply dep_or; [|apply dep_not, (isPre_isAny c); exact D]. apply dep_and; [apply (Se_any c Hwf)|apply dep_not, (wf_safetySys c Hwf)]. }
    rewrite faPre_trans by (eapply dep_weaken; [|apply (dep_forall _ (isAnyV c) (isAnyV c) _ DB); auto]; auto).
    assert (E : forall s' y, trans (bor (band (safetyEnv c) (bnot (safetySys c))) (bnot d)) s' (mrg c t y) = true <->
      (pos d s' = true -> SE s' (mrg c t y) = true /\ SS s' (mrg c t y) = false)).
    { intros s' y. rewrite trans_or, trans_and, !trans_not, (pos_trans c d) by exact D.
      destruct (SE s' _), (SS s' _), (pos d s'); cbn; intuition congruence. }
    split.
    - intros H s' Hs y. specialize (H s'). rewrite (faPostOut_trans c Hk) in H. now apply E.
    - intros H s'. rewrite (faPostOut_trans c Hk). intros y. apply E. intros Hs. now apply H.
  Qed.
  Lemma any_lastSet d : pre d -> any (lastSet d).
  Proof.
    intros D. assert (DB : any (bor (band (safetyEnv c) (bnot (safetySys c))) (bnot d))).
    { apply dep_or; [|apply dep_not, (isPre_isAny c); exact D]. apply dep_and; [apply (Se_any c Hwf)|apply dep_not, (wf_safetySys c Hwf)]. }
    unfold lastSet. apply (dep_forall _ (isAnyV c) (isAnyV c)); auto. apply (dep_forall _ (isAnyV c) (isAnyV c)); auto.
  Qed.
  Lemma last_spec d : pre d -> let last := swapPrePost c (determinize (lastSet d) (postInputVars c)) in
    pre last /\
    (isFalse last = true \/ exists x, (forall y, pos last (mrg c x y) = true) /\
       forall s, pos d s = true -> forall y, SE s (mrg c x y) = true /\ SS s (mrg c x y) = false).
  Proof.
    intros D last. pose proof (any_lastSet d D) as A. destruct (isFalse (lastSet d)) eqn:E.
    - assert (Z : last = bfalse).
      { apply bf_ext. intros e. pose proof (determinize_empty (postInputVars c) _ E) as X. rewrite isFalse_spec in X.
        unfold last, swapPrePost. rewrite eval_swap, X. reflexivity. }
      rewrite Z. split; [apply dep_false|]. left. apply isFalse_spec. reflexivity.
    - destruct (determinize_in c Hwf (lastSet d) A E) as (s0 & x & _ & H0 & HX).
      assert (DD : any (determinize (lastSet d) (postInputVars c))).
      { apply dep_determinize; auto. intros v Hv. apply (in_PostInput c Hk) in Hv. destruct Hv as (k & -> & Hlt & _).
        unfold isAnyV. rewrite (nvars_spec c Hk). lia. }
      assert (LT : forall s t, trans last s t = true <-> same_in g n s (ofVec x)).
      { intros s t. unfold last. rewrite (trans_swap c Hk) by exact DD. rewrite HX. split; [tauto|]. intros Hs. split; auto.
        rewrite lastSet_trans by exact D. rewrite lastSet_trans in H0 by exact D. intros s' Hs' y.
        assert (M : forall k, k < nvars c -> mrg c s y k = mrg c (ofVec x) y k).
        { intros k Hlt. unfold mrg. destruct (isOut c k) eqn:O; auto. }
        destruct (H0 s' Hs' y) as [Q1 Q2]. split.
        - rewrite <- Q1. apply (trans_ext c Hk); auto. apply (Se_any c Hwf).
        - rewrite <- Q2. apply (trans_ext c Hk); auto. apply (wf_safetySys c Hwf). }
      split.
      + eapply (dep_of_trans c Hwf); [exact LT|]. intros s s' H HS k Hlt O. rewrite <- H by auto. now apply HS.
      + right. exists (ofVec x). split.
        * intros y. apply LT. intros k Hlt O. unfold mrg. cbn [g_out game_of] in O. now rewrite O.
        * rewrite lastSet_trans in H0 by exact D. exact H0.
  Qed.

  Lemma length_env_history e s y j : length (env_history g e s y j) = S j.
  Proof. induction j as [|j IH]; cbn [env_history length]; auto. Qed.

  Lemma environment_trace K l ds : 1 <= K -> pos (initEnv c) (ofVec l) = true -> pos (initSys c) (ofVec l) = true ->
    shrunk c true K (ptOf c l) ds ->
    countertrace g (shellVars c) K (t_columns (tableOf c (lastInput c true ds))).
  Proof.
    intros HK PE PS (H1 & H2 & H3 & H4 & H5). unfold lastInput. rewrite andb_true_r.
    replace (Nat.ltb 1 (length ds)) with true by (symmetry; apply Nat.ltb_lt; lia).
    set (d1 := nth 1 ds bfalse). assert (D1 : pre d1) by (apply H3; lia).
    change (bforall (varCubePre c) (bforall (varCubePostOutput c) (bor (band (safetyEnv c) (bnot (safetySys c))) (bnot d1)))) with (lastSet d1).
    destruct (last_spec d1 D1) as [DL HL]. set (last := swapPrePost c (determinize (lastSet d1) (postInputVars c))) in *.
    set (ds' := setNth 0 last ds). assert (L' : length ds' = S K) by (unfold ds'; now rewrite length_setNth).
    assert (N : forall j, nth j ds' bfalse = if Nat.eqb j 0 then last else nth j ds bfalse) by (intros j; apply nth_setNth; lia).
    assert (CN : forall j, j < K -> columnOf (t_columns (tableOf c ds')) j = colOf c (nth (K - j) ds bfalse)).
    { intros j Hj. rewrite (columns_nth c ds' K) by (auto; lia). rewrite N. destruct (Nat.eqb_spec (K - j) 0); [lia|auto]. }
    assert (CK : columnOf (t_columns (tableOf c ds')) K = colOf c last).
    { rewrite (columns_nth c ds' K) by auto. now rewrite N, Nat.sub_diag. }
    assert (D0 : forall s, pos (nth 0 ds bfalse) s = false).
    { intros s. destruct (pos (nth 0 ds bfalse) s) eqn:E; auto. destruct (H4 0 ltac:(lia)) as (L & _ & HP). apply HP in E.
      destruct E as [E _]. discriminate E. }
    (* the input for the last step *)
    assert (HF : exists xl : option state, match xl with
      | Some x => (forall y, pos last (mrg c x y) = true) /\ forall s, pos d1 s = true -> forall y, SE s (mrg c x y) = true /\ SS s (mrg c x y) = false
      | None => isFalse last = true end).
    { destruct HL as [HL|(x & HL)]; [now exists None|now exists (Some x)]. }
    destruct HF as (xl & HF).
    set (mv := fun (m : nat) (s : state) => match xl with
       | Some x => if Nat.eqb m K then x else envMove c (nth (K - m) ds bfalse) s
       | None => envMove c (nth (K - m) ds bfalse) s end).
    set (e := fun h => mv (length h) (hd (fun _ => false) h)).
    exists (ofVec l), e. split.
    { split; auto. split; auto. rewrite CN, Nat.sub_0_r, H2 by lia. apply (colOf_point c Hwf). }
    intros y. set (pi := env_play g e (ofVec l) y). cbn zeta.
    assert (PS1 : forall j, pi (S j) = mrg c (mv (S j) (pi j)) (y (S j))).
    { intros j. unfold pi, env_play. cbn [env_history hd]. unfold e at 1. rewrite length_env_history. reflexivity. }
    set (Good := exists m, m < K /\ (forall i, i <= m -> SE (pi i) (pi (S i)) = true) /\ (forall i, i < m -> SS (pi i) (pi (S i)) = true) /\
         SS (pi m) (pi (S m)) = false /\ (forall i, i <= m -> describes (shellVars c) (columnOf (t_columns (tableOf c ds')) i) (pi i)) /\
         (S m = K -> ~ In Never (columnOf (t_columns (tableOf c ds')) K) -> describes (shellVars c) (columnOf (t_columns (tableOf c ds')) K) (pi K))).
    assert (G : forall j, j <= K -> Good \/
      (pos (nth (K - j) ds bfalse) (pi j) = true /\ (forall i, i < j -> SE (pi i) (pi (S i)) = true) /\ (forall i, i < j -> SS (pi i) (pi (S i)) = true) /\
       (forall i, i <= j -> i < K -> describes (shellVars c) (columnOf (t_columns (tableOf c ds')) i) (pi i)))).
    { induction j as [|j IH]; intros Hj.
      - right. assert (P0 : pos (nth K ds bfalse) (ofVec l) = true) by (rewrite H2; apply (pos_ptOf c); now intros k _).
        rewrite Nat.sub_0_r. split; [exact P0|]. split; [lia|]. split; [lia|].
        intros i Hi _. replace i with 0 by lia. rewrite CN, Nat.sub_0_r by lia. apply (describes_in c Hwf); auto.
      - destruct IH as [IH|(I1 & I2 & I3 & I4)]; [lia|auto|].
        assert (D : pre (nth (K - S j) ds bfalse)) by (apply H3; lia).
        assert (SD : forall i, i <= j -> describes (shellVars c) (columnOf (t_columns (tableOf c ds')) i) (pi i)).
        { intros i Hi. apply I4; lia. }
        assert (LASTX : S j = K -> (exists x, xl = Some x) -> Good).
        { intros E (x & Ex). rewrite Ex in HF. destruct HF as [F1 F2].
          assert (EP : pi (S j) = mrg c x (y (S j))).
          { rewrite PS1. unfold mv. rewrite Ex, E, Nat.eqb_refl. reflexivity. }
          replace (K - j) with 1 in I1 by lia. destruct (F2 _ I1 (y (S j))) as [F3 F4]. rewrite <- EP in F3, F4.
          exists j. split; [lia|]. split; [|split; [|split; [|split]]]; auto.
          - intros i Hi. destruct (Nat.eq_dec i j) as [->|]; auto. apply I2. lia.
          - intros _ _. rewrite CK, <- E. apply (describes_in c Hwf); auto. rewrite EP. apply F1. }
        destruct (Nat.eq_dec (S j) K) as [EK|NK]; [destruct xl as [x|]|].
        + left. apply LASTX; eauto.
        + (* no common input for the last step *)
          replace (K - j) with (S (K - S j)) in I1 by lia. apply H5 in I1; [|lia]. apply (preOf_pos c Hwf true _ _ D) in I1.
          pose proof (envMove_spec c Hwf _ _ D I1 (y (S j))) as B.
          assert (EP : mrg c (envMove c (nth (K - S j) ds bfalse) (pi j)) (y (S j)) = pi (S j)) by (rewrite PS1; reflexivity).
          unfold envB in B. rewrite EP in B. apply andb_true_iff in B. destruct B as [B1 B2].
          replace (K - S j) with 0 in B2 by lia. rewrite D0 in B2. cbn [orb] in B2. apply negb_true_iff in B2.
          left. exists j. split; [lia|]. split; [|split; [|split; [|split]]]; auto.
          * intros i Hi. destruct (Nat.eq_dec i j) as [->|]; auto. apply I2. lia.
          * intros _ NN. rewrite CK in NN |- *. apply (describes_iff c Hwf). intros k Hlt. elim NN. unfold colOf.
            apply in_map_iff. exists (2 * k). split; [|rewrite (rowVars_shell c Hwf); apply in_map; now apply (in_shellVars c)].
            unfold cellOf. now rewrite HF.
        + replace (K - j) with (S (K - S j)) in I1 by lia. apply H5 in I1; [|lia]. apply (preOf_pos c Hwf true _ _ D) in I1.
          pose proof (envMove_spec c Hwf _ _ D I1 (y (S j))) as B.
          assert (EP : mrg c (envMove c (nth (K - S j) ds bfalse) (pi j)) (y (S j)) = pi (S j)).
          { rewrite PS1. unfold mv. destruct xl; auto. destruct (Nat.eqb_spec (S j) K); [lia|auto]. }
          unfold envB in B. rewrite EP in B. apply andb_true_iff in B. destruct B as [B1 B2].
          assert (SA : forall i, i < S j -> SE (pi i) (pi (S i)) = true).
          { intros i Hi. destruct (Nat.eq_dec i j) as [->|]; auto. apply I2. lia. }
          destruct (SS (pi j) (pi (S j))) eqn:ES.
          * right. rewrite orb_false_r in B2. split; auto. split; auto. split.
            -- intros i Hi. destruct (Nat.eq_dec i j) as [->|]; auto. apply I3. lia.
            -- intros i Hi HiK. destruct (Nat.eq_dec i (S j)) as [->|]; [|apply I4; lia]. rewrite CN by lia. now apply (describes_in c Hwf).
          * left. exists j. split; [lia|]. split; [|split; [|split; [|split]]]; auto; [intros i Hi; apply SA; lia|lia]. }
    destruct (G K (le_n K)) as [X|(I1 & _)]; auto. exfalso. rewrite Nat.sub_diag, D0 in I1. discriminate.
  Qed.

  (** The positions of a column. *)
  Lemma lastInput_nth K ds i : length ds = S K -> 1 <= i -> nth i (lastInput c true ds) bfalse = nth i ds bfalse.
  Proof.
    intros HL Hi. unfold lastInput. destruct (_ && _); auto. rewrite nth_setNth by lia. destruct (Nat.eqb_spec i 0); [lia|auto].
  Qed.
  Lemma length_lastInput ds : length (lastInput c true ds) = length ds.
  Proof. unfold lastInput. destruct (_ && _); auto. apply length_setNth. Qed.
  Lemma environment_column K l ds j s : pos (W c true K) (ofVec l) = true -> shrunk c true K (ptOf c l) ds -> j < K ->
    pos (nth (K - j) ds bfalse) s = true <->
    env_falsifies g (K - j) s /\ describes (shellVars c) (columnOf (t_columns (tableOf c (lastInput c true ds))) j) s.
  Proof.
    intros PW (H1 & H2 & H3 & H4 & H5) Hj. rewrite (columns_nth c _ K) by (rewrite ?length_lastInput; auto; lia).
    rewrite (lastInput_nth K) by (auto; lia).
    rewrite <- (env_falsifies_spec c c Hwf EX), <- (W_env c true _ eq_refl).
    destruct (Nat.eq_dec j 0) as [->|].
    - rewrite Nat.sub_0_r, H2, (describes_point c Hwf). split; [|tauto]. intros P. split; auto.
      transitivity (pos (W c true K) (ofVec l)); [|exact PW]. apply (pos_ext c Hk); [apply (pre_W c Hwf)|]. now apply (pos_ptOf c).
    - apply (describes_restricted c Hwf); [apply H3; lia|apply H4; lia].
  Qed.
  Lemma can_env w s : can c true w s <-> env_forces g (fun t => pos w t = true) s.
  Proof.
    unfold can, env_forces. split; intros (x & H); exists x; intros y; specialize (H y).
    - apply andb_true_iff in H. destruct H as [H1 H2]. split; auto. apply orb_true_iff in H2.
      destruct H2 as [H2|H2]; [now right|left; now apply negb_true_iff in H2].
    - destruct H as [H1 H2]. apply andb_true_iff. split; auto. apply orb_true_iff. destruct H2 as [H2|H2]; [right; now apply negb_true_iff|now left].
  Qed.
  Lemma env_forces_mono (P Q : state -> Prop) s : (forall t, P t -> Q t) -> env_forces g P s -> env_forces g Q s.
  Proof. intros H (x & F). exists x. intros y. destruct (F y) as [F1 [F2|F2]]; auto. Qed.
  Lemma environment_strict K l ds j : pos (W c true K) (ofVec l) = true -> shrunk c true K (ptOf c l) ds -> final c true ds -> S j < K ->
    let cols := t_columns (tableOf c (lastInput c true ds)) in
    let D := fun j s => env_falsifies g (K - j) s /\ describes (shellVars c) (columnOf cols j) s in
    (forall s, D j s -> env_forces g (D (S j)) s) /\
    (forall k b, entry (shellVars c) (columnOf cols (S j)) k Any ->
       ~ forall s, D j s -> env_forces g (fun t => D (S j) t /\ t k = b) s).
  Proof.
    intros PW HS HF Hj cols D.
    assert (HD : forall j s, j < K -> pos (nth (K - j) ds bfalse) s = true <-> D j s) by (intros; now apply environment_column with (l := l)).
    pose proof HS as (H1 & H2 & H3 & H4 & H5). assert (EK : K - j = S (K - S j)) by lia. split.
    - intros s Hs. apply HD in Hs; [|lia]. rewrite EK in Hs. apply H5 in Hs; [|lia].
      apply (preOf_pos c Hwf true) in Hs; [|apply H3; lia]. apply can_env in Hs. revert Hs. apply env_forces_mono. intros t. now apply HD.
    - intros k b HE F. unfold cols in HE. rewrite (columns_nth c _ K) in HE by (rewrite ?length_lastInput; auto; lia).
      rewrite (lastInput_nth K) in HE by (auto; lia).
      apply (strict c Hwf true ds K (ptOf c l) (K - S j) k b HS HF ltac:(lia) HE).
      intros s Hs. rewrite <- EK in Hs. apply HD in Hs; [|lia]. apply can_env. generalize (F s Hs). apply env_forces_mono.
      intros t [Ht Hb]. rewrite pos_and, andb_true_iff, literal_pos, negb_involutive. split; auto. now apply HD.
  Qed.
End ENVIRONMENT.
