(** * Strategies from the data of the cooperative synthesis algorithm *)

From Coq Require Import Arith List Bool Lia.
From Verif Require Import BDD Loop Spec CoopSpec VarTypes Synth Sem FixBase GameSound SynthProofs Verdict AutSpec Explicit DetProofs
  ExplicitProofs ExplicitGame Coop CoopProofs CoopComplete.
Import ListNotations.

Local Arguments isOut : simpl never.

(** ** Two ways of splitting a list *)
Lemma split_same {A} (p p' : list A) D D' q q' : p ++ D :: q = p' ++ D' :: q' -> length p = length p' -> p = p' /\ D = D'.
Proof.
  revert p'. induction p as [|x p IH]; intros [|x' p']; cbn; try discriminate; intros E L.
  - now injection E.
  - injection E as <- E. destruct (IH p' E) as [-> ->]; auto.
Qed.

Lemma split_before {A} (p p' : list A) D D' q q' : p ++ D :: q = p' ++ D' :: q' -> length p < length p' -> In D p'.
Proof.
  revert p'. induction p as [|x p IH]; intros [|x' p']; cbn; intros E L; try lia.
  - left. now injection E.
  - right. apply IH; [now injection E|lia].
Qed.

(** ** Strategies with a goal counter *)
Lemma goalOf_bound (G : list tset) h : G <> [] -> goalOf G h < length G.
Proof.
  intros HG. assert (0 < length G) by (destruct G; [now elim HG|cbn; lia]).
  induction h as [|t [|s h] IH]; auto. cbn [goalOf] in *. destruct (nth _ G _ s t); auto.
  apply Nat.mod_upper_bound. lia.
Qed.

Section RESP.
  Variable g : game.
  Variable G : list tset.
  Hypothesis HG : G <> [].
  Variable resp : nat -> state -> state -> state.
  Variable start : state -> state.
  Local Notation Gn j := (nth j G (fun _ _ => true)).

  Definition stratR : strategy := fun h x =>
    match h with [] => start x | s :: _ => resp (goalOf G h) s x end.

  Variable s0 : state.
  Variable x : nat -> state.
  Local Notation pi := (play_from g stratR s0 x).
  Definition counter (n : nat) : nat := goalOf G (history_from g stratR s0 x n).

  Lemma counter_lt n : counter n < length G.
  Proof. now apply goalOf_bound. Qed.

  Lemma stratR_step n : pi (S n) = merge g (x (S n)) (resp (counter n) (pi n) (x (S n))).
  Proof.
    destruct (history_from_hd g stratR s0 x n) as (h & Eh).
    unfold play_from at 1. cbn [history_from hd]. unfold counter. rewrite Eh. reflexivity.
  Qed.

  Lemma counter_step n : counter (S n) =
    if Gn (counter n) (pi n) (pi (S n)) then (counter n + 1) mod length G else counter n.
  Proof.
    unfold counter at 1. cbn [history_from]. destruct (history_from_hd g stratR s0 x n) as (h & Eh).
    change (pi (S n)) with (merge g (x (S n)) (stratR (history_from g stratR s0 x n) (x (S n)))).
    unfold counter. rewrite Eh. reflexivity.
  Qed.

  Lemma counter_next n : exists d, d <= length G /\ counter (S n) = (counter n + d) mod length G /\
    (forall e, e < d -> Gn ((counter n + e) mod length G) (pi n) (pi (S n)) = true) /\
    (Gn (counter n) (pi n) (pi (S n)) = true -> 1 <= d).
  Proof.
    pose proof (counter_step n) as E. pose proof (counter_lt n) as L.
    destruct (Gn (counter n) (pi n) (pi (S n))) eqn:EG.
    - exists 1. repeat split; auto; try lia. intros e He. replace e with 0 by lia.
      rewrite Nat.add_0_r, Nat.mod_small by auto. exact EG.
    - exists 0. repeat split; auto; try lia; try congruence.
      rewrite Nat.add_0_r, Nat.mod_small by auto. exact E.
  Qed.
End RESP.

Section RESPWIN.
  Variable g : game.
  Variable W : state -> Prop.
  Variable G : list tset.
  Variable L : nat -> list (tset * tset).
  Hypothesis HG : G <> [].
  Hypothesis HGg : g_liveG g = G.
  Hypothesis HL : forall j, j < length G -> ranked g W (nth j G (fun _ _ => true)) (L j).
  Hypothesis HsafeE_in : forall s x y y', g_safeE g s (merge g x y) = g_safeE g s (merge g x y').
  Variable resp : nat -> state -> state -> state.
  Hypothesis Hresp : forall j s x, j < length G -> W s -> g_safeE g s (merge g x x) = true ->
    follow g (L j) s (merge g x (resp j s x)).
  Variable start : state -> state.
  Local Notation f := (stratR G resp start).

  Lemma stratR_follow s0 x n : W (play_from g f s0 x n) ->
    g_safeE g (play_from g f s0 x n) (play_from g f s0 x (S n)) = true ->
    follow g (L (counter g G resp start s0 x n)) (play_from g f s0 x n) (play_from g f s0 x (S n)).
  Proof.
    intros Hw Hs. rewrite stratR_step in *. apply Hresp; auto.
    - now apply counter_lt.
    - rewrite <- Hs. apply HsafeE_in.
  Qed.

  Lemma stratR_W s0 x n : W s0 -> safe_until g (play_from g f s0 x) n -> W (play_from g f s0 x n).
  Proof.
    intros H0. induction n as [|n IH]; intros H; auto.
    assert (Wn : W (play_from g f s0 x n)) by (apply IH; intros i Hi; apply H; lia).
    destruct (stratR_follow s0 x n Wn (H n ltac:(lia))) as (p & F & A & q & E & HF & _).
    destruct (HL (counter g G resp start s0 x n) (counter_lt g G HG resp start s0 x n)) as (R & _).
    apply (R p F A q E _ _ HF).
  Qed.

  Lemma stratR_wins s0 : W s0 -> forall x, safe_and_live g (play_from g f s0 x).
  Proof.
    intros Hw x. split.
    - intros n H.
      assert (Wn : W (play_from g f s0 x n)) by (apply stratR_W; auto; intros i Hi; apply H; lia).
      destruct (stratR_follow s0 x n Wn (H n ltac:(lia))) as (p & F & A & q & E & HF & _).
      destruct (HL (counter g G resp start s0 x n) (counter_lt g G HG resp start s0 x n)) as (R & _).
      apply (R p F A q E _ _ HF).
    - intros HE HA p Hp. rewrite HGg in Hp.
      destruct (In_nth _ _ (fun _ _ => true) Hp) as (j & Hj & <-).
      apply (all_goals g W (length G) (fun j => nth j G (fun _ _ => true)) L HL (play_from g f s0 x)
        (counter g G resp start s0 x)); auto.
      + intros n. now apply counter_lt.
      + intros n. apply stratR_follow; auto. apply stratR_W; auto. intros i _. apply HE.
      + intros n. now apply counter_next.
  Qed.
End RESPWIN.

(** If the current goal is always reached eventually, all goals are reached again and again. *)
Lemma all_goals_from m (G : nat -> tset) (pi : nat -> state) (jn : nat -> nat) :
  (forall n, jn n < m) ->
  (forall n, exists d, d <= m /\ jn (S n) = (jn n + d) mod m /\
      (forall e, e < d -> G ((jn n + e) mod m) (pi n) (pi (S n)) = true) /\
      (G (jn n) (pi n) (pi (S n)) = true -> 1 <= d)) ->
  (forall n, exists n', n <= n' /\ jn n' = jn n /\ G (jn n) (pi n') (pi (S n')) = true) ->
  forall j, j < m -> inf_often (G j) pi.
Proof.
  intros Hj Hnext Hreach j Hjm.
  assert (Dist : forall d n, (jn n + d) mod m = j -> d < m ->
            exists n', n <= n' /\ G j (pi n') (pi (S n')) = true).
  { induction d as [d IH] using lt_wf_ind. intros n E Hd.
    destruct (Hreach n) as (n1 & L1 & E1 & G1).
    destruct (Hnext n1) as (d' & Hd' & E' & Hs & Hge). rewrite E1 in *.
    specialize (Hge G1).
    destruct (Nat.lt_ge_cases d d') as [Hlt|Hle].
    - exists n1. split; auto. rewrite <- E. apply Hs. auto.
    - destruct (IH (d - d') ltac:(lia) (S n1)) as (n2 & L2 & G2); [|lia|].
      + rewrite E'. rewrite Nat.add_mod_idemp_l by lia. rewrite <- E. f_equal. lia.
      + exists n2. split; auto. lia. }
  intros n. pose proof (Hj n).
  destruct (Nat.lt_ge_cases j (jn n)) as [Hlt|Hle].
  - apply (Dist (j + m - jn n)); [|lia].
    replace (jn n + (j + m - jn n)) with (j + 1 * m) by lia.
    rewrite Nat.mod_add by lia. apply Nat.mod_small. auto.
  - apply (Dist (j - jn n)); [|lia].
    replace (jn n + (j - jn n)) with j by lia. apply Nat.mod_small. auto.
Qed.

(** ** Environments that react to the history *)
Section REACT.
  Variable g : game.
  Variable f : strategy.
  Variable e : list state -> state.

  (** The histories if the environment uses [x] up to time n and [e] afterwards. *)
  Fixpoint reactHist (s : state) (x : nat -> state) (n i : nat) : list state :=
    match i with
    | O => [s]
    | S i' => let h := reactHist s x n i' in
              let y := if Nat.leb i n then x i else e h in merge g y (f h y) :: h
    end.
  Definition react (s : state) (x : nat -> state) (n i : nat) : state :=
    if Nat.leb i n then x i else e (reactHist s x n (pred i)).

  Lemma react_hist s x n i : history_from g f s (react s x n) i = reactHist s x n i.
  Proof.
    induction i as [|i IH]; auto. cbn [history_from reactHist]. rewrite IH. unfold react. cbn [pred]. reflexivity.
  Qed.

  Lemma react_before s x n i : i <= n -> react s x n i = x i.
  Proof. intros H. unfold react. apply Nat.leb_le in H. now rewrite H. Qed.

  Lemma react_after s x n i : n <= i -> react s x n (S i) = e (history_from g f s (react s x n) i).
  Proof.
    intros H. rewrite react_hist. unfold react. destruct (Nat.leb_spec (S i) n); [lia|reflexivity].
  Qed.
End REACT.

Section GAME.
  Variable c : ctx.
  Hypothesis Hwf : wf c.
  Let Hk := wf_kinds c Hwf.
  Let HSe := wf_safetyEnv c Hwf.
  Local Notation N := (nvars c).
  Local Notation pre := (dep (isPreV c)).
  Local Notation any := (dep (isAnyV c)).

  Variable w : BF.
  Variable data : list (nat * BF).
  Variable gs : list BF.
  Hypothesis HS : solvedC c w data gs.
  Let Pw : pre w := solvedC_pre c Hwf w data gs HS.
  Local Notation Gs := (livenessGuarantees c).
  Local Notation As := (livenessAssumptions c).
  Local Notation next0 := (goalsC c w Gs btrue).

  Local Lemma pre_next0 : pre next0.
  Proof. apply (pre_goalsC c Hwf); auto; [apply (wf_gua c Hwf)|apply dep_true]. Qed.

  Lemma pre_nx l1 l2 : As = l1 ++ l2 -> pre (nextA c l1 next0).
  Proof.
    intros E. apply (pre_nextA c Hwf); [|apply pre_next0]. pose proof (wf_asm c Hwf) as H. rewrite E in H.
    apply Forall_app in H. apply H.
  Qed.

  Lemma w_nx l1 l2 : As = l1 ++ l2 -> sub w (nextA c l1 next0).
  Proof.
    intros E s Hs. rewrite <- (sc_fix c w data gs HS) in Hs. unfold stepZC in Hs. rewrite E, nextA_app in Hs.
    now apply nextA_sub in Hs.
  Qed.

  Lemma w_goal g : In g Gs -> sub w (muYC c w g).
  Proof.
    intros Hg s Hs. pose proof (w_nx [] As eq_refl s Hs) as H. cbn in H. apply goalsC_spec in H. now apply H.
  Qed.

  Lemma muYC_same g g' : In g Gs -> In g' Gs -> sub (muYC c w g) (muYC c w g').
  Proof.
    intros Hg Hg'. pose proof (any_gua c Hwf _ Hg). pose proof (any_gua c Hwf _ Hg').
    pose proof (pre_muYC c Hwf w g' Pw H0) as Pg'.
    apply (muYC_least c Hwf); auto. intros s. rewrite stepYC_spec. intros [H'|(a & Ha & H')]; auto.
    rewrite <- (muYC_fix c Hwf) by auto. apply stepYC_spec. right. exists a. split; auto.
    revert H'. apply (nuXC_mono c Hwf); try (apply (any_liveOf c Hwf); auto; now apply isPre_isAny); auto.
    - now apply (any_asm c Hwf).
    - intros s' t'. rewrite !(liveOf_spec c Hwf) by auto. intros [[_ H']|H']; auto. right.
      now apply (w_goal g' Hg').
  Qed.

  Lemma muYC_next0 g s : In g Gs -> pos (muYC c w g) s = true -> pos next0 s = true.
  Proof.
    intros Hg Hs. apply goalsC_spec. split; auto. intros g' Hg'. revert Hs. now apply muYC_same.
  Qed.

  Lemma goodEnt_target z g L y F A s t : goodEnt c z g L y -> In (F, A) L -> trans F s t = true ->
    pos z t = true \/ pos y t = true.
  Proof.
    intros (H1 & _) Hin Ht. apply in_split in Hin. destruct Hin as (p & q & E).
    destruct (H1 p F A q E s t Ht) as [_ [[_ H]|[[_ H]|(_ & _ & H)]]]; auto.
  Qed.

  (** Positions of the middle fixed points in which the environment is not stuck are winning. *)
  Lemma free_nx l1 : forall l2, As = l1 ++ l2 -> forall s, free c s -> pos next0 s = true ->
    pos (nextA c l1 next0) s = true.
  Proof.
    induction l1 as [|a l1 IH] using rev_ind; intros l2 E s Hf Hs; auto.
    rewrite <- app_assoc in E. cbn [app] in E. specialize (IH (a :: l2) E).
    rewrite nextA_app. unfold nextA at 1. cbn [fold_left]. rewrite pos_and, (IH s Hf Hs). cbn [andb].
    set (nx := nextA c l1 next0) in *.
    assert (Pn : pre nx) by (apply (pre_nx l1 (a :: l2)); auto).
    assert (Aa : any a) by (apply (any_asm c Hwf); rewrite E; apply in_or_app; right; now left).
    assert (Hlen : 0 < length Gs).
    { pose proof (wf_gua_ne c Hwf). destruct Gs; [now elim H|cbn; lia]. }
    destruct (sc_goals c w data gs HS 0 Hlen) as (L & R1 & R2 & R3 & R4 & R5).
    set (g := nth 0 Gs btrue) in *. assert (Hg : In g Gs) by (apply nth_In; auto).
    assert (Main : forall n p D q, length p = n -> dataOf 0 data = p ++ D :: q ->
       forall s t, pos next0 s = true -> trans D s t = true -> pos (goodM c a nx) s = true).
    { clear s Hf Hs. induction n as [n IHn] using lt_wf_ind. intros p D q Hn EL s t Hs Ht.
      assert (HD : In D (dataOf 0 data)) by (rewrite EL; apply in_or_app; right; now left).
      destruct (refines_back _ _ D R1 HD) as (F & A & Hin & HF).
      rewrite Forall_forall in R3. destruct (R3 (F, A) Hin s t (HF s t Ht)) as (S1 & S2 & S3).
      assert (Yt : pos next0 t = true).
      { destruct (goodEnt_target w g L _ F A s t R2 Hin (HF s t Ht)) as [H|H].
        - apply (w_nx [] As eq_refl). exact H.
        - now apply (muYC_next0 g). }
      assert (Fs : free c s) by (now exists t).
      assert (Ed : edgeG c nx s t) by (split; auto).
      apply (goodM_closed c Hwf a nx s t); auto.
      destruct (R4 p D q EL s t Ht) as [[_ H]|(D' & t' & HD' & Ht')].
      - pose proof (w_nx (l1 ++ [a]) l2 ltac:(rewrite <- app_assoc; exact E) t H) as H'.
        rewrite nextA_app in H'. unfold nextA at 1 in H'. cbn [fold_left] in H'. rewrite pos_and, andb_true_iff in H'. apply H'.
      - apply in_split in HD'. destruct HD' as (p1 & q1 & ->).
        apply (IHn (length p1)) with (p := p1) (D := D') (q := q1 ++ D :: q) (t := t'); auto.
        + rewrite <- Hn, app_length. cbn. lia.
        + rewrite EL, <- app_assoc. reflexivity. }
    destruct R2 as (_ & C & _). pose proof Hs as Hs'. apply goalsC_spec in Hs'. destruct Hs' as [_ Hs'].
    destruct (cov_offers c Hwf L s (C s (Hs' g Hg)) Hf) as (F & A & t & Hin & Ht & _).
    destruct (refines_in _ L F A s t R1 Hin Ht) as (D & HD & HDt). apply in_split in HD. destruct HD as (p & q & EL).
    apply (Main (length p) p D q eq_refl EL s t); auto.
  Qed.

  Lemma free_w s : free c s -> pos next0 s = true -> pos w s = true.
  Proof.
    intros Hf Hs. rewrite <- (sc_fix c w data gs HS). unfold stepZC. apply (free_nx As []); auto.
    now rewrite app_nil_r.
  Qed.

  (** What is recorded for one goal. *)
  Record served (j : nat) (L : list (BF * BF)) (Ps : list BF) : Prop := {
    sv_refines : refines (dataOf j data) L;
    sv_good : goodEnt c w (nth j gs btrue) L w;
    sv_any : Forall any (dataOf j data);
    sv_prefix : exists rest, dataOf j data = Ps ++ rest;
    sv_towards : towards (fun s t => trans (nth j gs btrue) s t = true) Ps;
    sv_safe : forall D s t, In D Ps -> trans D s t = true -> trans (safetyEnv c) s t = true;
    sv_free : forall D s t, In D (dataOf j data) -> trans D s t = true -> free c t;
    sv_offers : forall s, pos w s = true -> exists D t, In D Ps /\ trans D s t = true
  }.

  (** Winning positions are positions in which the environment is not stuck. *)
  Lemma w_free s : pos w s = true -> free c s.
  Proof.
    intros Hs. pose proof (wf_asm_ne c Hwf) as Hne. destruct (exists_last Hne) as (l1 & a & E).
    pose proof (w_nx (l1 ++ [a]) [] ltac:(rewrite app_nil_r; exact E) s Hs) as H.
    rewrite nextA_app in H. unfold nextA at 1 in H. cbn [fold_left] in H. rewrite pos_and, andb_true_iff in H.
    destruct H as [_ H]. apply (goodM_spec c Hwf) in H.
    - destruct H as (k & t & H). apply (iterG_edge c Hwf) in H.
      + destruct H as ((_ & H & _) & _). now exists t.
      + apply (any_asm c Hwf). rewrite E. apply in_or_app. right. now left.
      + apply (pre_nx l1 [a] E).
    - apply (any_asm c Hwf). rewrite E. apply in_or_app. right. now left.
    - apply (pre_nx l1 [a] E).
  Qed.

  Lemma served_goal j : j < length Gs -> exists L Ps, served j L Ps.
  Proof.
    intros Hj. destruct (sc_goals c w data gs HS j Hj) as (L & R1 & R2 & R3 & R4 & R5).
    exists L, (dataOf j data). set (g := nth j Gs btrue) in *. assert (Hg : In g Gs) by (now apply nth_In).
    rewrite Forall_forall in R3.
    assert (Tw : forall F A s t, In (F, A) L -> trans F s t = true -> pos w t = true).
    { intros F A s t Hin Ht. destruct (goodEnt_target w g L _ F A s t R2 Hin Ht) as [H|H]; auto.
      apply free_w; [now apply (R3 (F, A) Hin s t)|]. now apply (muYC_next0 g). }
    constructor; rewrite ?(sc_same c w data gs HS j Hj); auto.
    - fold g. destruct R2 as (G1 & G2 & G3). split; [|split]; auto.
      + intros p F A q E s t Ht.
        assert (Hin : In (F, A) L) by (rewrite E; apply in_or_app; right; now left).
        destruct (G1 p F A q E s t Ht) as [H1 [H2|[[H2 _]|(H2 & H3 & _)]]]; split; eauto 6.
      + intros s Hs. apply G2. now apply w_goal.
    - exists []. now rewrite app_nil_r.
    - intros p D q E s t Ht. destruct (R4 p D q E s t Ht) as [[H _]|H]; auto.
    - intros D s t HD Ht. destruct (refines_back _ _ D R1 HD) as (F & A & Hin & HF). now apply (R3 (F, A) Hin s t (HF s t Ht)).
    - intros D s t HD Ht. destruct (refines_back _ _ D R1 HD) as (F & A & Hin & HF). now apply (R3 (F, A) Hin s t (HF s t Ht)).
    - intros s Hs. destruct R2 as (_ & C & _).
      destruct (cov_offers c Hwf L s (C s (w_goal g Hg s Hs)) (w_free s Hs)) as (F & A & t & Hin & Ht & _).
      destruct (refines_in _ L F A s t R1 Hin Ht) as (D & HD & HDt). eauto.
  Qed.

  (** Every position of the winning set permits all inputs to be answered within it. *)
  Lemma w_answers s x : pos w s = true -> trans (safetyEnv c) s (mrg c x x) = true ->
    exists y, trans (nonDead c) s (mrg c x y) = true /\ pos w (mrg c x y) = true.
  Proof.
    intros Hs Hx. assert (Hlen : 0 < length Gs).
    { pose proof (wf_gua_ne c Hwf). destruct Gs; [now elim H|cbn; lia]. }
    destruct (sc_goals c w data gs HS 0 Hlen) as (L & R1 & R2 & R3 & R4 & R5).
    set (g := nth 0 Gs btrue) in *. assert (Hg : In g Gs) by (now apply nth_In).
    pose proof R2 as (_ & C & _). destruct (C s (w_goal g Hg s Hs) x Hx) as (F & y & Hin & Hy).
    apply in_map_iff in Hin. destruct Hin as ([F' A] & <- & Hin). cbn [fst] in Hy.
    rewrite Forall_forall in R3. destruct (R3 (F', A) Hin _ _ Hy) as (S1 & S2 & S3).
    exists y. rewrite <- (mrg_merge c) in *. split; [apply (nonDead_spec c Hwf); auto|].
    destruct (goodEnt_target w g L _ F' A _ _ R2 Hin Hy) as [H|H]; auto.
    apply free_w; auto. now apply (muYC_next0 g).
  Qed.

  Lemma asm_split k : k < length As -> exists l1 a l2, As = l1 ++ a :: l2 /\ length l1 = k /\ nth k As btrue = a.
  Proof.
    intros H. exists (firstn k As), (nth k As btrue), (skipn (S k) As). split; [|split; auto].
    - rewrite <- (firstn_skipn k As) at 1. f_equal. clear -H. revert k H. induction As as [|a l IH]; intros k H; [cbn in H; lia|].
      destruct k; cbn; auto. apply IH. cbn in H. lia.
    - apply firstn_length_le. lia.
  Qed.

  Lemma served_asm k : k < length As -> exists L Ps, served (length Gs + k) L Ps.
  Proof.
    intros Hk'. destruct (asm_split k Hk') as (l1 & a & l2 & E & <- & _).
    destruct (sc_asm c w data gs HS l1 a l2 E) as (K & HK & HD & HG).
    set (nx := nextA c l1 next0) in *. set (bk := band (nonDead c) (swapPrePost c w)) in *.
    assert (Pn : pre nx) by (apply (pre_nx l1 (a :: l2)); auto).
    assert (Ha : In a As) by (rewrite E; apply in_or_app; right; now left).
    assert (Aa : any a) by now apply (any_asm c Hwf).
    assert (AG : forall i, any (iterG c a nx i)) by (intros; now apply (any_iterG c Hwf)).
    assert (Abk : any bk).
    { apply dep_and; [now apply (any_nonDead c Hwf)|]. apply (dep_swapPrePost c Hk). now apply isPre_isAny. }
    assert (Hbk : forall s t, trans bk s t = true <-> trans (nonDead c) s t = true /\ pos w t = true).
    { intros s t. unfold bk. rewrite trans_and, andb_true_iff, trans_swap_pos by auto. reflexivity. }
    set (F := bor (iterG c a nx K) bk).
    set (Ps := map (iterG c a nx) (seq 0 (S K))).
    assert (HF : forall s t, trans F s t = true -> trans (nonDead c) s t = true /\ pos w t = true).
    { intros s t. unfold F. rewrite trans_or, orb_true_iff, Hbk. intros [H|H]; auto.
      apply (iterG_edge c Hwf) in H; auto. destruct H as ((H1 & H2 & H3 & H4) & H5).
      split; [apply (nonDead_spec c Hwf); auto|]. apply free_w; auto. now apply nextA_sub in H5. }
    assert (HP : forall D, In D Ps <-> exists i, i <= K /\ D = iterG c a nx i).
    { intros D. unfold Ps. rewrite in_map_iff. split.
      - intros (i & <- & Hi). apply in_seq in Hi. exists i. split; auto. lia.
      - intros (i & Hi & ->). exists i. split; auto. apply in_seq. lia. }
    exists [(F, a)], Ps. constructor.
    - exists [Ps ++ [bk]]. split; [rewrite HD; cbn [concat]; now rewrite app_nil_r|].
      apply Forall2_cons; [|constructor]. intros s t. cbn [fst]. unfold F. rewrite trans_or, orb_true_iff. split.
      + intros [H|H].
        * exists (iterG c a nx K). split; auto. apply in_or_app. left. apply HP. eauto.
        * exists bk. split; auto. apply in_or_app. right. now left.
      + intros (D & Hin & H). apply in_app_iff in Hin. destruct Hin as [Hin|[<-|[]]]; auto.
        left. apply HP in Hin. destruct Hin as (i & Hi & ->). revert H. now apply (iterG_le c Hwf).
    - rewrite HG.
      assert (C : forall s, pos w s = true -> covBF c [(F, a)] s).
      { intros s Hs x Hx. cbn in Hx. rewrite <- (mrg_merge c) in Hx.
        destruct (w_answers s x Hs Hx) as (y & H1 & H2). exists (trans F), y. split; [now left|].
        rewrite <- (mrg_merge c). unfold F. rewrite trans_or, orb_true_iff. right. now apply Hbk. }
      split; [|split]; auto.
      + intros p F' A q EL s t Ht. destruct p as [|? [|]]; cbn in EL; try discriminate. injection EL as <- <- <-.
        destruct (HF s t Ht) as [H1 H2]. apply (nonDead_spec c Hwf) in H1. split; [tauto|].
        destruct (trans a s t) eqn:EA.
        * left. split; auto. now rewrite trans_or, EA.
        * right. right. split; [reflexivity|]. split; [now apply C|exact H2].
      + intros F' A [EF|[]]. injection EF as <- <-. split; auto. apply dep_or; auto.
    - rewrite HD. apply Forall_app. split; [|repeat constructor; auto]. apply Forall_forall. intros D HinD.
      apply HP in HinD. destruct HinD as (i & _ & ->). auto.
    - exists [bk]. exact HD.
    - intros p D q EP s t Ht. unfold Ps in EP. apply map_split in EP. destruct EP as (k1 & i & k2 & EP & <- & <- & _).
      apply seq_split in EP. destruct EP as [-> _]. rewrite Nat.sub_0_r.
      destruct (iterG_progress c Hwf a nx i s t Aa Pn Ht) as [H|(i' & u & Hi & H)].
      + left. rewrite HG, trans_or, H. reflexivity.
      + right. exists (iterG c a nx i'), u. split; auto. apply in_map. apply in_seq. lia.
    - intros D s t HinD Ht. apply HP in HinD. destruct HinD as (i & _ & ->).
      apply (iterG_edge c Hwf) in Ht; auto. destruct Ht as ((_ & H & _) & _). exact H.
    - intros D s t HinD Ht. rewrite HD in HinD. apply in_app_iff in HinD. destruct HinD as [HinD|[<-|[]]].
      + apply HP in HinD. destruct HinD as (i & _ & ->).
        apply (iterG_edge c Hwf) in Ht; auto. destruct Ht as ((_ & _ & _ & H) & _). exact H.
      + apply Hbk in Ht. destruct Ht as [Ht _]. apply (nonDead_spec c Hwf) in Ht. apply Ht.
    - intros s Hs. pose proof (w_nx (l1 ++ [a]) l2 ltac:(rewrite <- app_assoc; exact E) s Hs) as H.
      rewrite nextA_app in H. unfold nextA at 1 in H. cbn [fold_left] in H. rewrite pos_and, andb_true_iff in H.
      destruct H as [_ H]. apply (goodM_spec c Hwf) in H; auto. destruct H as (i & t & H).
      exists (iterG c a nx K), t. split; [apply HP; eauto|]. revert H. now apply (lastG_all c Hwf).
  Qed.

  (** Within the winning set, the additional guarantees are the liveness assumptions. *)
  Lemma extra_goal k s t : k < length As -> pos w s = true -> pos w t = true ->
    trans (safetyEnv c) s t = true -> trans (safetySys c) s t = true ->
    trans (nth (length Gs + k) gs btrue) s t = true -> trans (nth k As btrue) s t = true.
  Proof.
    intros Hk' Hs Ht S1 S2. destruct (asm_split k Hk') as (l1 & a & l2 & E & <- & ->).
    destruct (sc_asm c w data gs HS l1 a l2 E) as (K & HK & _ & HG). rewrite HG.
    set (nx := nextA c l1 next0) in *.
    assert (Pn : pre nx) by (apply (pre_nx l1 (a :: l2)); auto).
    assert (Aa : any a) by (apply (any_asm c Hwf); rewrite E; apply in_or_app; right; now left).
    rewrite trans_or, orb_true_iff, trans_not, negb_true_iff. intros [H|H]; auto. exfalso.
    pose proof (w_nx (l1 ++ [a]) l2 ltac:(rewrite <- app_assoc; exact E) t Ht) as Q.
    rewrite nextA_app in Q. unfold nextA at 1 in Q. cbn [fold_left] in Q. rewrite pos_and, andb_true_iff in Q.
    destruct Q as [_ Q]. apply (goodM_spec c Hwf) in Q; auto. destruct Q as (i & u & Q).
    assert (Q' : trans (iterG c a nx K) s t = true).
    { apply (lastG_all c Hwf a nx K (S i) s t Aa Pn HK). apply (iterG_S c Hwf); auto. right. split; [eauto|].
      split; [|split; [|split]]; auto.
      - now apply (w_nx l1 (a :: l2) E).
      - now apply w_free. }
    congruence.
  Qed.

  (** The specification that the automaton is extracted for. *)
  Local Notation c' := (withGuarantees c gs).

  Lemma served_all j : j < length gs -> exists LP : list (BF * BF) * list BF, served j (fst LP) (snd LP).
  Proof.
    rewrite (sc_len c w data gs HS). intros Hj. destruct (Nat.lt_ge_cases j (length Gs)) as [H|H].
    - destruct (served_goal j H) as (L & Ps & HL). exists (L, Ps). exact HL.
    - destruct (served_asm (j - length Gs)) as (L & Ps & HL); [lia|]. exists (L, Ps).
      replace (length Gs + (j - length Gs)) with j in HL by lia. exact HL.
  Qed.

  Lemma served_choice : exists (L : nat -> list (BF * BF)) (Ps : nat -> list BF),
    forall j, j < length gs -> served j (L j) (Ps j).
  Proof.
    assert (G : forall n, n <= length gs -> exists (LP : nat -> list (BF * BF) * list BF),
       forall j, j < n -> served j (fst (LP j)) (snd (LP j))).
    { induction n as [|n IH]; intros Hn.
      - exists (fun _ => ([], [])). lia.
      - destruct IH as (LP & H); [lia|]. destruct (served_all n ltac:(lia)) as (e & He).
        exists (fun j => if Nat.eqb j n then e else LP j). intros j Hj.
        destruct (Nat.eqb_spec j n) as [->|]; auto. apply H. lia. }
    destruct (G (length gs) (le_n _)) as (LP & H). exists (fun j => fst (LP j)), (fun j => snd (LP j)). exact H.
  Qed.

  Lemma gs_any : Forall any gs.
  Proof.
    apply Forall_forall. intros g Hg. destruct (In_nth _ _ btrue Hg) as (j & Hj & <-).
    rewrite (sc_len c w data gs HS) in Hj. destruct (Nat.lt_ge_cases j (length Gs)) as [H|H].
    - rewrite (sc_same c w data gs HS j H). apply (any_gua c Hwf). now apply nth_In.
    - destruct (asm_split (j - length Gs)) as (l1 & a & l2 & E & Hl & _); [lia|].
      destruct (sc_asm c w data gs HS l1 a l2 E) as (K & _ & _ & HG). rewrite Hl in HG.
      replace (length Gs + (j - length Gs)) with j in HG by lia. rewrite HG.
      assert (Aa : any a) by (apply (any_asm c Hwf); rewrite E; apply in_or_app; right; now left).
      apply dep_or; auto. apply dep_not. apply (any_iterG c Hwf); auto. apply (pre_nx l1 (a :: l2) E).
  Qed.

  Lemma gs_ne : gs <> [].
  Proof.
    intros E. pose proof (sc_len c w data gs HS) as H. rewrite E in H. cbn in H.
    pose proof (wf_gua_ne c Hwf). destruct Gs; [auto|cbn in H; lia].
  Qed.

  Lemma wf_c' : wf c'.
  Proof.
    constructor; [exact (wf_kinds c Hwf)|exact (wf_initEnv c Hwf)|exact (wf_initSys c Hwf)|exact (wf_safetyEnv c Hwf)|
      exact (wf_safetySys c Hwf)|exact (wf_asm c Hwf)|exact gs_any|exact (wf_asm_ne c Hwf)|exact gs_ne].
  Qed.

  Variable L : nat -> list (BF * BF).
  Variable Ps : nat -> list BF.
  Hypothesis HLP : forall j, j < length gs -> served j (L j) (Ps j).

  (** ** Following the recorded sets *)
  Lemma first_good j s t : j < length gs -> first_of c (dataOf j data) s t ->
    trans (safetySys c) s t = true /\ free c t /\ pos w t = true.
  Proof.
    intros Hj (p & D & q & E & Ht & _).
    assert (HD : In D (dataOf j data)) by (rewrite E; apply in_or_app; right; now left).
    pose proof (HLP j Hj) as SV. destruct (refines_back _ _ D (sv_refines _ _ _ SV) HD) as (F & A & Hin & HF).
    destruct (sv_good _ _ _ SV) as (G1 & _). apply in_split in Hin. destruct Hin as (p' & q' & EL).
    destruct (G1 p' F A q' EL s t (HF s t Ht)) as [H1 H2]. split; auto. split.
    - now apply (sv_free _ _ _ SV D s t).
    - destruct H2 as [[_ H2]|[[_ H2]|(_ & _ & H2)]]; auto.
  Qed.

  Lemma refines_split Ds Lj : refines Ds Lj -> forall p D q, Ds = p ++ D :: q ->
    exists pL F A qL, Lj = pL ++ (F, A) :: qL /\ tsub D F /\
      forall F' A', In (F', A') pL -> forall s t, trans F' s t = true -> exists D', In D' p /\ trans D' s t = true.
  Proof.
    intros (bs & -> & HB). induction HB as [|b [F A] bs Lj H HB IH]; intros p D q E.
    - destruct p; discriminate.
    - cbn [concat] in E. apply split_app in E. destruct E as [(q1 & E)|(p2 & -> & E)].
      + exists [], F, A, Lj. split; [reflexivity|]. split; [|now intros F' A' []].
        intros s t Ht. apply (H s t). exists D. split; auto. rewrite E. apply in_or_app. right. now left.
      + destruct (IH p2 D q E) as (pL & F2 & A2 & qL & -> & T & HT).
        exists ((F, A) :: pL), F2, A2, qL. split; [reflexivity|]. split; auto.
        intros F' A' [EF|Hin] s t Ht.
        * injection EF as <- <-. apply (H s t) in Ht. destruct Ht as (D' & H1 & H2). exists D'. split; auto. apply in_or_app. auto.
        * destruct (HT F' A' Hin s t Ht) as (D' & H1 & H2). exists D'. split; auto. apply in_or_app. auto.
  Qed.

  Lemma safeE_mrg' s t y : trans (safetyEnv c) s (mrg c t y) = trans (safetyEnv c) s t.
  Proof. now apply (safeE_mrg c Hwf). Qed.

  Lemma first_follow j s t : j < length gs -> first_of c (dataOf j data) s t -> trans (safetyEnv c) s t = true ->
    follow (game_of c') (lift (L j)) s t.
  Proof.
    intros Hj (p & D & q & E & Ht & HN) HE. pose proof (HLP j Hj) as SV.
    destruct (refines_split _ _ (sv_refines _ _ _ SV) p D q E) as (pL & F & A & qL & EL & T & HT).
    exists (lift pL), (trans F), (trans A), (lift qL). split; [|split].
    - rewrite EL. unfold lift. now rewrite map_app.
    - now apply T.
    - intros C. destruct (C t) as (F' & y & Hin & Hy).
      + change (trans (safetyEnv c) s (mrg c t t) = true). now rewrite safeE_mrg'.
      + rewrite map_fst_lift in Hin. apply in_map_iff in Hin. destruct Hin as ([F2 A2] & <- & Hin). cbn [fst] in Hy.
        change (trans F2 s (mrg c t y) = true) in Hy.
        destruct (HT F2 A2 Hin _ _ Hy) as (D' & HD' & Hy'). rewrite HN in Hy' by auto. discriminate.
  Qed.

  Lemma first_covers j s t : j < length gs -> pos w s = true -> trans (safetyEnv c) s t = true ->
    exists y, first_of c (dataOf j data) s (mrg c t y).
  Proof.
    intros Hj Hs Ht. pose proof (HLP j Hj) as SV. apply first_exists; auto.
    destruct (sv_good _ _ _ SV) as (_ & C & _). destruct (C s Hs t) as (F & y & Hin & Hy).
    - change (trans (safetyEnv c) s (mrg c t t) = true). now rewrite safeE_mrg'.
    - apply in_map_iff in Hin. destruct Hin as ([F' A] & <- & Hin). cbn [fst] in Hy.
      destruct (refines_in _ _ F' A _ _ (sv_refines _ _ _ SV) Hin Hy) as (D & HD & HDy). exists D, y. auto.
  Qed.

  Lemma positional_first j s t : trans (positional c data j) s t = true <-> first_of c (dataOf j data) s t.
  Proof. now apply positional_spec. Qed.

  (** ** Inputs with which the goal is reached *)
  Fixpoint offer (Fs : list BF) (s : state) : option (list bool) :=
    match Fs with
    | [] => None
    | D :: Fs => match find (fun l => trans D s (ofVec l)) (vectors N) with Some l => Some l | None => offer Fs s end
    end.

  Lemma offer_spec Fs s : Forall any Fs ->
    match offer Fs s with
    | Some l => exists p D q, Fs = p ++ D :: q /\ trans D s (ofVec l) = true /\
                  forall D' t, In D' p -> trans D' s t = false
    | None => forall D t, In D Fs -> trans D s t = false
    end.
  Proof.
    induction 1 as [|D Fs HD HF IH]; cbn [offer]; [now intros D t []|].
    destruct (find _ _) as [l|] eqn:E.
    - apply find_some in E. exists [], D, Fs. split; auto. split; [apply E|]. now intros D' t [].
    - assert (ND : forall t, trans D s t = false).
      { intros t. rewrite <- (find_none _ _ E _ (toVec_in N t)). apply (trans_ext c Hk); auto.
        intros k Hlt. symmetry. now apply ofVec_toVec. }
      destruct (offer Fs s) as [l|].
      + destruct IH as (p & D1 & q & -> & H1 & H2). exists (D :: p), D1, q. split; auto. split; auto.
        intros D' t [<-|Hin]; auto.
      + intros D' t [<-|Hin]; auto.
  Qed.

  Definition helpIn (j : nat) (s : state) : state :=
    match offer (Ps j) s with Some l => ofVec l | None => s end.

  Lemma prefix_any j : j < length gs -> Forall any (Ps j).
  Proof.
    intros Hj. pose proof (HLP j Hj) as SV. destruct (sv_prefix _ _ _ SV) as (rest & E).
    pose proof (sv_any _ _ _ SV) as H. rewrite E in H. apply Forall_app in H. apply H.
  Qed.

  (** The number of the first set that offers a transition. *)
  Definition rankIs (j : nat) (s : state) (n : nat) : Prop :=
    exists p D q, Ps j = p ++ D :: q /\ length p = n /\ (exists t, trans D s t = true) /\
      forall D' t, In D' p -> trans D' s t = false.

  Lemma rank_le j s n D : In D (firstn n (Ps j)) -> (exists t, trans D s t = true) -> j < length gs ->
    exists m, m < n /\ rankIs j s m.
  Proof.
    intros Hin Ht Hj. pose proof (offer_spec (Ps j) s (prefix_any j Hj)) as H. destruct (offer (Ps j) s) as [l|].
    - destruct H as (p & D1 & q & E & H1 & H2). exists (length p). split; [|exists p, D1, q; eauto].
      destruct (Nat.lt_ge_cases (length p) n) as [|Hge]; auto. exfalso.
      rewrite E, firstn_app in Hin. replace (n - length p) with 0 in Hin by lia. cbn in Hin. rewrite app_nil_r in Hin.
      assert (Hp : In D p) by (rewrite <- (firstn_skipn n p); apply in_or_app; now left).
      destruct Ht as (t & Ht). rewrite H2 in Ht by auto. discriminate.
    - destruct Ht as (t & Ht). rewrite H in Ht; [discriminate|]. rewrite <- (firstn_skipn n (Ps j)). apply in_or_app. now left.
  Qed.

  Lemma rank_total j s : j < length gs -> pos w s = true -> exists n, rankIs j s n.
  Proof.
    intros Hj Hs. destruct (sv_offers _ _ _ (HLP j Hj) s Hs) as (D & t & HD & Ht).
    destruct (rank_le j s (length (Ps j)) D) as (m & _ & H); eauto. rewrite firstn_all. auto.
  Qed.

  (** The input is permitted. *)
  Lemma helpIn_safe j s : j < length gs -> pos w s = true -> trans (safetyEnv c) s (helpIn j s) = true.
  Proof.
    intros Hj Hs. unfold helpIn. pose proof (offer_spec (Ps j) s (prefix_any j Hj)) as H.
    destruct (offer (Ps j) s) as [l|].
    - destruct H as (p & D & q & E & H1 & _). apply (sv_safe _ _ _ (HLP j Hj) D); auto.
      rewrite E. apply in_or_app. right. now left.
    - destruct (sv_offers _ _ _ (HLP j Hj) s Hs) as (D & t & HD & Ht). rewrite H in Ht by auto. discriminate.
  Qed.

  (** With it, the goal is reached or the rank decreases. *)
  Lemma helpIn_progress j s t n : j < length gs -> rankIs j s n -> first_of c (dataOf j data) s t ->
    (forall k, k < N -> isOut c k = false -> t k = helpIn j s k) ->
    trans (nth j gs btrue) s t = true \/ exists m, m < n /\ rankIs j t m.
  Proof.
    intros Hj (p & D & q & EP & Hn & (t0 & Ht0) & HNo) (p2 & D2 & q2 & E2 & Ht & HN2) Hin.
    pose proof (HLP j Hj) as SV. destruct (sv_prefix _ _ _ SV) as (rest & ER).
    pose proof (sv_any _ _ _ SV) as HAny. rewrite Forall_forall in HAny.
    unfold helpIn in Hin. pose proof (offer_spec (Ps j) s (prefix_any j Hj)) as HO.
    assert (HD : In D (Ps j)) by (rewrite EP; apply in_or_app; right; now left).
    destruct (offer (Ps j) s) as [l|]; [|now rewrite HO in Ht0 by auto].
    destruct HO as (p1 & D1 & q1 & E1 & H1 & HN1).
    (* both describe the first set *)
    assert (EL : length p1 = length p).
    { rewrite E1 in EP. destruct (Nat.lt_trichotomy (length p1) (length p)) as [Hlt|[|Hlt]]; auto; exfalso.
      - rewrite HNo in H1 by now apply (split_before _ _ _ _ _ _ EP). discriminate.
      - rewrite HN1 in Ht0 by now apply (split_before _ _ _ _ _ _ (eq_sym EP)). discriminate. }
    assert (p1 = p /\ D1 = D) as [-> ->] by (rewrite E1 in EP; now apply (split_same _ _ _ _ _ _ EP)).
    clear E1 EL HN1.
    (* the reply belongs to the same set *)
    assert (HDany : any D) by (apply HAny; rewrite ER; apply in_or_app; now left).
    assert (Hoff : trans D s (mrg c t (ofVec l)) = true).
    { rewrite <- H1. apply (trans_ext c Hk); auto. intros k Hlt. unfold mrg. destruct (isOut c k) eqn:O; auto. }
    rewrite ER, EP, <- app_assoc in E2. cbn [app] in E2.
    assert (E3 : length p = length p2).
    { destruct (Nat.lt_trichotomy (length p) (length p2)) as [Hlt|[|Hlt]]; auto; exfalso.
      - rewrite HN2 in Hoff by now apply (split_before _ _ _ _ _ _ E2). discriminate.
      - rewrite HNo in Ht by now apply (split_before _ _ _ _ _ _ (eq_sym E2)). discriminate. }
    assert (D = D2) by now apply (split_same _ _ _ _ _ _ E2).
    subst D2. destruct (sv_towards _ _ _ SV p D q EP s t Ht) as [H|(D' & t' & HD' & Ht')]; auto.
    right. apply (rank_le j t n D'); eauto. rewrite EP, <- Hn, firstn_app, Nat.sub_diag, firstn_all. cbn. now rewrite app_nil_r.
  Qed.

  (** Sequences on which the environment always chooses these inputs reach all goals. *)
  Section SEQ.
    Variable pi : nat -> state.
    Variable jn : nat -> nat.
    Hypothesis Hj : forall n, jn n < length gs.
    Hypothesis H0 : pos w (pi 0) = true.
    Hypothesis Hfirst : forall n, first_of c (dataOf (jn n) data) (pi n) (pi (S n)).
    Hypothesis Hin : forall n k, k < N -> isOut c k = false -> pi (S n) k = helpIn (jn n) (pi n) k.
    Hypothesis Hnext : forall n, exists d, d <= length gs /\ jn (S n) = (jn n + d) mod length gs /\
      (forall e, e < d -> trans (nth ((jn n + e) mod length gs) gs btrue) (pi n) (pi (S n)) = true) /\
      (trans (nth (jn n) gs btrue) (pi n) (pi (S n)) = true -> 1 <= d).

    Lemma help_W n : pos w (pi n) = true.
    Proof. destruct n as [|n]; auto. now apply (first_good (jn n) (pi n)). Qed.

    Lemma help_safe n : trans (safetyEnv c) (pi n) (pi (S n)) = true.
    Proof.
      rewrite <- (helpIn_safe (jn n) (pi n) (Hj n) (help_W n)). rewrite <- (safeE_mrg' (pi n) (helpIn (jn n) (pi n)) (pi (S n))).
      apply (trans_ext c Hk); auto.
      - apply dep_weaken with (2 := HSe). now intros v [Hv _].
      - intros k Hlt. unfold mrg. destruct (isOut c k) eqn:O; auto.
    Qed.

    Lemma help_reach n : exists n', n <= n' /\ jn n' = jn n /\ trans (nth (jn n) gs btrue) (pi n') (pi (S n')) = true.
    Proof.
      destruct (rank_total (jn n) (pi n) (Hj n) (help_W n)) as (r & Hr). revert n Hr.
      induction r as [r IH] using lt_wf_ind. intros n Hr.
      destruct (helpIn_progress (jn n) (pi n) (pi (S n)) r (Hj n) Hr (Hfirst n) (Hin n)) as [H|(m & Hm & H)].
      - exists n. auto.
      - destruct (trans (nth (jn n) gs btrue) (pi n) (pi (S n))) eqn:EG; [exists n; auto|].
        assert (E : jn (S n) = jn n).
        { destruct (Hnext n) as ([|d] & _ & E & Hd & _).
          - rewrite E, Nat.add_0_r. apply Nat.mod_small. apply Hj.
          - specialize (Hd 0 ltac:(lia)). rewrite Nat.add_0_r, Nat.mod_small in Hd by apply Hj. congruence. }
        destruct (IH m Hm (S n)) as (n' & L1 & L2 & L3); [now rewrite E|]. rewrite E in *. exists n'. repeat split; auto. lia.
    Qed.

    Lemma help_goals j : j < length gs -> inf_often (trans (nth j gs btrue)) pi.
    Proof. apply (all_goals_from (length gs) (fun j => trans (nth j gs btrue)) pi jn Hj Hnext help_reach). Qed.

    Lemma help_asm q : In q (g_liveA (game_of c)) -> inf_often q pi.
    Proof.
      intros Hq n. apply in_map_iff in Hq. destruct Hq as (a & <- & Ha). destruct (In_nth _ _ btrue Ha) as (k & Hk' & <-).
      destruct (help_goals (length Gs + k)) with (n := n) as (m & Hm & H).
      - rewrite (sc_len c w data gs HS). lia.
      - exists m. split; auto. apply extra_goal; auto using help_W, help_safe.
        now apply (first_good (jn m) (pi m)).
    Qed.
  End SEQ.

  (** ** The strategy *)
  Definition respC (j : nat) (s x : state) : state :=
    match solT c (trans (positional c data j)) s x with Some y => y | None => x end.
  Definition stratC (start : state -> state) : strategy := stratR (map trans gs) respC start.

  Lemma positional_any j : j < length gs -> any (positional c data j).
  Proof.
    intros Hj. apply (any_positional c Hwf). pose proof (sv_any _ _ _ (HLP j Hj)) as H. apply Forall_forall.
    intros [i F] Hin E. cbn in E. subst i. rewrite Forall_forall in H. apply H. unfold dataOf.
    apply in_map_iff. exists (j, F). split; auto. apply filter_In. split; auto. cbn. apply Nat.eqb_refl.
  Qed.

  Lemma respC_first j s x : j < length gs -> pos w s = true -> trans (safetyEnv c) s (mrg c x x) = true ->
    first_of c (dataOf j data) s (mrg c x (respC j s x)).
  Proof.
    intros Hj Hs Hx. rewrite safeE_mrg' in Hx. destruct (first_covers j s x Hj Hs Hx) as (y & Hy).
    apply positional_first. unfold respC.
    pose proof (solT_spec c Hk (positional c data j) s x (positional_any j Hj)) as H.
    destruct (solT c (trans (positional c data j)) s x) as [z|]; auto.
    apply positional_first in Hy. rewrite H in Hy. discriminate.
  Qed.

  Lemma gs_trans_ne : map trans gs <> [].
  Proof. pose proof gs_ne as H. destruct gs; [auto|discriminate]. Qed.

  Lemma nth_trans j s t : j < length gs -> nth j (map trans gs) (fun _ _ => true) s t = trans (nth j gs btrue) s t.
  Proof.
    intros Hj. rewrite (nth_indep _ _ (trans btrue)) by (now rewrite map_length). now rewrite map_nth.
  Qed.

  Lemma c'_live pi : safe_and_live (game_of c') pi -> safe_and_live (game_of c) pi.
  Proof.
    intros [H1 H2]. split; [exact H1|]. intros HE HA p Hp. apply H2; auto.
    apply in_map_iff in Hp. destruct Hp as (g & <- & Hg). destruct (In_nth _ _ btrue Hg) as (j & Hj & <-).
    apply in_map_iff. exists (nth j gs btrue). split; [now rewrite (sc_same c w data gs HS)|].
    apply nth_In. cbn [livenessGuarantees withGuarantees]. rewrite (sc_len c w data gs HS). lia.
  Qed.

  Lemma c'_history f s x n : history_from (game_of c') f s x n = history_from (game_of c) f s x n.
  Proof. induction n as [|n IH]; cbn [history_from]; auto. now rewrite IH. Qed.

  Lemma stratC_wins start s0 : pos w s0 = true -> forall x, safe_and_live (game_of c) (play_from (game_of c) (stratC start) s0 x).
  Proof.
    intros H0 x. apply c'_live. apply (safe_and_live_ext _ _ (play_from (game_of c') (stratC start) s0 x)).
    { intros n. unfold play_from. now rewrite c'_history. }
    apply (stratR_wins (game_of c') (fun s => pos w s = true) (map trans gs) (fun j => lift (L j)) gs_trans_ne eq_refl); auto.
    - intros j Hj. rewrite map_length in Hj. pose proof (goodEnt_ranked c' (nth j gs btrue) (L j) w (sv_good _ _ _ (HLP j Hj))) as H.
      destruct H as (A & B & C). split; [|split]; auto. intros p F A' q E s t Ht. specialize (A p F A' q E s t Ht).
      rewrite nth_trans by auto. exact A.
    - intros s y z z'. exact (safeE_in c HSe s y z z').
    - intros j s y Hj Hs Hy. rewrite map_length in Hj.
      change (trans (safetyEnv c) s (mrg c y y) = true) in Hy. pose proof (respC_first j s y Hj Hs Hy) as H.
      apply (first_follow j s _ Hj H). now rewrite safeE_mrg' in *.
  Qed.

  (** The strategy always leaves the environment a way to satisfy its assumptions. *)
  Definition helpC (h : list state) : state := helpIn (goalOf (map trans gs) h) (hd (fun _ => false) h).

  Lemma stratC_way start s0 : pos w s0 = true -> forall x n,
    safe_until (game_of c) (play_from (game_of c) (stratC start) s0 x) n ->
    let x' := react (game_of c) (stratC start) helpC s0 x n in
    (forall m, m <= n -> x' m = x m) /\ env_satisfied (game_of c) (play_from (game_of c) (stratC start) s0 x').
  Proof.
    intros H0 x n Hn x'. split; [intros m Hm; now apply react_before|].
    set (f := stratC start) in *. set (pi := play_from (game_of c) f s0 x').
    set (jc := counter (game_of c) (map trans gs) respC start s0 x').
    assert (Hj : forall i, jc i < length gs).
    { intros i. pose proof (counter_lt (game_of c) (map trans gs) gs_trans_ne respC start s0 x' i) as H. now rewrite map_length in H. }
    assert (Hstep : forall i, pi (S i) = mrg c (x' (S i)) (respC (jc i) (pi i) (x' (S i)))).
    { intros i. apply (stratR_step (game_of c) (map trans gs) respC start s0 x' i). }
    assert (Hagree : forall i, i <= n -> pi i = play_from (game_of c) f s0 x i).
    { intros i Hi. unfold pi. apply play_from_ext. intros m Hm. apply react_before. lia. }
    assert (HW : forall i, pos w (pi i) = true -> trans (safetyEnv c) (pi i) (pi (S i)) = true ->
      first_of c (dataOf (jc i) data) (pi i) (pi (S i))).
    { intros i Hi Hs. rewrite Hstep in *. apply respC_first; auto. now rewrite safeE_mrg' in *. }
    assert (Wn : forall i, i <= n -> pos w (pi i) = true).
    { induction i as [|i IH]; intros Hi; [exact H0|]. apply (first_good (jc i) (pi i)); auto. apply HW; [apply IH; lia|].
      rewrite !Hagree by lia. apply Hn. lia. }
    assert (Hx : forall i, n <= i -> x' (S i) = helpIn (jc i) (pi i)).
    { intros i Hi. unfold x'. rewrite react_after by auto. reflexivity. }
    assert (After : forall i, pos w (pi (n + i)) = true /\ first_of c (dataOf (jc (n + i)) data) (pi (n + i)) (pi (S (n + i)))).
    { assert (ST : forall i, pos w (pi (n + i)) = true -> first_of c (dataOf (jc (n + i)) data) (pi (n + i)) (pi (S (n + i)))).
      { intros i Hi. apply HW; auto. rewrite Hstep, Hx, safeE_mrg' by lia. now apply helpIn_safe. }
      induction i as [|i IH].
      - rewrite Nat.add_0_r. pose proof (Wn n (le_n n)) as H. split; auto. pose proof (ST 0) as X. rewrite Nat.add_0_r in X. auto.
      - assert (X : pos w (pi (n + S i)) = true).
        { rewrite Nat.add_succ_r. apply (first_good (jc (n + i)) (pi (n + i))); auto. apply IH. }
        split; auto. }
    set (pj := fun i => pi (n + i)). set (jj := fun i => jc (n + i)).
    assert (ES : forall i, pj (S i) = pi (S (n + i))) by (intros i; unfold pj; now rewrite Nat.add_succ_r).
    assert (P0 : pos w (pj 0) = true) by apply (After 0).
    assert (P1 : forall i, jj i < length gs) by (intros i; apply Hj).
    assert (P2 : forall i, first_of c (dataOf (jj i) data) (pj i) (pj (S i))) by (intros i; rewrite ES; apply After).
    assert (P3 : forall i k, k < N -> isOut c k = false -> pj (S i) k = helpIn (jj i) (pj i) k).
    { intros i k Hlt Ho. rewrite ES, Hstep, Hx by lia. unfold mrg. now rewrite Ho. }
    assert (P4 : forall i, exists d, d <= length gs /\ jj (S i) = (jj i + d) mod length gs /\
      (forall e, e < d -> trans (nth ((jj i + e) mod length gs) gs btrue) (pj i) (pj (S i)) = true) /\
      (trans (nth (jj i) gs btrue) (pj i) (pj (S i)) = true -> 1 <= d)).
    { intros i. rewrite ES. destruct (counter_next (game_of c) (map trans gs) gs_trans_ne respC start s0 x' (n + i)) as (d & D1 & D2 & D3 & D4).
      rewrite map_length in *. exists d. split; auto. split; [unfold jj; rewrite Nat.add_succ_r; exact D2|]. split.
      - intros e He. specialize (D3 e He). rewrite nth_trans in D3; auto. apply Nat.mod_upper_bound.
        specialize (P1 0). lia.
      - intros HG. apply D4. rewrite nth_trans; auto. }
    split.
    - intros m. change (trans (safetyEnv c) (pi m) (pi (S m)) = true). destruct (Nat.lt_ge_cases m n) as [Hlt|Hge].
      + rewrite !Hagree by lia. now apply Hn.
      + pose proof (help_safe pj jj P1 P0 P2 P3 (m - n)) as H. rewrite ES in H. unfold pj in H.
        replace (n + (m - n)) with m in H by lia. exact H.
    - intros q Hq m. destruct (help_asm pj jj P1 P0 P2 P3 P4 q Hq m) as (i & Hi & H). exists (n + i). split; [lia|].
      rewrite ES in H. exact H.
  Qed.

  Lemma stratC_leaves_way start s0 : pos w s0 = true ->
    leaves_way (game_of c) (play_from (game_of c) (stratC start) s0) (fun _ => True).
  Proof. intros H0. exists (react (game_of c) (stratC start) helpC s0). intros x n _ Hn. now apply stratC_way. Qed.

  (** ** The automaton *)
  Section AUTC.
    Variable recovery : bool.
    Variable keys : list (list bool * nat).
    Variable out : list (node * bool).
    Hypothesis HR : result c' false recovery (positional c' data) (extractInit recovery c' w) keys out.
    Local Notation A := (map fst out).

    Lemma stratTC_first j s t : trans (stratT c' recovery (positional c' data) j) s t = true <->
      first_of c (dataOf j data) s t /\ (recovery = false -> trans (safetyEnv c) s t = true).
    Proof. exact (stratT_first c' wf_c' recovery data j s t). Qed.

    Lemma stratTC_good j s t : j < length gs -> trans (stratT c' recovery (positional c' data) j) s t = true ->
      trans (safetySys c) s t = true /\ pos w t = true.
    Proof. intros Hj H. apply stratTC_first in H. destruct H as [H _]. apply first_good in H; auto. tauto. Qed.

    Lemma extractInitC_w s : pos (extractInit recovery c' w) s = true -> pos w s = true.
    Proof. unfold extractInit. destruct recovery; rewrite !pos_and, !andb_true_iff; tauto. Qed.

    Lemma nodeC_W v : In v A -> pos w (val v) = true.
    Proof. exact (node_W c' false recovery (positional c' data) _ keys out HR w extractInitC_w stratTC_good v). Qed.

    Lemma nodeC_rank v : In v A -> length (n_vals v) = N /\ n_rank v < length gs.
    Proof. exact (A_shape c' false recovery (positional c' data) _ keys out HR v). Qed.

    Lemma edgeC_safe v u : edge A v u -> trans (safetySys c) (val v) (val u) = true /\
      (recovery = false -> trans (safetyEnv c) (val v) (val u) = true).
    Proof. exact (edge_safe c' false recovery (positional c' data) _ keys out HR w stratTC_good v u). Qed.

    Lemma edgeC_first v u : edge A v u -> first_of c (dataOf (n_rank v) data) (val v) (val u).
    Proof. intros E. apply (stratTC_first (n_rank v)). apply (edge_spec c' false recovery (positional c' data) _ keys out HR v u E). Qed.

    Lemma edgeC_total v x : In v A -> trans (safetyEnv c) (val v) x = true ->
      exists u, edge A v u /\ same_in (game_of c) N (val u) x.
    Proof.
      intros Hv Hx. destruct (first_covers (n_rank v) (val v) x) as (y & Hy); auto.
      - now apply nodeC_rank.
      - now apply nodeC_W.
      - destruct (edge_total c' false recovery (positional c' data) _ keys out HR v (mrg c x y) Hv) as (u & E & S').
        + apply stratTC_first. split; auto. intros _. now rewrite safeE_mrg'.
        + exists u. split; auto. intros k Hlt Ho. rewrite S' by auto. unfold mrg. cbn in Ho. now rewrite Ho.
    Qed.

    Lemma edgeC_unique v u u' : edge A v u -> edge A v u' -> same_in (game_of c) N (val u) (val u') -> u = u'.
    Proof. exact (edge_unique c' wf_c' false recovery (positional c' data) _ keys out HR v u u'). Qed.

    Lemma edgeC_next v u : edge A v u -> exists d, d <= length gs /\ n_rank u = (n_rank v + d) mod length gs /\
      (forall e, e < d -> trans (nth ((n_rank v + e) mod length gs) gs btrue) (val v) (val u) = true) /\
      (trans (nth (n_rank v) gs btrue) (val v) (val u) = true -> 1 <= d).
    Proof.
      intros E. destruct (edge_spec c' false recovery (positional c' data) _ keys out HR v u E) as [_ ->].
      pose proof (proj2 (nodeC_rank v (proj1 E))) as Hv.
      destruct (nextGoal_spec c' wf_c' (n_rank v) (n_vals v) (n_vals u)) as (d & Hd & _ & E' & H1 & H2); [exact Hv|].
      cbn [livenessGuarantees withGuarantees] in *. exists d. split; auto. split; auto.
      assert (Ed : forall i, i < length gs -> nth i gs btrue = nth i gs bfalse) by (intros; now apply nth_indep).
      split.
      - intros e He. rewrite Ed by (apply Nat.mod_upper_bound; lia). exact (H1 e He).
      - intros HG. destruct d as [|d]; [|lia]. specialize (H2 ltac:(lia)).
        rewrite Nat.add_0_r, Nat.mod_small in H2 by auto. rewrite Ed in HG by auto. unfold test in H2. unfold val in HG.
        change (trans (nth (n_rank v) gs bfalse) (ofVec (n_vals v)) (ofVec (n_vals u)) = true) in HG.
        cbn [livenessGuarantees withGuarantees] in H2. congruence.
    Qed.

    Lemma pathC_live p : path A p ->
      (exists n0, forall n, n0 <= n -> trans (safetyEnv c) (val (p n)) (val (p (S n))) = true) ->
      (forall q, In q (g_liveA (game_of c)) -> inf_often q (positions p)) ->
      forall q, In q (g_liveG (game_of c)) -> inf_often q (positions p).
    Proof.
      intros HP HE HA q Hq.
      apply (path_live c' wf_c' false recovery (positional c' data) _ keys out HR w L extractInitC_w stratTC_good) with (3 := HP); auto.
      - intros j s t Hj H HEs. apply stratTC_first in H. now apply first_follow.
      - intros j Hj. apply (sv_good _ _ _ (HLP j Hj)).
      - apply in_map_iff in Hq. destruct Hq as (g & <- & Hg). destruct (In_nth _ _ btrue Hg) as (j & Hj & <-).
        apply in_map_iff. exists (nth j gs btrue). split; [now rewrite (sc_same c w data gs HS)|].
        apply nth_In. cbn [livenessGuarantees withGuarantees]. rewrite (sc_len c w data gs HS). lia.
    Qed.

    (** From every state, some path satisfies all assumptions. *)
    Lemma nodeC_path v : In v A -> exists p, path A p /\ p 0 = v /\ env_satisfied (game_of c) (positions p).
    Proof.
      intros Hv.
      set (ok := fun v u => existsb (Nat.eqb (n_num u)) (n_succ v) &&
        forallb (fun k => isOut c k || Bool.eqb (val u k) (helpIn (n_rank v) (val v) k)) (seq 0 N)).
      set (next := fun v => match find (ok v) A with Some u => u | None => v end).
      set (p := fix p n := match n with O => v | S n => next (p n) end).
      assert (OK : forall v u, ok v u = true <-> In (n_num u) (n_succ v) /\ same_in (game_of c) N (val u) (helpIn (n_rank v) (val v))).
      { intros v' u. unfold ok. rewrite andb_true_iff, existsb_exists, forallb_forall. split.
        - intros [(n & Hn & En) G]. apply Nat.eqb_eq in En. subst n. split; auto.
          intros k Hlt Ho. cbn in Ho. specialize (G k (proj2 (in_seq _ _ _) (conj (Nat.le_0_l k) Hlt))).
          rewrite Ho in G. cbn in G. now apply eqb_prop.
        - intros [Hn G]. split; [exists (n_num u); split; auto; apply Nat.eqb_refl|].
          intros k Hlt. apply in_seq in Hlt. destruct (isOut c k) eqn:Ho; auto. cbn.
          rewrite (G k); [apply eqb_reflx|lia|exact Ho]. }
      assert (ST : forall v, In v A -> edge A v (next v) /\ same_in (game_of c) N (val (next v)) (helpIn (n_rank v) (val v))).
      { intros v' Hv'. destruct (edgeC_total v' (helpIn (n_rank v') (val v')) Hv') as (u & (E1 & E2 & E3) & Su).
        - apply helpIn_safe; [now apply nodeC_rank|now apply nodeC_W].
        - unfold next. destruct (find (ok v') A) as [u'|] eqn:F.
          + apply find_some in F. destruct F as [F1 F2]. apply OK in F2. destruct F2. repeat split; auto.
          + exfalso. pose proof (find_none _ _ F u E2) as X. rewrite <- not_true_iff_false in X. apply X. apply OK. auto. }
      assert (Hp : forall n, In (p n) A).
      { induction n as [|n IH]; [exact Hv|]. apply (ST (p n) IH). }
      assert (PP : path A p) by (intros n; apply (ST (p n) (Hp n))).
      exists p. split; auto. split; auto.
      assert (P1 : forall i, n_rank (p i) < length gs) by (intros i; now apply nodeC_rank).
      assert (P0 : pos w (positions p 0) = true) by now apply nodeC_W.
      assert (P2 : forall i, first_of c (dataOf (n_rank (p i)) data) (positions p i) (positions p (S i))) by (intros i; apply edgeC_first; apply PP).
      assert (P3 : forall i k, k < N -> isOut c k = false -> positions p (S i) k = helpIn (n_rank (p i)) (positions p i) k).
      { intros i k Hlt Ho. apply (ST (p i) (Hp i)); auto. }
      split.
      - intros m. exact (help_safe (positions p) (fun i => n_rank (p i)) P1 P0 P2 P3 m).
      - intros q Hq. apply (help_asm (positions p) (fun i => n_rank (p i)) P1 P0 P2 P3); auto.
        intros n. apply edgeC_next. apply PP.
    Qed.
  End AUTC.
End GAME.
