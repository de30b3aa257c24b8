(** * The printed automaton as a controller *)

From Coq Require Import Arith List Bool Lia.
From Verif Require Import BDD Loop Spec VarTypes Synth Sem FixBase GameSound SynthProofs Verdict AutSpec Explicit DetProofs ExplicitProofs.
Import ListNotations.

Local Arguments isOut : simpl never.

Lemma Forall2_nth_l {A B} (P : A -> B -> Prop) l m : Forall2 P l m -> forall x, In x l -> exists y, In y m /\ P x y.
Proof.
  induction 1 as [|a b l m H F IH]; intros x []; subst.
  - exists b. split; auto. now left.
  - destruct (IH x H0) as (y & H1 & H2). exists y. split; auto. now right.
Qed.

Lemma Forall2_nth_r {A B} (P : A -> B -> Prop) l m : Forall2 P l m -> forall y, In y m -> exists x, In x l /\ P x y.
Proof.
  induction 1 as [|a b l m H F IH]; intros x []; subst.
  - exists a. split; auto. now left.
  - destruct (IH x H0) as (y & H1 & H2). exists y. split; auto. now right.
Qed.

Section AUT.
  Variable c : ctx.
  Hypothesis Hwf : wf c.
  Let Hk := wf_kinds c Hwf.
  Let HSe := wf_safetyEnv c Hwf.
  Local Notation N := (nvars c).
  Local Notation M := (length (livenessGuarantees c)).
  Local Notation g := (game_of c).
  Local Notation pre := (dep (isPreV c)).
  Local Notation any := (dep (isAnyV c)).
  Let Mpos : 0 < M.
  Proof. pose proof (wf_gua_ne c Hwf). destruct (livenessGuarantees c); [now elim H|cbn; lia]. Qed.

  Variable recovery : bool.
  Variable w : BF.
  Variable data : list (nat * BF).
  Variable L : nat -> list (BF * BF).
  Hypothesis Hw : pre w.
  Hypothesis HL : forall j, j < M -> dataOf j data = map fst (L j) /\
    goodEnt c w (nth j (livenessGuarantees c) btrue) (L j) w.

  Lemma data_any : Forall (fun e => fst e < M -> any (snd e)) data.
  Proof.
    apply Forall_forall. intros [j F] Hin Hj. cbn [fst snd] in *.
    destruct (HL j Hj) as (E & _ & _ & H3).
    assert (Hin' : In F (dataOf j data)).
    { unfold dataOf. apply in_map_iff. exists (j, F). split; auto. apply filter_In. split; auto.
      apply Nat.eqb_refl. }
    rewrite E in Hin'. apply in_map_iff in Hin'. destruct Hin' as ([F' A] & <- & Hin').
    now apply (H3 F' A).
  Qed.

  Lemma first_exists Fs s t : (exists F y, In F Fs /\ trans F s (mrg c t y) = true) ->
    exists y, first_of c Fs s (mrg c t y).
  Proof.
    intros (F & y & Hin & Hy). revert Hin Hy.
    assert (G : forall p q, Fs = p ++ q -> (forall F', In F' p -> forall y, trans F' s (mrg c t y) = false) ->
              In F q -> trans F s (mrg c t y) = true -> exists y, first_of c Fs s (mrg c t y)).
    { intros p q. revert p. induction q as [|F0 q IH]; intros p E Hp Hin Hy; [destruct Hin|].
      destruct (trans (bexists (varCubePostOutput c) F0) s t) eqn:E0.
      - apply exPostOut_trans in E0; auto. destruct E0 as (y0 & H0). exists y0, p, F0, q. repeat split; auto.
        intros F' HF' y'. rewrite <- (Hp F' HF' y'). apply trans_eq. intros k. apply mrg_mrg.
      - destruct Hin as [->|Hin].
        + assert (trans (bexists (varCubePostOutput c) F) s t = true); [|congruence].
          apply exPostOut_trans; eauto.
        + apply (IH (p ++ [F0])); auto.
          * now rewrite <- app_assoc.
          * intros F' HF' y'. apply in_app_iff in HF'. destruct HF' as [HF'|[<-|[]]]; auto.
            destruct (trans F0 s (mrg c t y')) eqn:E1; auto.
            assert (trans (bexists (varCubePostOutput c) F0) s t = true); [|congruence].
            apply exPostOut_trans; eauto. }
    intros Hin Hy. apply (G [] Fs); auto. now intros F' [].
  Qed.

  Lemma mrg_id t : forall k, mrg c t t k = t k.
  Proof. intros k. unfold mrg. now destruct (isOut c k). Qed.

  Lemma safeE_mrg s t y : trans (safetyEnv c) s (mrg c t y) = trans (safetyEnv c) s t.
  Proof.
    rewrite (safeE_in c HSe s t y t). apply trans_eq. apply mrg_id.
  Qed.

  Lemma stratT_first j s t : trans (stratT c recovery (positional c data) j) s t = true <->
    first_of c (dataOf j data) s t /\ (recovery = false -> trans (safetyEnv c) s t = true).
  Proof.
    unfold stratT. destruct recovery.
    - rewrite positional_spec by auto. split; [intros H; split; auto; discriminate|tauto].
    - rewrite trans_and, andb_true_iff, positional_spec by auto. tauto.
  Qed.

  Lemma stratT_good j s t : j < M -> trans (stratT c recovery (positional c data) j) s t = true ->
    trans (safetySys c) s t = true /\ pos w t = true.
  Proof.
    intros Hj H. apply stratT_first in H. destruct H as [(p & F & q & E & H & _) _].
    destruct (HL j Hj) as (E' & H1 & _). rewrite E' in E.
    assert (In F (map fst (L j))) by (rewrite E; apply in_or_app; right; now left).
    apply in_map_iff in H0. destruct H0 as ([F' A] & <- & Hin).
    apply in_split in Hin. destruct Hin as (p' & q' & Hin). cbn [fst] in H.
    destruct (H1 p' F' A q' Hin s t H) as [S [[_ E1]|[[_ E1]|(_ & _ & E1)]]]; auto.
  Qed.

  Lemma stratT_follow j s t : j < M -> trans (stratT c recovery (positional c data) j) s t = true ->
    trans (safetyEnv c) s t = true -> follow g (lift (L j)) s t.
  Proof.
    intros Hj H HE. apply stratT_first in H. destruct H as [(p & F & q & E & H & HN) _].
    destruct (HL j Hj) as (E' & _). rewrite E' in E.
    assert (G : exists p' A q', L j = p' ++ (F, A) :: q' /\ map fst p' = p).
    { clear -E. revert p q E. induction (L j) as [|[F0 A0] l IH]; intros p q E; [destruct p; discriminate|].
      destruct p as [|f p]; cbn in E; injection E as E1 E2.
      - subst. exists [], A0, l. auto.
      - destruct (IH p q E2) as (p' & A & q' & -> & <-). subst f. exists ((F0, A0) :: p'), A, q'. auto. }
    destruct G as (p' & A & q' & EL & Ep).
    exists (lift p'), (trans F), (trans A), (lift q'). split; [|split; auto].
    - rewrite EL. unfold lift. now rewrite map_app.
    - intros C. destruct (C t) as (F' & y & Hin & Hy).
      + cbn. rewrite <- (mrg_merge c t t), safeE_mrg. exact HE.
      + rewrite map_fst_lift in Hin. apply in_map_iff in Hin. destruct Hin as (e & <- & Hin).
        rewrite <- (mrg_merge c) in Hy. rewrite HN in Hy; [discriminate|]. rewrite <- Ep.
        apply in_map. exact Hin.
  Qed.

  Lemma stratT_covers j s t : j < M -> pos w s = true -> trans (safetyEnv c) s t = true ->
    exists y, trans (stratT c recovery (positional c data) j) s (mrg c t y) = true.
  Proof.
    intros Hj Hs Ht. destruct (HL j Hj) as (E & _ & H2 & _).
    destruct (first_exists (dataOf j data) s t) as (y & Hy).
    - destruct (H2 s Hs t) as (F & y & Hin & Hy).
      + cbn. rewrite <- (mrg_merge c t t), safeE_mrg. exact Ht.
      + apply in_map_iff in Hin. destruct Hin as (e & <- & Hin). exists (fst e), y. split.
        * rewrite E. now apply in_map.
        * exact Hy.
    - exists y. apply stratT_first. split; auto. intros _. now rewrite safeE_mrg.
  Qed.

  Lemma stratT_recovery j s t : recovery = true -> j < M -> fullEnt c (L j) w ->
    (exists y, trans (safetySys c) s (mrg c t y) = true /\ pos w (mrg c t y) = true) ->
    exists y, trans (stratT c recovery (positional c data) j) s (mrg c t y) = true.
  Proof.
    intros Hr Hj HF (y & H1 & H2). destruct (HL j Hj) as (E & _).
    destruct (HF _ _ H1 H2) as (F & A & Hin & Ht).
    destruct (first_exists (dataOf j data) s t) as (y' & Hy).
    - exists F, y. split; auto. rewrite E. now apply (in_map fst (L j) (F, A)).
    - exists y'. apply stratT_first. split; auto. congruence.
  Qed.

End AUT.

(** ** The nodes *)
Section NODES.
  Variable c : ctx.
  Hypothesis Hwf : wf c.
  Let Hk := wf_kinds c Hwf.
  Let HSe := wf_safetyEnv c Hwf.
  Local Notation N := (nvars c).
  Local Notation M := (length (livenessGuarantees c)).
  Local Notation g := (game_of c).
  Local Notation pre := (dep (isPreV c)).
  Local Notation any := (dep (isAnyV c)).
  Let Mpos : 0 < M.
  Proof. pose proof (wf_gua_ne c Hwf). destruct (livenessGuarantees c); [now elim H|cbn; lia]. Qed.

  Variables perm recovery : bool.
  Variable strategy : nat -> BF.
  Variable f : BF.
  Variable keys : list (list bool * nat).
  Variable out : list (node * bool).
  Hypothesis HR : result c perm recovery strategy f keys out.
  Let A := map fst out.

  Lemma A_length : length A = length keys.
  Proof. unfold A. rewrite map_length. apply (r_len _ _ _ _ _ _ _ HR). Qed.

  Lemma A_nth i v : nth_error A i = Some v -> nodeOk c perm recovery strategy keys i v.
  Proof. apply (r_nodes _ _ _ _ _ _ _ HR). Qed.

  Lemma A_key i v j : nth_error keys i = Some (v, j) ->
    exists nd, nth_error A i = Some nd /\ In nd A /\ n_num nd = i /\ n_rank nd = j /\ n_vals nd = v.
  Proof.
    intros E. destruct (nth_error A i) as [nd|] eqn:E'.
    - exists nd. split; auto. split; [now apply nth_error_In in E'|].
      destruct (A_nth i nd E') as (v' & j' & U & E'' & En & _). rewrite En. cbn.
      rewrite E in E''. injection E'' as -> ->. auto.
    - apply nth_error_None in E'. rewrite A_length in E'. apply nth_error_None in E'. congruence.
  Qed.

  Lemma A_in v : In v A -> nth_error A (n_num v) = Some v /\ nth_error keys (n_num v) = Some (n_vals v, n_rank v).
  Proof.
    intros H. apply In_nth_error in H. destruct H as (i & E).
    destruct (A_nth i v E) as (v' & j' & U & E'' & En & _).
    rewrite En. cbn. rewrite <- En. auto.
  Qed.

  Lemma A_shape v : In v A -> length (n_vals v) = N /\ n_rank v < M.
  Proof.
    intros H. apply A_in in H. destruct H as [_ H]. apply nth_error_In in H.
    destruct (r_good _ _ _ _ _ _ _ HR) as [_ G]. rewrite Forall_forall in G. apply (G _ H).
  Qed.

  Lemma A_same_num v u : In v A -> In u A -> n_num v = n_num u -> v = u.
  Proof.
    intros H H' E. apply A_in in H. apply A_in in H'. destruct H as [H _], H' as [H' _]. congruence.
  Qed.

  Lemma A_numbers : map n_num A = seq 0 (length A).
  Proof.
    apply (nth_ext _ _ 0 0).
    - now rewrite map_length, seq_length.
    - rewrite map_length. intros i Hi. rewrite seq_nth by auto. cbn.
      destruct (nth_error A i) as [v|] eqn:E; [|apply nth_error_None in E; lia].
      rewrite (nth_error_nth (map n_num A) i 0 (x := n_num v)).
      + destruct (A_nth i v E) as (? & ? & ? & _ & En & _). now rewrite En.
      + now rewrite nth_error_map, E.
  Qed.

  Lemma A_distinct v u : In v A -> In u A -> n_vals v = n_vals u -> n_rank v = n_rank u -> v = u.
  Proof.
    intros H H' E1 E2. apply A_same_num; auto.
    pose proof (proj2 (A_in v H)) as K. pose proof (proj2 (A_in u H')) as K'.
    destruct (r_good _ _ _ _ _ _ _ HR) as [G _]. rewrite NoDup_nth_error in G. apply G.
    - apply nth_error_Some. congruence.
    - congruence.
  Qed.

  (** Everything about the successors of a node. *)
  Lemma succ_spec v : In v A -> exists U,
    Forall2 (fun u n => nth_error keys n = Some (u, nextGoal c (n_rank v) (n_vals v) u)) U (n_succ v) /\
    Forall (fun u => length u = N /\ trans (stratT c recovery strategy (n_rank v)) (val v) (ofVec u) = true) U /\
    NoDup (map (capOf c perm) U) /\
    (forall t, trans (stratT c recovery strategy (n_rank v)) (val v) t = true ->
       exists u, In u U /\ sameCap c perm (ofVec u) t).
  Proof.
    intros H. destruct (A_in v H) as [E _].
    destruct (A_nth _ _ E) as (v' & j & U & _ & En & (S1 & S2 & S3) & HC).
    exists U. rewrite En. cbn [n_rank n_vals n_succ val]. repeat split; auto.
  Qed.

  Lemma succ_printed v n : In v A -> In n (n_succ v) -> exists u, edge A v u /\ n_num u = n.
  Proof.
    intros H Hn. destruct (succ_spec v H) as (U & S1 & _).
    destruct (Forall2_nth_r _ _ _ S1 n Hn) as (u & _ & E).
    destruct (A_key _ _ _ E) as (nd & _ & Hin & En & _). exists nd. repeat split; auto. now rewrite En.
  Qed.

  Lemma edge_spec v u : edge A v u ->
    trans (stratT c recovery strategy (n_rank v)) (val v) (val u) = true /\
    n_rank u = nextGoal c (n_rank v) (n_vals v) (n_vals u).
  Proof.
    intros (Hv & Hu & Hn). destruct (succ_spec v Hv) as (U & S1 & S2 & _).
    destruct (Forall2_nth_r _ _ _ S1 _ Hn) as (b & Hb & E).
    destruct (A_in u Hu) as [_ Eu]. rewrite Eu in E. injection E as E1 E2.
    rewrite Forall_forall in S2. destruct (S2 b Hb) as [_ T]. rewrite <- E1 in T, E2. auto.
  Qed.

  Lemma edge_total v t : In v A -> trans (stratT c recovery strategy (n_rank v)) (val v) t = true ->
    exists u, edge A v u /\ sameCap c perm (val u) t.
  Proof.
    intros Hv Ht. destruct (succ_spec v Hv) as (U & S1 & _ & _ & HC).
    destruct (HC t Ht) as (b & Hb & Hs).
    destruct (Forall2_nth_l _ _ _ S1 b Hb) as (n & Hn & E).
    destruct (A_key _ _ _ E) as (nd & _ & Hin & En & _ & Ev). exists nd. split.
    - repeat split; auto. now rewrite En.
    - unfold val. rewrite Ev. exact Hs.
  Qed.

  Lemma edge_unique v u u' : edge A v u -> edge A v u' -> sameCap c perm (val u) (val u') -> u = u'.
  Proof.
    intros (Hv & Hu & Hn) (_ & Hu' & Hn') Hs.
    destruct (succ_spec v Hv) as (U & S1 & S2 & S3 & _).
    destruct (Forall2_nth_r _ _ _ S1 _ Hn) as (b & Hb & E).
    destruct (Forall2_nth_r _ _ _ S1 _ Hn') as (b' & Hb' & E').
    destruct (A_in u Hu) as [_ Eu]. destruct (A_in u' Hu') as [_ Eu'].
    rewrite Eu in E. rewrite Eu' in E'. injection E as E1 E2. injection E' as E1' E2'.
    assert (b = b').
    { rewrite Forall_forall in S2. assert (Ei : capOf c perm b = capOf c perm b').
      { apply (capOf_same c Hwf perm); [now apply S2|now apply S2|subst b b'; exact Hs]. }
      clear -S3 Hb Hb' Ei. induction U as [|a U IH]; [destruct Hb|]. cbn in S3. inversion S3; subst.
      destruct Hb as [->|Hb], Hb' as [->|Hb']; auto.
      - elim H1. rewrite Ei. now apply in_map.
      - elim H1. rewrite <- Ei. now apply in_map. }
    subst b'. apply A_distinct; auto; congruence.
  Qed.

  Lemma succ_nodup v : In v A -> NoDup (n_succ v).
  Proof.
    intros Hv. destruct (succ_spec v Hv) as (U & S1 & _ & S3 & _).
    remember (n_succ v) as sc. clear Heqsc. revert S3. induction S1 as [|u n U sc H S1 IH]; intros S3; [constructor|].
    cbn in S3. inversion S3; subst. constructor; auto.
    intros Hin. destruct (Forall2_nth_r _ _ _ S1 n Hin) as (u' & Hu' & E).
    rewrite H in E. injection E as -> _. apply H2. now apply in_map.
  Qed.

  (** What is needed of the strategies and of the initial states. *)
  Variable w : BF.
  Variable L : nat -> list (BF * BF).
  Hypothesis Hf : forall s, pos f s = true -> pos w s = true.
  Hypothesis HGood : forall j s t, j < M -> trans (stratT c recovery strategy j) s t = true ->
    trans (safetySys c) s t = true /\ pos w t = true.
  Hypothesis HFollow : forall j s t, j < M -> trans (stratT c recovery strategy j) s t = true ->
    trans (safetyEnv c) s t = true -> follow g (lift (L j)) s t.
  Hypothesis HL : forall j, j < M -> goodEnt c w (nth j (livenessGuarantees c) btrue) (L j) w.

  (** All states are winning. *)
  Lemma node_W v : In v A -> pos w (val v) = true.
  Proof.
    assert (G : forall i v, nth_error A i = Some v -> pos w (val v) = true).
    { induction i as [i IH] using lt_wf_ind. intros u E.
      assert (Hi : i < length keys) by (rewrite <- A_length; apply nth_error_Some; congruence).
      assert (Hu : In u A) by now apply nth_error_In in E.
      destruct (A_in u Hu) as [E' EK].
      assert (Ei : n_num u = i).
      { destruct (A_nth i u E) as (? & ? & ? & _ & En & _). now rewrite En. }
      destruct (r_from _ _ _ _ _ _ _ HR i Hi) as [(b & Eb & Hp)|(i' & nd & L' & E1 & E2)].
      - rewrite Ei, Eb in EK. injection EK as -> _. now apply Hf.
      - fold A in E1. assert (Hnd : In nd A) by now apply nth_error_In in E1.
        destruct (edge_spec nd u) as [T _].
        + repeat split; auto. now rewrite Ei.
        + apply (HGood (n_rank nd)) in T; [tauto|]. now apply A_shape. }
    intros Hv. apply (G (n_num v)). now apply A_in.
  Qed.

  Lemma edge_safe v u : edge A v u -> trans (safetySys c) (val v) (val u) = true /\
    (recovery = false -> trans (safetyEnv c) (val v) (val u) = true).
  Proof.
    intros E. destruct (edge_spec v u E) as [T _]. destruct E as (Hv & _). split.
    - apply (HGood (n_rank v)) in T; [tauto|]. now apply A_shape.
    - intros Er. unfold stratT in T. rewrite Er, trans_and, andb_true_iff in T. apply T.
  Qed.

  (** Reachability from initial states. *)
  Lemma all_reached v : In v A ->
    reach A (fun v => n_rank v = 0 /\ pos f (val v) = true) v.
  Proof.
    assert (G : forall i v, nth_error A i = Some v ->
      reach A (fun v => n_rank v = 0 /\ pos f (val v) = true) v).
    { induction i as [i IH] using lt_wf_ind. intros u E.
      assert (Hi : i < length keys) by (rewrite <- A_length; apply nth_error_Some; congruence).
      assert (Hu : In u A) by now apply nth_error_In in E.
      destruct (A_in u Hu) as [E' EK].
      assert (Ei : n_num u = i).
      { destruct (A_nth i u E) as (? & ? & ? & _ & En & _). now rewrite En. }
      destruct (r_from _ _ _ _ _ _ _ HR i Hi) as [(b & Eb & Hp)|(i' & nd & L' & E1 & E2)].
      - rewrite Ei, Eb in EK. injection EK as -> EK. apply reach_init; auto.
      - fold A in E1. assert (Hnd : In nd A) by now apply nth_error_In in E1.
        apply (reach_step A _ nd); [eauto|]. repeat split; auto. now rewrite Ei. }
    intros Hv. apply (G (n_num v)). now apply A_in.
  Qed.

  (** Liveness. *)
  Lemma path_live p : path A p ->
    (exists n0, forall n, n0 <= n -> trans (safetyEnv c) (val (p n)) (val (p (S n))) = true) ->
    (forall q, In q (g_liveA g) -> inf_often q (positions p)) ->
    forall q, In q (g_liveG g) -> inf_often q (positions p).
  Proof.
    intros HP (n0 & HE) HA q Hq.
    set (pi := fun n => positions p (n0 + n)). set (jn := fun n => n_rank (p (n0 + n))).
    assert (Hin : forall n, In (p n) A) by (intros n; apply (HP n)).
    assert (HS : forall n, p (n0 + S n) = p (S (n0 + n))) by (intros n; f_equal; lia).
    assert (Lq : inf_often q pi).
    { apply in_map_iff in Hq. destruct Hq as (q0 & <- & Hq0).
      destruct (In_nth _ _ btrue Hq0) as (j & Hj & Ej).
      apply (all_goals g (fun s => pos w s = true) M (fun j => trans (nth j (livenessGuarantees c) btrue))
               (fun j => lift (L j))) with (pi := pi) (jn := jn) (j := j) in Hj; [now rewrite Ej in Hj| | | | | |].
      - intros i Hi. apply goodEnt_ranked. now apply HL.
      - intros n. now apply A_shape.
      - intros n. unfold pi, jn, positions. rewrite HS. apply HFollow.
        + now apply A_shape.
        + apply edge_spec. apply HP.
        + apply HE. lia.
      - intros n. unfold pi, jn, positions. rewrite HS.
        destruct (edge_spec _ _ (HP (n0 + n))) as [_ ->].
        destruct (nextGoal_spec c Hwf (n_rank (p (n0 + n))) (n_vals (p (n0 + n))) (n_vals (p (S (n0 + n)))))
          as (d & Hd & _ & E & H1 & H2); [now apply A_shape|].
        exists d. split; auto. split; auto.
        assert (Ed : forall i, i < M -> nth i (livenessGuarantees c) btrue = nth i (livenessGuarantees c) bfalse)
          by (intros; now apply nth_indep).
        split.
        + intros e He. rewrite Ed by (apply Nat.mod_upper_bound; lia). exact (H1 e He).
        + intros HG. destruct d as [|d]; [|lia]. specialize (H2 Mpos).
          rewrite Nat.add_0_r, Nat.mod_small in H2 by now apply A_shape.
          rewrite Ed in HG by now apply A_shape. unfold test in H2. unfold val in HG.
          change (trans (nth (n_rank (p (n0 + n))) (livenessGuarantees c) bfalse)
                    (ofVec (n_vals (p (n0 + n)))) (ofVec (n_vals (p (S (n0 + n))))) = true) in HG. congruence.
      - intros q' Hq' n. destruct (HA q' Hq' (n0 + n)) as (m & Hm & H). exists (m - n0). split; [lia|].
        unfold pi, positions in *. rewrite HS. replace (n0 + (m - n0)) with m by lia. exact H.
      - unfold pi, positions. now apply node_W. }
    intros n. destruct (Lq n) as (m & Hm & H). exists (n0 + m). split; [lia|].
    unfold pi, positions in *. now rewrite HS in H.
  Qed.
End NODES.

(** ** The automaton with one reply for each input *)
Section DET.
  Variable c : ctx.
  Hypothesis Hwf : wf c.
  Variable recovery : bool.
  Variable w : BF.
  Variable data : list (nat * BF).
  Variable L : nat -> list (BF * BF).
  Hypothesis HL : forall j, j < length (livenessGuarantees c) -> dataOf j data = map fst (L j) /\
    goodEnt c w (nth j (livenessGuarantees c) btrue) (L j) w.
  Variable keys : list (list bool * nat).
  Variable out : list (node * bool).
  Hypothesis HR : result c false recovery (positional c data) (extractInit recovery c w) keys out.

  Lemma extractInit_w s : pos (extractInit recovery c w) s = true -> pos w s = true.
  Proof. unfold extractInit. destruct recovery; rewrite !pos_and, !andb_true_iff; tauto. Qed.

  Lemma det_node_W v : In v (map fst out) -> pos w (val v) = true.
  Proof.
    apply (node_W c false recovery (positional c data) _ keys out HR w extractInit_w).
    intros j s t. apply (stratT_good c Hwf recovery w data L HL).
  Qed.

  Lemma det_edge_safe v u : edge (map fst out) v u -> trans (safetySys c) (val v) (val u) = true /\
    (recovery = false -> trans (safetyEnv c) (val v) (val u) = true).
  Proof.
    apply (edge_safe c false recovery (positional c data) _ keys out HR w).
    intros j s t. apply (stratT_good c Hwf recovery w data L HL).
  Qed.

  Lemma det_path_live p : path (map fst out) p ->
    (exists n0, forall n, n0 <= n -> trans (safetyEnv c) (val (p n)) (val (p (S n))) = true) ->
    (forall q, In q (g_liveA (game_of c)) -> inf_often q (positions p)) ->
    forall q, In q (g_liveG (game_of c)) -> inf_often q (positions p).
  Proof.
    apply (path_live c Hwf false recovery (positional c data) _ keys out HR w L extractInit_w).
    - intros j s t. apply (stratT_good c Hwf recovery w data L HL).
    - intros j s t. apply (stratT_follow c Hwf recovery w data L HL).
    - intros j Hj. now apply HL.
  Qed.
End DET.
