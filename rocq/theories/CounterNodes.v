(** * Explicit counterstrategies: the printed states *)

From Coq Require Import Arith List Bool Lia Wf_nat Permutation.
From Verif Require Import BDD Loop Spec VarTypes Synth Sem FixBase SynthProofs Verdict AutSpec Explicit DetProofs
  ExplicitProofs CounterSpec Counter CounterDual CounterData CounterExtract CounterGame.
Import ListNotations.

Local Arguments isOut : simpl never.

Lemma Forall2_in_l {A B} (P : A -> B -> Prop) l m x : Forall2 P l m -> In x l -> exists y, In y m /\ P x y.
Proof.
  induction 1 as [|a b l m H F IH]; [intros []|]. intros [->|Hin].
  - exists b. split; auto. now left.
  - destruct (IH Hin) as (y & H1 & H2). exists y. split; auto. now right.
Qed.
Lemma Forall2_in_r {A B} (P : A -> B -> Prop) l m y : Forall2 P l m -> In y m -> exists x, In x l /\ P x y.
Proof.
  induction 1 as [|a b l m H F IH]; [intros []|]. intros [->|Hin].
  - exists a. split; auto. now left.
  - destruct (IH Hin) as (x & H1 & H2). exists x. split; auto. now right.
Qed.

Lemma Some_inj {A} (x y : A) : Some x = Some y -> x = y.
Proof. congruence. Qed.

Section NODES.
  Variable c : ctx.
  Hypothesis Hwf : wf c.
  Let Hk := wf_kinds c Hwf.
  Let HSe := wf_safetyEnv c Hwf.
  Let HSs := wf_safetySys c Hwf.
  Local Notation N := (nvars c).
  Local Notation g := (game_of c).
  Local Notation MA := (length (livenessAssumptions c)).
  Local Notation MG := (length (livenessGuarantees c)).
  Local Notation any := (dep (isAnyV c)).
  Local Notation rank := (nat * nat)%type.
  Local Notation vkey := (list bool * rank)%type.
  Local Notation item := (bool * vkey)%type.

  Variable K : nat.
  Variable data : list entry.
  Hypothesis HK : stepZ c (iterZ c K) = iterZ c K.
  Hypothesis HR : rounds c (S K) data.
  Local Notation strat i j := (positionalC c data i j).
  Local Notation W := (iterZ c K).
  Local Notation at_ := (at_ c K data).

  Variable V : list vkey.
  Variable I : list item.
  Variable out : list cnode.
  Hypothesis HC : cresult c (positionalC c data) V I (fulls I) out.
  Hypothesis HV : Forall (fun e => snd e = initR c (positionalC c data) (fst e) /\ pos W (ofVec (fst e)) = false) V.

  Lemma item_ok n d v r : nth_error I n = Some (d, (v, r)) -> length v = N /\ rankOK c r.
  Proof.
    intros E. destruct (cr_good _ _ _ _ _ _ HC) as [_ G]. rewrite Forall_forall in G.
    apply nth_error_In in E. apply (G _ E).
  Qed.

  Lemma node_item nd : In nd out -> nodeC c (positionalC c data) I nd.
  Proof. intros H. pose proof (cr_nodes _ _ _ _ _ _ HC) as F. rewrite Forall_forall in F. auto. Qed.

  Lemma node_of n it : nth_error I n = Some it -> exists nd, In nd out /\ c_num nd = n.
  Proof.
    intros E. apply (cr_printed _ _ _ _ _ _ HC n it E). destruct it as [[|] k]; auto. right. cbn.
    apply in_fulls. now apply nth_error_In in E.
  Qed.

  Lemma node_unique nd nd' : In nd out -> In nd' out -> c_num nd = c_num nd' -> nd = nd'.
  Proof.
    intros H H' E. pose proof (cr_nodup _ _ _ _ _ _ HC) as ND. clear - H H' E ND.
    induction out as [|a l IH]; [destruct H|]. cbn in ND. inversion ND; subst.
    destruct H as [->|H], H' as [->|H']; auto.
    - elim H2. rewrite E. now apply in_map.
    - elim H2. rewrite <- E. now apply in_map.
  Qed.

  Lemma node_full nd l : In nd out -> c_succ nd = Some l ->
    nth_error I (c_num nd) = Some (false, (c_vals nd, c_rank nd)) /\
    movesC c (positionalC c data) I (c_vals nd) (c_rank nd) l.
  Proof.
    intros Hin E. destruct (node_item nd Hin) as (d & v & r & En & Er & H). destruct d.
    - destruct H as [H _]. congruence.
    - destruct H as (Hv & succs & Es & HM). assert (succs = l) as -> by congruence. now rewrite Er, Hv.
  Qed.

  Lemma node_dead nd : In nd out -> c_succ nd = None -> exists u,
    nth_error I (c_num nd) = Some (true, (u, c_rank nd)) /\ c_vals nd = inVals c u.
  Proof.
    intros Hin E. destruct (node_item nd Hin) as (d & v & r & En & Er & H). destruct d.
    - exists v. rewrite Er. destruct H. auto.
    - destruct H as (_ & succs & Es & _). congruence.
  Qed.

  Lemma node_shape nd : In nd out -> rankOK c (c_rank nd) /\ (c_succ nd <> None -> length (c_vals nd) = N).
  Proof.
    intros Hin. destruct (node_item nd Hin) as (d & v & r & En & Er & H).
    destruct (item_ok _ _ _ _ En) as [H1 H2]. rewrite Er. split; auto. intros Hs. destruct d.
    - destruct H as [H _]. congruence.
    - destruct H as [-> _]. auto.
  Qed.

  Lemma numbers : Permutation (map c_num out) (seq 0 (length out)).
  Proof.
    assert (P : Permutation (map c_num out) (seq 0 (length I))).
    { apply NoDup_Permutation; [apply (cr_nodup _ _ _ _ _ _ HC)|apply seq_NoDup|]. intros n. rewrite in_seq. split.
      - intros H. apply in_map_iff in H. destruct H as (nd & <- & H). destruct (node_item nd H) as (d & v & r & En & _).
        assert (c_num nd < length I) by (apply nth_error_Some; congruence). lia.
      - intros H. destruct (nth_error I n) as [it|] eqn:E; [|apply nth_error_None in E; lia].
        destruct (node_of n it E) as (nd & H1 & <-). now apply in_map. }
    pose proof (Permutation_length P) as L. rewrite map_length, seq_length in L. now rewrite L.
  Qed.

  (** ** Keys *)
  Lemma key_full v r v' r' : length v = N -> length v' = N ->
    ikey c (false, (v, r)) = ikey c (false, (v', r')) -> v = v' /\ r = r'.
  Proof. intros L L' E. injection E as E ->. split; auto. apply (ptOf_inj c) in E; auto. Qed.

  Lemma key_dead u r v r' : length u = N -> length v = N ->
    ikey c (true, (u, r)) = ikey c (false, (v, r')) -> u = v /\ r = r' /\ forall k, k < N -> isOut c k = false.
  Proof.
    intros L L' E. injection E as E ->.
    assert (HO : forall k, k < N -> isOut c k = false).
    { intros k Hk'. destruct (isOut c k) eqn:O; auto. exfalso.
      assert (H : forall s, same_in g N s (ofVec u) -> same N s (ofVec v)).
      { intros s H. apply (trans_inOf c Hwf u s s) in H. rewrite E in H. now apply trans_ptOf in H. }
      set (s := fun b n => if Nat.eqb n k then b else ofVec u n).
      assert (HS : forall b, same_in g N (s b) (ofVec u)).
      { intros b n Hn On. unfold s. destruct (Nat.eqb_spec n k) as [->|]; auto. cbn in On. congruence. }
      pose proof (H _ (HS true) k Hk') as H1. pose proof (H _ (HS false) k Hk') as H2.
      unfold s in H1, H2. rewrite Nat.eqb_refl in *. congruence. }
    repeat split; auto. apply (same_vec c); auto.
    assert (H : trans (inOf c u) (ofVec u) (ofVec u) = true) by (apply (trans_inOf c Hwf); now intros k _).
    rewrite E in H. now apply trans_ptOf in H.
  Qed.

  Lemma inVals_full u : length u = N -> (forall k, k < N -> isOut c k = false) -> inVals c u = u.
  Proof.
    intros L HO. unfold inVals.
    assert (E : filter (fun k => negb (isOut c k)) (seq 0 N) = seq 0 N).
    { assert (G : forall l, (forall k, In k l -> isOut c k = false) -> filter (fun k => negb (isOut c k)) l = l).
      { induction l as [|a l IH]; cbn; auto. intros H. rewrite (H a) by now left. cbn. f_equal. apply IH. intros k Hin. apply H. now right. }
      apply G. intros k Hin. apply in_seq in Hin. apply HO. lia. }
    rewrite E, <- L. clear. apply (nth_ext _ _ false false); [now rewrite map_length, seq_length|].
    rewrite map_length, seq_length. intros k Hk'.
    rewrite (nth_indep _ _ (nth 0 u false)) by now rewrite map_length, seq_length.
    rewrite (map_nth (fun k => nth k u false)), seq_nth by auto. reflexivity.
  Qed.

  (** ** All states are losing for the system and have a move *)
  Lemma nextC_stay lives i v u : i < length lives -> testC lives v u i = false -> nextC lives i v u = i.
  Proof.
    intros Hi H. destruct (nextC_spec c Hwf lives i v u Hi) as (d & H1 & _ & H2 & H3 & _).
    destruct d as [|d]; [now rewrite Nat.add_0_r, Nat.mod_small in H2|].
    specialize (H3 0). rewrite Nat.add_0_r, Nat.mod_small in H3 by auto. rewrite H3 in H; [discriminate|lia].
  Qed.

  Lemma at_next v r u : rankOK c r -> (exists k m, at_ (fst r) (snd r) (ofVec v) k m) ->
    trans (strat (fst r) (snd r)) (ofVec v) (ofVec u) = true -> trans (safetySys c) (ofVec v) (ofVec u) = true ->
    (exists k m, at_ (fst (nextR c r v u)) (snd (nextR c r v u)) (ofVec u) k m) /\ pos W (ofVec u) = false.
  Proof.
    intros Hr (k & m & HA) HT HS. pose proof (nextR_ok c Hwf r v u Hr) as [L3 L4]. destruct Hr as [L1 L2].
    split.
    - destruct (at_step c Hwf K data HR (fst r) (snd r) (ofVec v) (ofVec u) k m _ _ L1 L2 L3 L4 HA HT HS) as (H1 & H2 & _ & _).
      destruct (trans (nth (snd r) (livenessGuarantees c) bfalse) (ofVec v) (ofVec u)) eqn:EG.
      + destruct (H2 eq_refl) as (k' & m' & _ & H). eauto.
      + destruct (H1 eq_refl) as (k' & m' & _ & H). exists k', m'.
        replace (snd (nextR c r v u)) with (snd r); auto. symmetry. apply nextC_stay; auto.
    - apply (round_W c Hwf K data HK (fst r) (snd r) (ofVec v) (ofVec u) k m); auto.
      apply (at_strat c Hwf K data HR); auto.
  Qed.

  Lemma init_at v : pos W (ofVec v) = false -> length v = N ->
    exists k m, at_ (fst (initR c (positionalC c data) v)) (snd (initR c (positionalC c data) v)) (ofVec v) k m.
  Proof.
    intros HW Hv. pose proof (initR_ok c Hwf (positionalC c data) v) as [L1 L2].
    rewrite <- HK in HW. destruct (stepZ_false c W (ofVec v)) as (j & Hj & HM); auto using pre_iterZ.
    destruct (at_round c Hwf K data HR 0 j (ofVec v) K) as (k & m & _ & HA); auto.
    destruct (at_move c Hwf K data HR 0 j (ofVec v) k m) as (t & HT); auto.
    unfold initR in *. cbn [fst snd] in *. unfold foundGoal in *.
    destruct (find _ _) as [j'|] eqn:E.
    - apply find_some in E. destruct E as [E1 E2]. apply in_seq in E1. apply negb_true_iff, isFalse_false in E2.
      destruct E2 as (e & E2). rewrite eval_and, andb_true_iff in E2. rewrite !e_split in E2. destruct E2 as [E2 E3].
      apply trans_ptOf in E2; auto.
      assert (E4 : trans (strat 0 j') (ofVec v) (fun k => e (2 * k + 1)) = true).
      { rewrite <- E3. apply (trans_ext c Hk); auto; [apply (any_strat c Hwf K data HR); auto; lia|now apply same_sym]. }
      apply (cov_at c Hwf K data HR); auto. apply (strat_cov c Hwf K data HR); eauto.
    - pose proof (find_none _ _ E j) as E'. rewrite in_seq in E'. cbn in E'. specialize (E' (conj (Nat.le_0_l j) Hj)).
      apply negb_false_iff in E'. rewrite isFalse_spec in E'. specialize (E' (tv (ofVec v) t)).
      rewrite eval_and in E'. change (eval (strat 0 j) (tv (ofVec v) t)) with (trans (strat 0 j) (ofVec v) t) in E'.
      rewrite HT, andb_true_r in E'. exfalso.
      assert (trans (ptOf c v) (ofVec v) t = true); [|unfold trans in H; congruence].
      apply trans_ptOf; auto. now intros x _.
  Qed.

  Lemma full_at : forall n v r, nth_error I n = Some (false, (v, r)) ->
    (exists k m, at_ (fst r) (snd r) (ofVec v) k m) /\ pos W (ofVec v) = false.
  Proof.
    induction n as [n IH] using lt_wf_ind. intros v r E. destruct (item_ok _ _ _ _ E) as [Lv Hr].
    destruct (Nat.lt_ge_cases n (length V)) as [L|L].
    - destruct (cr_init _ _ _ _ _ _ HC) as (Y & EI). rewrite EI, nth_error_app1, nth_error_map in E
        by now rewrite map_length.
      destruct (nth_error V n) as [k|] eqn:Ev; [|discriminate]. injection E as ->.
      apply nth_error_In in Ev. rewrite Forall_forall in HV. destruct (HV _ Ev) as [E1 E2]. cbn in E1, E2. subst r.
      split; auto. now apply init_at.
    - destruct (cr_from _ _ _ _ _ _ HC n (v, r) L E) as (nd & l & Hin & Ln & Es & Hn & Hnd).
      destruct (node_full nd l Hin Es) as [En [(u & m & _ & HD & _)|(_ & x & U & (HS & HU & _) & _ & HX)]]; [now elim (Hnd u)|].
      destruct (Forall2_in_r _ _ _ _ HS Hn) as (u & Hu & Ek). rewrite nth_error_map, E in Ek.
      rewrite Forall_forall in HU. apply Some_inj in Ek. destruct (item_ok _ _ _ _ En) as [Lp Hrp].
      change (ikey c (false, (v, r)) = ikey c (false, (u, nextR c (c_rank nd) (c_vals nd) u))) in Ek.
      apply key_full in Ek; auto. destruct Ek as [-> ->]. destruct (IH _ Ln _ _ En) as [HA _].
      destruct (proj1 (HX (ofVec u))) as (H1 & H2 & H3); [exists u; split; auto; now intros k _|].
      now apply at_next.
  Qed.

  Lemma safeS_ext s s' t t' : same N s s' -> same N t t' -> trans (safetySys c) s t = trans (safetySys c) s' t'.
  Proof. intros H H'. apply (trans_ext c Hk); auto. Qed.

  (** The environment has a move in every state. *)
  Lemma moves nd l : In nd out -> c_succ nd = Some l -> l <> [].
  Proof.
    intros Hin Es. destruct (node_full nd l Hin Es) as [En HM]. destruct (item_ok _ _ _ _ En) as [Lp [Hr1 Hr2]].
    destruct HM as [(u & m & _ & _ & -> & _)|(Hnd & x & U & (HS & HU & _) & H1 & HX)]; [discriminate|].
    destruct (full_at _ _ _ En) as [(k & m & HA) _].
    destruct (at_move c Hwf K data HR _ _ _ k m Hr1 Hr2 HA) as (t & HT).
    assert (Hx := H1 (ex_intro _ t HT)).
    destruct (trans (bexists (varCubePostOutput c) (safetySys c)) (ofVec (c_vals nd)) (ofVec x)) eqn:E.
    - apply exPostOut_trans in E; auto. destruct E as (y & Hy).
      destruct (proj2 (HX (mrg c (ofVec x) y))) as (u & Hu & _).
      + split; [|split; auto].
        * apply (strat_first c Hwf K data HR) in Hx; auto. destruct Hx as (P & F & Q & EP & HF & HP).
          apply (strat_first c Hwf K data HR); auto. exists P, F, Q. split; auto. split; auto.
          pose proof (D_good c K data HR _ _ Hr1 Hr2) as G. rewrite EP in G. apply Forall_app in G.
          destruct G as [_ G]. inversion G as [|? ? [_ CF] _]; subst. now apply CF.
        * apply same_in_mrg.
      + destruct l; [|discriminate]. inversion HS; subst. destruct Hu.
    - exfalso. apply (Hnd x). intros y. split.
      + pose proof (at_strat c Hwf K data HR _ _ _ k m (ofVec x) Hr1 Hr2 HA Hx) as HF.
        apply fcT_safe in HF; auto. rewrite <- HF. rewrite (safeE_in c HSe _ (ofVec x) y (ofVec x)).
        apply trans_eq. intros z. unfold mrg. now destruct (isOut c z).
      + destruct (trans (safetySys c) (ofVec (c_vals nd)) (mrg c (ofVec x) y)) eqn:E'; auto.
        assert (trans (bexists (varCubePostOutput c) (safetySys c)) (ofVec (c_vals nd)) (ofVec x) = true); [|congruence].
        apply exPostOut_trans; eauto.
  Qed.

  (** ** Edges *)
  Lemma edge_full v u : cedge out v u -> c_succ u <> None -> trans (safetySys c) (cval v) (cval u) = true ->
    trans (strat (fst (c_rank v)) (snd (c_rank v))) (cval v) (cval u) = true /\
    c_rank u = nextR c (c_rank v) (c_vals v) (c_vals u).
  Proof.
    intros (Hv & Hu & l & Es & Hn) Hs HSafe. destruct (c_succ u) as [l'|] eqn:Eu; [|now elim Hs].
    destruct (node_full u l' Hu Eu) as [En' _]. destruct (node_full v l Hv Es) as [En HM].
    destruct (item_ok _ _ _ _ En') as [Lu Hru].
    destruct HM as [(x & m & Lx & HD & -> & Em)|(Hnd & x & U & (HS & HU & _) & H1 & HX)].
    - destruct Hn as [->|[]]. rewrite nth_error_map, En' in Em. apply Some_inj in Em. symmetry in Em.
      change (ikey c (true, (x, c_rank v)) = ikey c (false, (c_vals u, c_rank u))) in Em.
      apply key_dead in Em; auto. destruct Em as (-> & _ & HO). exfalso.
      destruct (HD (ofVec (c_vals u))) as [_ H].
      assert (trans (safetySys c) (cval v) (cval u) = false); [|congruence]. rewrite <- H. apply safeS_ext; [now intros k _|].
      intros k Hk'. unfold mrg, cval. cbn. rewrite HO; auto.
    - destruct (Forall2_in_r _ _ _ _ HS Hn) as (u' & Hu' & Ek). rewrite nth_error_map, En' in Ek.
      rewrite Forall_forall in HU. apply Some_inj in Ek.
      change (ikey c (false, (c_vals u, c_rank u)) = ikey c (false, (u', nextR c (c_rank v) (c_vals v) u'))) in Ek.
      apply key_full in Ek; auto. destruct Ek as [Ev Er].
      destruct (proj1 (HX (ofVec u'))) as (H2 & _); [exists u'; split; auto; now intros k _|].
      rewrite Er, Ev. split; auto. unfold cval at 2. now rewrite Ev.
  Qed.

  Lemma mrg_merge_g x y : merge g x y = mrg c x y.
  Proof. reflexivity. Qed.

  Lemma dead_deadlock v u : deadAt c v u <-> deadlock g (ofVec v) (ofVec u).
  Proof.
    assert (E : forall y, trans (safetyEnv c) (ofVec v) (mrg c (ofVec u) y) = trans (safetyEnv c) (ofVec v) (ofVec u)).
    { intros y. rewrite (safeE_in c HSe _ (ofVec u) y (ofVec u)). apply trans_eq. intros z. unfold mrg. now destruct (isOut c z). }
    split.
    - intros H. split; [|intros y; apply H]. cbn. rewrite <- (E (ofVec u)). apply H.
    - intros [H1 H2] y. split; [rewrite E; exact H1|apply H2].
  Qed.

  Lemma deadlock_vec v x : deadlock g (ofVec v) x -> deadAt c v (toVec N x).
  Proof.
    intros [H1 H2]. apply dead_deadlock. split.
    - cbn in *. rewrite <- H1. apply (trans_ext c Hk); [now apply (isPrePostIn_isAny c)|now intros k _|].
      intros k L. now apply ofVec_toVec.
    - intros y. rewrite <- (H2 y). cbn. apply safeS_ext; [now intros k _|].
      intros k L. unfold merge. cbn. destruct (isOut c k); auto. now apply ofVec_toVec.
  Qed.

  Lemma inVals_inputs u : inVals c u = inputs_of g N (ofVec u).
  Proof. reflexivity. Qed.

  (** Every successor number is the number of a printed state. *)
  Lemma succ_printed nd l m : In nd out -> c_succ nd = Some l -> In m l -> exists u, In u out /\ c_num u = m.
  Proof.
    intros Hin Es Hm. destruct (node_full nd l Hin Es) as [_ HM].
    assert (HI : nth_error (map (ikey c) I) m <> None).
    { destruct HM as [(x & m' & Lx & HD & -> & Em)|(Hnd & x & U & (HS & _) & _)].
      - destruct Hm as [->|[]]. congruence.
      - destruct (Forall2_in_r _ _ _ _ HS Hm) as (u' & Hu' & Ek). congruence. }
    rewrite nth_error_map in HI. destruct (nth_error I m) as [it|] eqn:E; [|now elim HI].
    now apply (node_of m it).
  Qed.

  Lemma terminal u : In u out -> c_succ u = None -> exists v x,
    In v out /\ c_rank v = c_rank u /\ c_succ v = Some [c_num u] /\ deadlock g (cval v) x /\ c_vals u = inputs_of g N x.
  Proof.
    intros Hin E. destruct (node_dead u Hin E) as (x & En & Ev).
    destruct (cr_dead _ _ _ _ _ _ HC _ _ _ En) as (v & H1 & H2 & H3 & H4). exists v, (ofVec x).
    rewrite dead_deadlock in H3. auto.
  Qed.

  (** ** With at least one output *)
  Section OUT.
    Hypothesis Hout : exists k, k < N /\ isOut c k = true.

    Lemma key_no u r v r' : length u = N -> length v = N -> ikey c (true, (u, r)) <> ikey c (false, (v, r')).
    Proof.
      intros L L' E. apply key_dead in E; auto. destruct E as (_ & _ & H). destruct Hout as (k & H1 & H2).
      rewrite H in H2; auto. discriminate.
    Qed.

    Lemma edges nd l : In nd out -> c_succ nd = Some l ->
      (exists x u, deadlock g (cval nd) x /\ In u out /\ l = [c_num u] /\ c_succ u = None /\
         c_rank u = c_rank nd /\ c_vals u = inputs_of g N x) \/
      ((forall x, ~ deadlock g (cval nd) x) /\ exists x, g_safeE g (cval nd) x = true /\
         (forall u, In u out -> In (c_num u) l -> c_succ u <> None /\ length (c_vals u) = N /\
            same_in g N (cval u) x /\ g_safeS g (cval nd) (cval u) = true) /\
         (forall y, g_safeS g (cval nd) (merge g x y) = true ->
            exists u, In u out /\ In (c_num u) l /\ same N (cval u) (merge g x y))).
    Proof.
      intros Hin Es. destruct (node_full nd l Hin Es) as [En HM]. destruct (item_ok _ _ _ _ En) as [Ln [Hr1 Hr2]].
      destruct HM as [(x & m & Lx & HD & -> & Em)|(Hnd & x & U & (HS & HU & ND) & H1 & HX)].
      - left. rewrite nth_error_map in Em. destruct (nth_error I m) as [[d [u r]]|] eqn:E; [|discriminate].
        apply Some_inj in Em. destruct (item_ok _ _ _ _ E) as [Lu _].
        destruct d; [|symmetry in Em; apply key_no in Em; [contradiction|auto|auto]].
        destruct (node_of _ _ E) as (nu & Hu & Eu). exists (ofVec x), nu.
        destruct (node_item nu Hu) as (d & v & r' & En' & Er' & H'). rewrite Eu, E in En'. injection En' as <- <- <-.
        destruct H' as [H'1 H'2]. split; [now apply dead_deadlock|]. split; auto. rewrite Eu. split; auto. split; auto.
        injection Em as Em1 Em2. split; [congruence|]. rewrite H'2.
        assert (S : same_in g N (ofVec u) (ofVec x)).
        { apply (trans_inOf c Hwf x (ofVec u) (ofVec u)). rewrite <- Em1. apply (trans_inOf c Hwf). now intros k _. }
        unfold inVals, inputs_of. apply map_ext_in. intros k Hk'. apply filter_In in Hk'. destruct Hk' as [K1 K2].
        apply in_seq in K1. apply negb_true_iff in K2. apply S; [lia|auto].
      - right. split; [intros y Hy; now apply deadlock_vec, Hnd in Hy|].
        destruct (full_at _ _ _ En) as [(k & m & HA) _].
        destruct (at_move c Hwf K data HR _ _ _ k m Hr1 Hr2 HA) as (t & HT).
        assert (Hx := H1 (ex_intro _ t HT)). exists (ofVec x). split; [|split].
        + pose proof (at_strat c Hwf K data HR _ _ _ k m (ofVec x) Hr1 Hr2 HA Hx) as HF. now apply fcT_safe in HF.
        + intros u Hu Hn. destruct (Forall2_in_r _ _ _ _ HS Hn) as (u' & Hu' & Ek). rewrite Forall_forall in HU.
          rewrite nth_error_map in Ek. destruct (node_item u Hu) as (d & v & r' & En' & Er' & H').
          destruct (item_ok _ _ _ _ En') as [Lv _]. rewrite En' in Ek. apply Some_inj in Ek. destruct d.
          * exfalso. unfold fkey in Ek. change (ikey c (true, (v, r')) = ikey c (false, (u', nextR c (c_rank nd) (c_vals nd) u'))) in Ek.
            apply key_no in Ek; auto.
          * change (ikey c (false, (v, r')) = ikey c (false, (u', nextR c (c_rank nd) (c_vals nd) u'))) in Ek.
            apply key_full in Ek; auto. destruct Ek as [-> _]. destruct H' as (Hv & succs & Es' & _).
            destruct (proj1 (HX (ofVec u'))) as (_ & G2 & G3); [exists u'; split; auto; now intros z _|].
            unfold cval at 1 3. rewrite Hv. rewrite Es'. repeat split; auto. discriminate.
        + intros y Hy. destruct (proj2 (HX (merge g (ofVec x) y))) as (u' & Hu' & Su).
          * split; [|split; auto].
            -- apply (strat_first c Hwf K data HR) in Hx; auto. destruct Hx as (P & F & Q & EP & HF & HP).
               apply (strat_first c Hwf K data HR); auto. exists P, F, Q. split; auto. split; auto.
               pose proof (D_good c K data HR _ _ Hr1 Hr2) as G. rewrite EP in G. apply Forall_app in G.
               destruct G as [_ G]. inversion G as [|? ? [_ CF] _]; subst. now apply CF.
            -- apply same_in_mrg.
          * destruct (Forall2_in_l _ _ _ _ HS Hu') as (n & Hn & Ek). rewrite Forall_forall in HU.
            rewrite nth_error_map in Ek. destruct (nth_error I n) as [it|] eqn:E; [|discriminate].
            destruct (node_of _ _ E) as (nu & Hu & Eu). apply Some_inj in Ek. exists nu. split; auto. rewrite Eu. split; auto.
            destruct (node_item nu Hu) as (d & v & r' & En' & Er' & H'). rewrite Eu, E in En'. injection En' as ->.
            destruct (item_ok _ _ _ _ E) as [Lv _]. destruct d.
            -- exfalso. change (ikey c (true, (v, r')) = ikey c (false, (u', nextR c (c_rank nd) (c_vals nd) u'))) in Ek.
               apply key_no in Ek; auto.
            -- change (ikey c (false, (v, r')) = ikey c (false, (u', nextR c (c_rank nd) (c_vals nd) u'))) in Ek.
               apply key_full in Ek; auto. destruct Ek as [-> _]. destruct H' as (Hv & _).
               unfold cval. rewrite Hv. now apply same_sym.
    Qed.

    (** Infinite paths. *)
    Variable p : nat -> cnode.
    Hypothesis HP : cpath out p.

    Lemma path_facts n : rankOK c (c_rank (p n)) /\
      (exists k m, at_ (fst (c_rank (p n))) (snd (c_rank (p n))) (ofVec (c_vals (p n))) k m) /\
      trans (strat (fst (c_rank (p n))) (snd (c_rank (p n)))) (ofVec (c_vals (p n))) (ofVec (c_vals (p (S n)))) = true /\
      trans (safetySys c) (ofVec (c_vals (p n))) (ofVec (c_vals (p (S n)))) = true /\
      c_rank (p (S n)) = nextR c (c_rank (p n)) (c_vals (p n)) (c_vals (p (S n))).
    Proof.
      destruct (HP n) as (Hv & Hu & l & Es & Hn). destruct (HP (S n)) as (_ & _ & l' & Es' & _).
      destruct (node_full _ _ Hv Es) as [En _]. destruct (full_at _ _ _ En) as [HA _].
      destruct (node_shape _ Hv) as [H1 _].
      assert (HS : trans (safetySys c) (cval (p n)) (cval (p (S n))) = true).
      { destruct (edges _ _ Hv Es) as [(x & u & _ & Hu' & -> & Eu & _)|(_ & x & _ & H2 & _)].
        - destruct Hn as [Hn|[]]. apply node_unique in Hn; auto. subst u. congruence.
        - now apply (H2 (p (S n))). }
      destruct (edge_full (p n) (p (S n)) (HP n)) as [H2 H3]; [congruence|exact HS|].
      auto.
    Qed.
  End OUT.
End NODES.

Section START.
  Variable c : ctx.
  Hypothesis Hwf : wf c.
  Local Notation N := (nvars c).
  Local Notation g := (game_of c).

  (** The printed states of an unrealizable specification. *)
  Lemma counter_out robotics out : computeCounterstrategy robotics c = Some (Unrealizable, out) ->
    exists K data V I, stepZ c (iterZ c K) = iterZ c K /\ rounds c (S K) data /\
      computeCounter c = Some (bnot (iterZ c K), data) /\
      cresult c (positionalC c data) V I (fulls I) out /\
      Forall (fun e => snd e = initR c (positionalC c data) (fst e) /\ pos (iterZ c K) (ofVec (fst e)) = false) V /\
      Forall (fun e => pos (initEnv c) (ofVec (fst e)) = true /\ pos (initSys c) (ofVec (fst e)) = true) V /\
      (forall s, pos (iterZ c K) s = false -> pos (initEnv c) s = true -> pos (initSys c) s = true ->
         exists r, In (toVec N s, r) V) /\
      verdictOf (if robotics then initialCheckRobotics c (iterZ c K) else initialCheck c (iterZ c K)) = Unrealizable.
  Proof.
    intros H. destruct (counter_spec c Hwf) as (K & data & E & HK & HR). unfold computeCounterstrategy in H.
    rewrite E in H. rewrite verdict_dual, check_dual, bnot_not in H.
    set (vd := verdictOf _) in H. destruct vd eqn:Ev; try discriminate. unfold extractC in H.
    destruct (initLoopC_spec c Hwf (positionalC c data)) with (f := band (band (bnot (iterZ c K)) (initEnv c)) (initSys c))
      as (V & E1 & HG & HV & HA).
    { apply dep_and; [apply dep_and|now apply wf_initSys].
      - apply dep_not. now apply pre_iterZ.
      - apply (preIn_pre c). now apply wf_initEnv. }
    rewrite E1 in H.
    destruct (mainLoopC_spec c Hwf (positionalC c data)) with (V := V) as (I & out' & E2 & HC); auto.
    { intros i j Hi Hj. now apply (any_strat c Hwf K data HR). }
    rewrite E2 in H. injection H as <-. exists K, data, V, I. split; [auto|]. split; [auto|]. split; [auto|]. split; [auto|].
    rewrite !Forall_forall in *. split; [|split; [|split]].
    - intros e He. destruct (HV e He) as [H1 H2]. rewrite !pos_and, pos_not, !andb_true_iff, negb_true_iff in H2. tauto.
    - intros e He. destruct (HV e He) as [H1 H2]. rewrite !pos_and, pos_not, !andb_true_iff, negb_true_iff in H2. tauto.
    - intros s H1 H2 H3. eexists. apply HA. rewrite !pos_and, pos_not, H1, H2, H3. reflexivity.
    - destruct robotics; exact Ev.
  Qed.
End START.
