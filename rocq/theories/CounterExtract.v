(** * Extraction of explicit counterstrategies: the work list *)

From Coq Require Import Arith List Bool Lia.
From Verif Require Import BDD Loop Spec VarTypes Synth Sem FixBase SynthProofs AutSpec Explicit DetProofs ExplicitProofs
  CounterSpec Counter CounterData.
Import ListNotations.

Local Arguments isOut : simpl never.

Lemma NoDup_snoc {A} (l : list A) a : NoDup l -> ~ In a l -> NoDup (l ++ [a]).
Proof.
  intros H Hn. apply NoDup_rev in H. rewrite <- (rev_involutive (l ++ _)). apply NoDup_rev.
  rewrite rev_app_distr. cbn. constructor; auto. now rewrite <- in_rev.
Qed.

Section CEXTRACT.
  Variable c : ctx.
  Hypothesis Hwf : wf c.
  Let Hk := wf_kinds c Hwf.
  Let HSe := wf_safetyEnv c Hwf.
  Let HSs := wf_safetySys c Hwf.
  Local Notation N := (nvars c).
  Local Notation MA := (length (livenessAssumptions c)).
  Local Notation MG := (length (livenessGuarantees c)).
  Local Notation pre := (dep (isPreV c)).
  Local Notation any := (dep (isAnyV c)).
  Local Notation rank := (nat * nat)%type.
  Local Notation vkey := (list bool * rank)%type.
  Local Notation item := (bool * vkey)%type.
  Let MApos : 0 < MA.
  Proof. pose proof (wf_asm_ne c Hwf). destruct (livenessAssumptions c); [now elim H|cbn; lia]. Qed.
  Let MGpos : 0 < MG.
  Proof. pose proof (wf_gua_ne c Hwf). destruct (livenessGuarantees c); [now elim H|cbn; lia]. Qed.

  Local Lemma pre_any f : pre f -> any f.
  Proof. apply isPre_isAny. Qed.
  Hint Resolve pre_any dep_and dep_or dep_not dep_imp dep_true dep_false pre_ptOf : core.

  (** ** Points that fix the inputs only *)
  Definition inOf (l : list bool) : BF :=
    fold_left (fun f k => band f (lit l k)) (filter (fun k => negb (isOut c k)) (seq 0 N)) btrue.

  Lemma eval_inOf l e : eval (inOf l) e = true <-> forall k, k < N -> isOut c k = false -> e (2 * k) = nth k l false.
  Proof.
    unfold inOf. rewrite fold_lit, eval_true. split.
    - intros [_ H] k Hk' O. apply H. apply filter_In. rewrite O. split; auto. apply in_seq. lia.
    - intros H. split; auto. intros k Hk'. apply filter_In in Hk'. destruct Hk' as [Hk' O].
      apply in_seq in Hk'. apply H; [lia|]. now apply negb_true_iff.
  Qed.

  Lemma trans_inOf l s t : trans (inOf l) s t = true <-> same_in (game_of c) N s (ofVec l).
  Proof.
    unfold trans. rewrite eval_inOf. unfold same_in, ofVec. cbn [g_out game_of].
    split; intros H k Hk' O; specialize (H k Hk' O); now rewrite ?tv_even in *.
  Qed.

  Lemma pre_inOf l : pre (inOf l).
  Proof.
    intros e e' H. apply eq_true_iff_eq. rewrite !eval_inOf.
    assert (G : forall k, k < N -> e (2 * k) = e' (2 * k)).
    { intros k Hk'. apply H. split; [rewrite (nvars_spec c Hk); lia|apply even_double]. }
    split; intros H' k Hk' O; rewrite <- (H' k Hk' O); [symmetry|]; auto.
  Qed.

  (** ** Semantics of quantifiers and of determinization *)
  Lemma same_in_mrg t y : same_in (game_of c) N (mrg c t y) t.
  Proof. intros k _ O. unfold mrg. cbn in O. now rewrite O. Qed.

  Lemma same_in_sym s t : same_in (game_of c) N s t -> same_in (game_of c) N t s.
  Proof. intros H k Hk' O. symmetry. auto. Qed.

  Lemma same_in_trans s t u : same_in (game_of c) N s t -> same_in (game_of c) N t u -> same_in (game_of c) N s u.
  Proof. intros H H' k Hk' O. rewrite H, H'; auto. Qed.

  Lemma same_same_in s t : same N s t -> same_in (game_of c) N s t.
  Proof. intros H k Hk' _. auto. Qed.

  Lemma mrg_same_in x t : same_in (game_of c) N t x -> same N (mrg c x t) t.
  Proof. intros H k Hk'. unfold mrg. destruct (isOut c k) eqn:O; auto. symmetry. now apply H. Qed.

  Lemma e_split f e : eval f e = trans f (fun k => e (2 * k)) (fun k => e (2 * k + 1)).
  Proof. apply eval_ext. intros x. destruct (even_cases x) as [[k ->]|[k ->]]; now rewrite ?tv_even, ?tv_odd. Qed.

  Lemma exPost_trans f s t : any f ->
    trans (bexists (varCubePost c) f) s t = true <-> exists u, trans f s u = true.
  Proof.
    intros Hf. unfold trans at 1. rewrite eval_exists. split.
    - intros (e & Ha & He). rewrite e_split in He. exists (fun k => e (2 * k + 1)). rewrite <- He.
      apply (trans_ext c Hk); auto. intros k Hk'. rewrite <- Ha; [now rewrite tv_even|].
      intros Hin. apply (in_cubePost c Hk) in Hin. destruct Hin as (m & E & _). lia.
    - intros (u & H). exists (tv s (fun k => if k <? N then u k else t k)). split.
      + intros v Hv. destruct (even_cases v) as [[k ->]|[k ->]]; rewrite ?tv_even, ?tv_odd; auto.
        destruct (Nat.ltb_spec k N) as [L|L]; auto. elim Hv. apply (in_cubePost c Hk). eauto.
      + rewrite <- H. apply (trans_ext c Hk); auto. intros k Hk'. now apply Nat.ltb_lt in Hk' as ->.
  Qed.

  (** Choosing the next inputs. *)
  Lemma determinize_in f : any f -> isFalse f = false ->
    exists s0 x, length x = N /\ trans f s0 (ofVec x) = true /\
      forall s t, trans (determinize f (postInputVars c)) s t = true <->
        trans f s t = true /\ same_in (game_of c) N t (ofVec x).
  Proof.
    intros Hf Hne. destruct (determinize_spec (postInputVars c) f Hne) as (e0 & H0 & HE).
    set (t0 := fun k => e0 (2 * k + 1)).
    exists (fun k => e0 (2 * k)), (toVec N t0). split; [apply toVec_length|]. split.
    - rewrite e_split in H0. rewrite <- H0. apply (trans_ext c Hk); auto. apply same_toVec.
    - intros s t. unfold trans at 1. rewrite HE, andb_true_iff, agreeOn_iff. change (eval f (tv s t)) with (trans f s t).
      split; intros [H1 H2]; split; auto.
      + intros k Hk' O. rewrite same_toVec by auto. unfold t0. rewrite <- (H2 (2 * k + 1)); [now rewrite tv_odd|].
        apply (in_PostInput c Hk). exists k. auto.
      + intros v Hv. apply (in_PostInput c Hk) in Hv. destruct Hv as (k & -> & Hk' & O).
        rewrite tv_odd, H2 by auto. now rewrite same_toVec.
  Qed.

  (** Choosing the next outputs when everything else is fixed. *)
  Lemma determinize_out f v x : any f ->
    (forall s t, trans f s t = true -> same N s (ofVec v) /\ same_in (game_of c) N t x) -> isFalse f = false ->
    exists u, length u = N /\ trans f (ofVec v) (ofVec u) = true /\
      forall s t, trans (determinize f (postOutputVars c)) s t = true <-> same N s (ofVec v) /\ same N t (ofVec u).
  Proof.
    intros Hf HP Hne. destruct (determinize_spec (postOutputVars c) f Hne) as (e0 & H0 & HE).
    rewrite e_split in H0.
    set (s0 := fun k => e0 (2 * k)) in *. set (t0 := fun k => e0 (2 * k + 1)) in *.
    destruct (HP _ _ H0) as [S0 T0].
    assert (Hst : forall s t, same N s (ofVec v) -> same N t t0 -> trans f s t = true).
    { intros s t Hs Ht. rewrite <- H0. apply (trans_ext c Hk); auto. intros k Hk'. rewrite Hs, S0; auto. }
    exists (toVec N t0). split; [apply toVec_length|]. split.
    - apply Hst; [now intros k _|apply same_toVec].
    - intros s t. unfold trans at 1. rewrite HE, andb_true_iff, agreeOn_iff. change (eval f (tv s t)) with (trans f s t). split.
      + intros [H1 H2]. destruct (HP s t H1) as [P1 P2]. split; auto.
        apply same_trans with t0; [|apply same_sym, same_toVec].
        intros k Hk'. destruct (isOut c k) eqn:O.
        * unfold t0. rewrite <- (H2 (2 * k + 1)); [now rewrite tv_odd|]. apply (in_PostOutput c Hk). exists k. auto.
        * rewrite P2 by auto. symmetry. now apply T0.
      + intros [H1 H2]. assert (S : same N t t0) by (eapply same_trans; [exact H2|apply same_toVec]).
        split; [now apply Hst|]. intros w Hw. apply (in_PostOutput c Hk) in Hw.
        destruct Hw as (k & -> & Hk' & _). rewrite tv_odd. now apply S.
  Qed.

  Lemma next_in f l u : any f ->
    (forall s t, trans f s t = true <-> same N s (ofVec l) /\ same N t (ofVec u)) ->
    swapPrePost c (bexists (varCubePre c) (bexists (varCubePostOutput c) f)) = inOf u.
  Proof.
    intros Hf H. set (g := bexists (varCubePostOutput c) f).
    assert (Hg : forall s t, trans g s t = true <-> same N s (ofVec l) /\ same_in (game_of c) N t (ofVec u)).
    { intros s t. unfold g. rewrite exPostOut_trans by auto. split.
      - intros (y & E). apply H in E. destruct E as [E1 E2]. split; auto.
        eapply same_in_trans; [apply same_in_sym, (same_in_mrg t y)|]. now apply same_same_in.
      - intros [E1 E2]. exists (ofVec u). apply H. split; auto. now apply mrg_same_in, same_in_sym. }
    assert (Ag : any g) by (apply (isPrePostIn_isAny c), dep_exPostOut; auto).
    assert (HX : forall s t, trans (bexists (varCubePre c) g) s t = true <-> same_in (game_of c) N t (ofVec u)).
    { intros s t. unfold trans. rewrite eval_exists. split.
      - intros (e & Ha & He). rewrite e_split in He. apply Hg in He. destruct He as [_ E].
        intros k Hk' O. rewrite <- E by auto. rewrite <- Ha; [now rewrite tv_odd|].
        intros Hin. apply (in_cubePre c Hk) in Hin. destruct Hin as (m & E' & _). lia.
      - intros Ht. exists (tv (fun k => if k <? N then ofVec l k else s k) t). split.
        + intros v Hv. destruct (even_cases v) as [[k ->]|[k ->]]; rewrite ?tv_even, ?tv_odd; auto.
          destruct (Nat.ltb_spec k N) as [L|L]; auto. elim Hv. apply (in_cubePre c Hk). eauto.
        + apply Hg. split; auto. intros k Hk'. now apply Nat.ltb_lt in Hk' as ->. }
    assert (HA : any (bexists (varCubePre c) g)) by (eapply dep_exists; [exact Ag|auto]).
    apply trans_inj. intros s t. apply eq_true_iff_eq. rewrite trans_swap, HX, trans_inOf by auto. tauto.
  Qed.

  (** ** Skipping satisfied liveness properties *)
  Definition testC (lives : list BF) (v u : list bool) (i : nat) : bool :=
    trans (nth i lives bfalse) (ofVec v) (ofVec u).
  Definition nextC (lives : list BF) (i : nat) (v u : list bool) : nat :=
    match jumpS (S (length lives)) (length lives) (testC lives v u) i i true with Some n => n | None => 0 end.

  Lemma nextC_spec lives i v u : i < length lives -> exists d, d <= length lives /\
    jumpS (S (length lives)) (length lives) (testC lives v u) i i true = Some (nextC lives i v u) /\
    nextC lives i v u = (i + d) mod length lives /\
    (forall e, e < d -> testC lives v u ((i + e) mod length lives) = true) /\
    (d < length lives -> testC lives v u ((i + d) mod length lives) = false).
  Proof.
    intros Hj. destruct (jumpS_spec (length lives) (testC lives v u) i Hj (S (length lives)) 0 eq_refl) as (d & Hd & E & H1 & H2); [lia|lia|].
    rewrite Nat.add_0_r, (Nat.mod_small i _ Hj) in E. cbn [Nat.eqb] in E.
    exists d. unfold nextC. rewrite E. repeat split; auto. lia.
  Qed.

  Lemma nextC_lt lives i v u : i < length lives -> nextC lives i v u < length lives.
  Proof.
    intros Hj. destruct (nextC_spec lives i v u Hj) as (d & _ & _ & -> & _). apply Nat.mod_upper_bound. lia.
  Qed.

  Lemma jumpC_S lives comb v u : Forall any lives ->
    (forall s t, trans comb s t = true <-> same N s (ofVec v) /\ same N t (ofVec u)) ->
    forall i, i < length lives ->
    jumpC (S (length lives)) lives i i true comb = Some (nextC lives i v u).
  Proof.
    intros HL HD i Hi.
    assert (T : forall n, negb (isFalse (band (nth n lives bfalse) comb)) = testC lives v u n).
    { intros n. assert (An : any (nth n lives bfalse)).
      { destruct (nth_in_or_default n lives bfalse) as [H| ->]; auto. rewrite Forall_forall in HL. auto. }
      unfold testC. destruct (trans (nth n lives bfalse) (ofVec v) (ofVec u)) eqn:E.
      - apply negb_true_iff, isFalse_false. exists (tv (ofVec v) (ofVec u)). rewrite eval_and.
        apply andb_true_iff. split; [exact E|]. apply (HD (ofVec v) (ofVec u)). split; now intros k _.
      - apply negb_false_iff, isFalse_spec. intros e. rewrite eval_and.
        destruct (eval comb e) eqn:Ec; [|apply andb_false_r]. rewrite andb_true_r.
        rewrite e_split in Ec. apply HD in Ec. destruct Ec as [E1 E2]. rewrite e_split, <- E.
        apply (trans_ext c Hk); auto. }
    assert (G : forall fuel next first, jumpC fuel lives i next first comb =
              jumpS fuel (length lives) (testC lives v u) i next first).
    { induction fuel as [|fuel IH]; intros next first; cbn [jumpC jumpS]; auto.
      rewrite T. destruct (_ && _); auto. }
    rewrite G. destruct (nextC_spec lives i v u Hi) as (d & _ & -> & _). reflexivity.
  Qed.

  Definition nextR (r : rank) (v u : list bool) : rank :=
    (nextC (livenessAssumptions c) (fst r) v u, nextC (livenessGuarantees c) (snd r) v u).
  Definition rankOK (r : rank) : Prop := fst r < MA /\ snd r < MG.

  Lemma nextR_ok r v u : rankOK r -> rankOK (nextR r v u).
  Proof. intros [H1 H2]. split; apply nextC_lt; auto. Qed.

  (** ** The lookup table *)
  Definition fkey (k : vkey) : ckey := (ptOf c (fst k), snd k).
  Definition ikey (it : item) : ckey :=
    if fst it then (inOf (fst (snd it)), snd (snd it)) else fkey (snd it).
  Definition cworkOf (todo : list vkey) (I : list item) : cwork :=
    mkCWork (combine (map ikey I) (seq 0 (length I))) (map (fun it => fst (ikey it)) I) (map fkey todo).
  Definition goodI (I : list item) : Prop :=
    NoDup (map ikey I) /\ Forall (fun it => length (fst (snd it)) = N /\ rankOK (snd (snd it))) I.

  Lemma ckey_eqb_eq a b : ckey_eqb a b = true <-> a = b.
  Proof.
    destruct a as [f [i j]], b as [g [i' j']]. unfold ckey_eqb. cbn.
    rewrite !andb_true_iff, bf_eqb_eq, !Nat.eqb_eq. split; [intros (-> & -> & ->); auto|]. injection 1. auto.
  Qed.

  Lemma find_combineC K : forall k0 ky,
    match find (fun e => ckey_eqb (fst e) ky) (combine K (seq k0 (length K))) with
    | Some e => exists n, snd e = k0 + n /\ nth_error K n = Some ky
    | None => ~ In ky K
    end.
  Proof.
    induction K as [|a K IH]; intros k0 ky; cbn [combine seq length find]; auto.
    cbn [fst]. destruct (ckey_eqb a ky) eqn:E.
    - apply ckey_eqb_eq in E. subst a. exists 0. cbn. split; auto.
    - specialize (IH (S k0) ky). destruct (find _ _) as [e|].
      + destruct IH as (n & E1 & E2). exists (S n). cbn. split; auto. lia.
      + intros [->|H]; auto. assert (ckey_eqb ky ky = true) by now apply ckey_eqb_eq. congruence.
  Qed.

  Lemma clookup_spec todo I ky :
    match clookup (ctableOf (cworkOf todo I)) ky with
    | Some n => nth_error (map ikey I) n = Some ky
    | None => ~ In ky (map ikey I)
    end.
  Proof.
    unfold clookup. cbn [cworkOf ctableOf].
    pose proof (find_combineC (map ikey I) 0 ky) as H. rewrite map_length in H.
    destruct (find _ _) as [e|]; auto. destruct H as (n & -> & H). exact H.
  Qed.

  Lemma clookup_nth todo I n it : goodI I -> nth_error I n = Some it ->
    clookup (ctableOf (cworkOf todo I)) (ikey it) = Some n.
  Proof.
    intros [G _] E. pose proof (clookup_spec todo I (ikey it)) as H.
    assert (En : nth_error (map ikey I) n = Some (ikey it)) by now rewrite nth_error_map, E.
    destruct (clookup _ _) as [n'|].
    - f_equal. rewrite NoDup_nth_error in G. apply G; [|congruence]. apply nth_error_Some. congruence.
    - elim H. now apply nth_error_In in En.
  Qed.

  Lemma cregister_workOf todo I k :
    cregister (cworkOf todo I) (fkey k) = cworkOf (todo ++ [k]) (I ++ [(false, k)]).
  Proof.
    unfold cregister, cworkOf. cbn [ctableOf cbfsOf ctodoOf].
    rewrite !map_app, !app_length, map_length, seq_app, combine_app by now rewrite map_length, seq_length. reflexivity.
  Qed.

  Lemma cregisterDead_workOf todo I k :
    cregisterDead (cworkOf todo I) (ikey (true, k)) = cworkOf todo (I ++ [(true, k)]).
  Proof.
    unfold cregisterDead, cworkOf. cbn [ctableOf cbfsOf ctodoOf].
    rewrite !map_app, !app_length, map_length, seq_app, combine_app by now rewrite map_length, seq_length. reflexivity.
  Qed.

  Lemma goodI_snoc I it : goodI I -> length (fst (snd it)) = N -> rankOK (snd (snd it)) ->
    ~ In (ikey it) (map ikey I) -> goodI (I ++ [it]).
  Proof.
    intros [G1 G2] Hv Hr Hn. split.
    - rewrite map_app. now apply NoDup_snoc.
    - apply Forall_app. split; auto.
  Qed.

  (** The states that are not deadlocks. *)
  Definition fulls (I : list item) : list vkey := map snd (filter (fun it => negb (fst it)) I).

  Lemma fulls_app I I' : fulls (I ++ I') = fulls I ++ fulls I'.
  Proof. unfold fulls. now rewrite filter_app, map_app. Qed.

  Lemma in_fulls I k : In k (fulls I) <-> In (false, k) I.
  Proof.
    unfold fulls. rewrite in_map_iff. split.
    - intros ([d k'] & <- & H). apply filter_In in H. destruct H as [H E]. cbn in *. now destruct d.
    - intros H. exists (false, k). split; auto. apply filter_In. auto.
  Qed.

  Lemma fulls_NoDup I : goodI I -> NoDup (fulls I).
  Proof.
    intros [G _]. unfold fulls. induction I as [|[d k] I IH]; cbn; [constructor|].
    inversion G as [|? ? Hn G']; subst. destruct d; cbn; auto. constructor; auto.
    intros Hin. apply Hn. apply in_map_iff in Hin. destruct Hin as ([d k'] & E & Hin). cbn in E. subst k'.
    apply filter_In in Hin. destruct Hin as [Hin E]. destruct d; [discriminate|].
    now apply (in_map ikey) in Hin.
  Qed.

  Lemma fulls_bound I : goodI I -> length (fulls I) <= 2 ^ N * (MA * MG).
  Proof.
    intros G. replace (2 ^ N * (MA * MG)) with (length (list_prod (vectors N) (list_prod (seq 0 MA) (seq 0 MG)))).
    - apply NoDup_incl_length; [now apply fulls_NoDup|]. intros [v [i j]] Hin. apply in_fulls in Hin.
      destruct G as [_ G]. rewrite Forall_forall in G. destruct (G _ Hin) as [E1 [E2 E3]]. cbn in *.
      apply in_prod; [now apply in_vectors|]. apply in_prod; apply in_seq; lia.
    - rewrite !prod_length, vectors_length, !seq_length. reflexivity.
  Qed.

  (** ** The positional strategies *)
  Definition first_in (E : list BF) (s t : state) : Prop :=
    exists p F q, E = p ++ F :: q /\ trans F s t = true /\ ~ covE p s.

  Lemma first_in_snoc E F s t : first_in (E ++ [F]) s t <-> first_in E s t \/ (trans F s t = true /\ ~ covE E s).
  Proof.
    split.
    - intros (p & F' & q & Eq & H1 & H2). destruct q as [|f q _] using rev_ind.
      + apply app_inj_tail in Eq. destruct Eq as [-> ->]. auto.
      + rewrite app_comm_cons, app_assoc in Eq. apply app_inj_tail in Eq. destruct Eq as [-> _].
        left. exists p, F', q. auto.
    - intros [(p & F' & q & -> & H1 & H2)|[H1 H2]].
      + exists p, F', (q ++ [F]). split; [|auto]. now rewrite <- app_assoc.
      + exists E, F, []. auto.
  Qed.

  Lemma positional_gen i j data : forall dn strategy,
    any strategy -> Forall (fun F => any F /\ closedF c F) (dataOfC i j data) ->
    (forall s t, trans strategy s t = true <-> first_in dn s t) ->
    (forall s, (exists t, trans strategy s t = true) <-> covE dn s) ->
    let r := fold_left (positionalStepC c i j) data strategy in
    any r /\ (forall s t, trans r s t = true <-> first_in (dn ++ dataOfC i j data) s t) /\
    (forall s, (exists t, trans r s t = true) <-> covE (dn ++ dataOfC i j data) s).
  Proof.
    induction data as [|[[i' j'] F] data IH]; intros dn strategy HA HF HS HC r; subst r.
    - cbn. rewrite app_nil_r. auto.
    - cbn [fold_left]. unfold positionalStepC at 2 4 6. unfold dataOfC in HF |- *. cbn [fst snd filter] in HF |- *.
      destruct (Nat.eqb i' i && Nat.eqb j' j); [|now apply IH].
      cbn [map snd] in HF |- *. fold (dataOfC i j data) in HF |- *. inversion HF as [|? ? [AF CF] HF']; subst.
      replace (dn ++ F :: dataOfC i j data) with ((dn ++ [F]) ++ dataOfC i j data) by now rewrite <- app_assoc.
      assert (HFA : forall s t, trans (bforall (varCubePostOutput c) F) s t = true <-> trans F s t = true).
      { intros s t. rewrite faPostOut_trans by auto. split.
        - intros H. rewrite <- (H t). apply trans_eq. intros k. unfold mrg. now destruct (isOut c k).
        - intros H y. now apply CF. }
      assert (HB : forall s t, trans (bexists (varCubePost c) strategy) s t = true <-> covE dn s).
      { intros s t. rewrite exPost_trans by auto. apply HC. }
      assert (HN : forall s t, trans (bor strategy (band (bforall (varCubePostOutput c) F)
          (bnot (bexists (varCubePost c) strategy)))) s t = true <->
          first_in dn s t \/ (trans F s t = true /\ ~ covE dn s)).
      { intros s t. rewrite trans_or, trans_and, trans_not, orb_true_iff, andb_true_iff, negb_true_iff, HS, HFA.
        rewrite <- (HB s t). destruct (trans (bexists (varCubePost c) strategy) s t); intuition congruence. }
      apply IH; auto.
      + apply dep_or; auto. apply dep_and; [|apply dep_not].
        * eapply dep_forall; [exact AF|auto].
        * eapply dep_exists; [exact HA|auto].
      + intros s t. rewrite HN. symmetry. apply first_in_snoc.
      + intros s. rewrite covE_app. split.
        * intros (t & H). apply HN in H. destruct H as [H|[H _]].
          -- left. apply HC. exists t. now apply HS.
          -- right. exists F, t. split; [now left|auto].
        * intros H. destruct (trans (bexists (varCubePost c) strategy) s s) eqn:E.
          -- apply HB in E. apply HC in E. destruct E as (t & E). exists t. apply HN. left. now apply HS.
          -- assert (Hn : ~ covE dn s) by (rewrite <- (HB s s); congruence).
             destruct H as [H|(F' & t & [<-|[]] & H)]; [contradiction|]. exists t. apply HN. auto.
  Qed.

  Lemma positionalC_spec data i j : Forall (fun F => any F /\ closedF c F) (dataOfC i j data) ->
    any (positionalC c data i j) /\
    (forall s t, trans (positionalC c data i j) s t = true <-> first_in (dataOfC i j data) s t) /\
    (forall s, (exists t, trans (positionalC c data i j) s t = true) <-> covE (dataOfC i j data) s).
  Proof.
    intros HF. apply (positional_gen i j data [] bfalse); auto.
    - intros s t. rewrite trans_false. split; [discriminate|]. now intros ([|] & F & q & E & _).
    - intros s. split; [intros (t & H); rewrite trans_false in H; discriminate|]. now intros (F & t & [] & _).
  Qed.

  (** ** The successors of a state *)
  Definition succsC (v : list bool) (r : rank) (I : list item) (U : list (list bool)) (succs : list nat) : Prop :=
    Forall2 (fun u n => nth_error (map ikey I) n = Some (fkey (u, nextR r v u))) U succs /\
    Forall (fun u => length u = N) U /\ NoDup U.

  Lemma succsC_ext v r I X U succs : succsC v r I U succs -> succsC v r (I ++ X) U succs.
  Proof.
    intros (H1 & H2 & H3). repeat split; auto. clear H2 H3.
    induction H1 as [|u n U succs H H1 IH]; constructor; auto.
    rewrite map_app, nth_error_app1; auto. apply nth_error_Some. congruence.
  Qed.

  Lemma same_dec u t : same N t (ofVec u) \/ ~ same N t (ofVec u).
  Proof.
    destruct (forallb (fun k => Bool.eqb (t k) (ofVec u k)) (seq 0 N)) eqn:E.
    - left. intros k Hk'. rewrite forallb_forall in E. apply eqb_true_iff, E, in_seq. lia.
    - right. intros H. assert (forallb (fun k => Bool.eqb (t k) (ofVec u k)) (seq 0 N) = true); [|congruence].
      apply forallb_forall. intros k Hi. apply in_seq in Hi. apply eqb_true_iff, H. lia.
  Qed.

  Lemma succLoopC_spec R v r x todo I : any R -> length v = N -> rankOK r -> goodI I ->
    (forall s t, trans R s t = true -> same N s (ofVec v) /\ same_in (game_of c) N t x) ->
    exists X U succs,
      run (succBodyC c r) (fpFuel c) (R, (cworkOf todo I, [])) =
        Some (cworkOf (todo ++ X) (I ++ map (pair false) X), succs) /\
      goodI (I ++ map (pair false) X) /\ succsC v r (I ++ map (pair false) X) U succs /\
      (forall t, trans (band R (safetySys c)) (ofVec v) t = true <-> exists u, In u U /\ same N t (ofVec u)) /\
      (forall n, length I <= n < length I + length X -> In n succs).
  Proof.
    intros HR Hv Hr HI HP.
    set (Inv := fun st : BF * (cwork * list nat) => exists X U,
      let '(rem, (w, succs)) := st in
      let I' := I ++ map (pair false) X in
      any rem /\ w = cworkOf (todo ++ X) I' /\ goodI I' /\ succsC v r I' U succs /\
      (forall n, length I <= n < length I + length X -> In n succs) /\
      (forall s t, trans rem s t = true <-> trans R s t = true /\ forall u, In u U -> ~ same N t (ofVec u)) /\
      forall u, In u U -> trans (band R (safetySys c)) (ofVec v) (ofVec u) = true).
    set (ms := fun st : BF * (cwork * list nat) => 2 ^ N - length (snd (snd st))).
    assert (Step : forall rem w succs, Inv (rem, (w, succs)) -> isFalse (band rem (safetySys c)) = false ->
       exists rem' w' succs', succBodyC c r (rem, (w, succs)) = Cont (rem', (w', succs')) /\
         Inv (rem', (w', succs')) /\ length succs' = S (length succs) /\ length succs' <= 2 ^ N).
    { intros rem w succs (X & U & Ar & -> & HG & HS & HN & HRem & HU) Hne.
      assert (As : any (band rem (safetySys c))) by auto.
      assert (HPr : forall s t, trans (band rem (safetySys c)) s t = true -> same N s (ofVec v) /\ same_in (game_of c) N t x).
      { intros s t H. rewrite trans_and, andb_true_iff in H. destruct H as [H _]. apply HRem in H. apply (HP s t). tauto. }
      destruct (determinize_out _ v x As HPr Hne) as (u & Hu & Hru & HD).
      set (comb := determinize (band rem (safetySys c)) (postOutputVars c)) in *.
      assert (Ac : any comb).
      { apply dep_determinize; auto. intros y Hy. apply (in_PostOutput c Hk) in Hy.
        destruct Hy as (k & -> & Hk' & _). unfold isAnyV. rewrite (nvars_spec c Hk). lia. }
      assert (HJ1 := jumpC_S (livenessAssumptions c) comb v u (wf_asm c Hwf) HD (fst r) (proj1 Hr)).
      assert (HJ2 := jumpC_S (livenessGuarantees c) comb v u (wf_gua c Hwf) HD (snd r) (proj2 Hr)).
      assert (HT : swapPrePost c (bexists (varCubePre c) comb) = ptOf c u) by (eapply next_point; eauto).
      rewrite trans_and, andb_true_iff, HRem in Hru. destruct Hru as [[Hru Hfresh] HSs'].
      assert (HR' : forall s t, trans (band rem (bnot comb)) s t = true <->
                trans R s t = true /\ forall u', In u' (U ++ [u]) -> ~ same N t (ofVec u')).
      { intros s t. rewrite trans_and, trans_not, andb_true_iff, HRem, negb_true_iff. split.
        - intros [[H1 H2] H3]. split; auto. intros u' Hin. apply in_app_iff in Hin.
          destruct Hin as [Hin|[<-|[]]]; auto. intros Hs.
          assert (trans comb s t = true); [|congruence]. apply HD. split; auto. apply (HP s t H1).
        - intros [H1 H2]. repeat split; auto.
          + intros u' Hin. apply H2. apply in_or_app. auto.
          + destruct (trans comb s t) eqn:E; auto.
            apply HD in E. destruct E as [_ E]. elim (H2 u); auto. apply in_or_app. right. now left. }
      assert (Hlen : length (U ++ [u]) = S (length succs)).
      { destruct HS as (HS & _). apply Forall2_len in HS. rewrite app_length. cbn. lia. }
      assert (HF2 : Forall (fun u => length u = N) (U ++ [u])) by (apply Forall_app; split; [apply HS|auto]).
      assert (HND : NoDup (U ++ [u])).
      { apply NoDup_snoc; [apply HS|]. intros Hin. apply (Hfresh u Hin). now intros k _. }
      assert (HB : length (U ++ [u]) <= 2 ^ N).
      { rewrite <- vectors_length. apply NoDup_incl_length; auto.
        intros y Hy. apply in_vectors. rewrite Forall_forall in HF2. auto. }
      assert (HU' : forall u', In u' (U ++ [u]) -> trans (band R (safetySys c)) (ofVec v) (ofVec u') = true).
      { intros u' Hin. apply in_app_iff in Hin. destruct Hin as [Hin|[<-|[]]]; auto.
        rewrite trans_and, Hru, HSs'. reflexivity. }
      assert (Arem : any (band rem (bnot comb))) by auto.
      unfold succBodyC. rewrite Hne. fold comb. rewrite HJ1, HJ2, HT.
      change (ptOf c u, (nextC (livenessAssumptions c) (fst r) v u, nextC (livenessGuarantees c) (snd r) v u))
        with (fkey (u, nextR r v u)).
      pose proof (clookup_spec (todo ++ X) (I ++ map (pair false) X) (fkey (u, nextR r v u))) as HL.
      destruct (clookup _ _) as [tn|].
      - do 3 eexists. split; [reflexivity|]. split; [|rewrite app_length; cbn; split; lia].
        exists X, (U ++ [u]). split; [auto|]. split; [auto|]. split; [auto|]. split; [|split; [|split; auto]].
        + split; [|split; auto]. apply Forall2_app; [apply HS|]. repeat constructor. exact HL.
        + intros n Hn. apply in_or_app. left. auto.
      - do 3 eexists. split; [reflexivity|]. split; [|rewrite app_length; cbn; split; lia].
        exists (X ++ [(u, nextR r v u)]), (U ++ [u]). rewrite map_app. cbn [map]. rewrite !app_assoc.
        split; [auto|]. split; [apply cregister_workOf|]. split; [apply goodI_snoc; [auto|auto|now apply nextR_ok|exact HL]|].
        split; [|split; [|split; auto]].
        + destruct (succsC_ext v r _ [(false, (u, nextR r v u))] U succs HS) as (S1 & _).
          split; [|split; auto]. apply Forall2_app; auto. repeat constructor.
          cbn [cworkOf cbfsOf]. rewrite map_length, map_app, nth_error_app2; rewrite !map_length; auto.
          now rewrite Nat.sub_diag.
        + cbn [cworkOf cbfsOf]. rewrite map_length, !app_length, map_length. cbn [length]. intros n Hn.
          apply in_or_app. destruct (Nat.eq_dec n (length I + length X)) as [->|]; [right; now left|].
          left. apply HN. lia. }
    assert (I0 : Inv (R, (cworkOf todo I, []))).
    { exists [], []. cbn [map]. rewrite !app_nil_r. split; [auto|]. split; [auto|]. split; [auto|]. split; [|split; [|split]].
      - repeat split; constructor.
      - cbn. lia.
      - intros s t. split; [intros H; split; auto|tauto].
      - now intros u []. }
    destruct (run_total (succBodyC c r) Inv ms (fpFuel c) (R, (cworkOf todo I, [])) I0) as (res & Er & HRuns).
    - intros [rem [w succs]] HIv. destruct (isFalse (band rem (safetySys c))) eqn:E.
      + unfold succBodyC. now rewrite E.
      + destruct (Step rem w succs HIv E) as (rem' & w' & succs' & -> & HI' & L1 & L2).
        split; auto. unfold ms. cbn [snd]. lia.
    - unfold ms. cbn [snd length]. apply (pow_lt_fuel c Hk). lia.
    - destruct (Runs_last (succBodyC c r) Inv _ _ HRuns I0) as ([rem [w succs]] & HIv & HD).
      { intros [rem [w succs]] st' HIv E. destruct (isFalse (band rem (safetySys c))) eqn:Ef.
        - unfold succBodyC in E. rewrite Ef in E. discriminate.
        - destruct (Step rem w succs HIv Ef) as (rem' & w' & succs' & E' & HI' & _).
          rewrite E' in E. injection E as <-. auto. }
      destruct (isFalse (band rem (safetySys c))) eqn:Ef.
      2:{ destruct (Step rem w succs HIv Ef) as (? & ? & ? & E' & _). rewrite E' in HD. discriminate. }
      unfold succBodyC in HD. rewrite Ef in HD. injection HD as <-.
      destruct HIv as (X & U & _ & -> & HG & HS & HN & HRem & HU).
      exists X, U, succs. split; auto. split; [auto|]. split; [auto|]. split; [|auto].
      intros t. split.
      2:{ intros (u & Hin & Hs). rewrite <- (HU u Hin). apply (trans_ext c Hk); auto. }
      intros Ht. rewrite isFalse_spec in Ef.
      assert (D : (exists u, In u U /\ same N t (ofVec u)) \/ forall u, In u U -> ~ same N t (ofVec u)).
      { clear HRem HS HU. induction U as [|u U IH]; [right; now intros u []|].
        destruct (same_dec u t) as [H|H]; [left; exists u; split; auto; now left|].
        destruct IH as [(u' & H1 & H2)|IH]; [left; exists u'; split; auto; now right|].
        right. intros u' [<-|Hu]; auto. }
      destruct D as [D|D]; auto.
      exfalso. rewrite trans_and, andb_true_iff in Ht. destruct Ht as [Ht1 Ht2].
      assert (trans (band rem (safetySys c)) (ofVec v) t = true); [|unfold trans in H; rewrite Ef in H; discriminate].
      rewrite trans_and, Ht2, andb_true_r. apply HRem. auto.
  Qed.

  (** ** Initial states *)
  Variable strategy : nat -> nat -> BF.

  Definition initR (v : list bool) : rank := (0, foundGoal c strategy (ptOf c v)).

  Lemma initR_ok v : rankOK (initR v).
  Proof.
    unfold initR, foundGoal. split; cbn; auto. destruct (find _ _) as [j|] eqn:E; auto.
    apply find_some in E. destruct E as [E _]. apply in_seq in E. lia.
  Qed.

  Lemma initLoopC_spec f : pre f -> exists V,
    initLoopC c strategy f = Some (cworkOf V (map (pair false) V)) /\ goodI (map (pair false) V) /\
    Forall (fun e => snd e = initR (fst e) /\ pos f (ofVec (fst e)) = true) V /\
    forall s, pos f s = true -> In (toVec N s, initR (toVec N s)) V.
  Proof.
    intros Hf.
    set (Inv := fun st : BF * cwork => exists V,
      let '(rem, w) := st in
      pre rem /\ w = cworkOf V (map (pair false) V) /\ goodI (map (pair false) V) /\
      Forall (fun e => snd e = initR (fst e) /\ pos f (ofVec (fst e)) = true) V /\
      forall s, pos rem s = true <-> pos f s = true /\ ~ In (toVec N s) (map fst V)).
    set (ms := fun st : BF * cwork => 2 ^ N - length (cbfsOf (snd st))).
    assert (Step : forall rem w, Inv (rem, w) -> isFalse rem = false ->
       exists rem' w', initBodyC c strategy (rem, w) = Cont (rem', w') /\ Inv (rem', w') /\
         length (cbfsOf w') = S (length (cbfsOf w)) /\ length (cbfsOf w') <= 2 ^ N).
    { intros rem w (V & Hr & -> & HG & HV & HRem) Hne.
      destruct (determinize_pre c Hk rem Hr Hne) as (l & Hl & Hp & ED).
      apply HRem in Hp. destruct Hp as [Hp Hfresh].
      assert (El : toVec N (ofVec l) = l).
      { apply (same_vec c); auto using toVec_length. apply same_toVec. }
      rewrite El in Hfresh.
      assert (HG' : goodI (map (pair false) V ++ [(false, (l, initR l))])).
      { apply goodI_snoc; [auto|auto|apply initR_ok|]. cbn [ikey fst snd]. intros Hin. apply Hfresh.
        apply in_map_iff in Hin. destruct Hin as (it & E & Hin). apply in_map_iff in Hin.
        destruct Hin as ([a b] & <- & Hin). unfold fkey in E. cbn in E. injection E as E _.
        apply (ptOf_inj c) in E; auto; [subst a; now apply (in_map fst) in Hin|].
        destruct HG as [_ HG]. rewrite Forall_forall in HG. apply (HG (false, (a, b))). now apply in_map. }
      assert (HV' : Forall (fun e => snd e = initR (fst e) /\ pos f (ofVec (fst e)) = true) (V ++ [(l, initR l)])).
      { apply Forall_app. split; auto. }
      assert (HB : length (V ++ [(l, initR l)]) <= 2 ^ N).
      { rewrite <- (map_length fst), <- vectors_length. apply NoDup_incl_length.
        - rewrite map_app. cbn. apply NoDup_snoc; auto.
          destruct HG as [HG _]. rewrite map_map in HG. clear -HG HV. induction V as [|[a b] V IH]; [constructor|].
          inversion HV as [|? ? [E _] HV'']; subst. inversion HG as [|? ? Hn HG'']; subst. cbn in *. constructor; auto.
          intros Hin. apply Hn. apply in_map_iff in Hin. destruct Hin as ([a' b'] & E' & Hin). cbn in E'. subst a'.
          rewrite Forall_forall in HV''. destruct (HV'' _ Hin) as [E' _]. cbn in E'. subst b b'.
          apply in_map_iff. exists (a, initR a). auto.
        - intros x Hx. apply in_map_iff in Hx. destruct Hx as (e & <- & Hx). apply in_vectors.
          destruct HG' as [_ HG']. rewrite Forall_forall in HG'. apply (HG' (false, e)).
          apply in_app_iff in Hx. apply in_or_app. destruct Hx as [Hx|[<-|[]]]; [left; now apply in_map|right; now left]. }
      unfold initBodyC. rewrite Hne, ED. fold (initR l). change (ptOf c l, initR l) with (fkey (l, initR l)).
      rewrite cregister_workOf. do 2 eexists. split; [reflexivity|]. split.
      - exists (V ++ [(l, initR l)]). split; [apply dep_and; auto; apply dep_not, pre_ptOf; auto|].
        rewrite map_app. split; [auto|]. split; [auto|]. split; [auto|].
        intros s. rewrite pos_and, pos_not, andb_true_iff, HRem, negb_true_iff, map_app. cbn [map fst]. split.
        + intros [[H1 H2] H3]. split; auto. intros Hin. apply in_app_iff in Hin.
          destruct Hin as [Hin|[E|[]]]; auto.
          assert (pos (ptOf c l) s = true); [|congruence]. apply pos_ptOf; auto. rewrite E.
          apply same_sym, same_toVec.
        + intros [H1 H2]. repeat split; auto.
          * intros Hin. apply H2. apply in_or_app. auto.
          * destruct (pos (ptOf c l) s) eqn:E; auto. elim H2. apply in_or_app. right. left.
            apply pos_ptOf in E; auto. apply (same_vec c); auto using toVec_length.
            apply same_sym. apply same_trans with s; auto. apply same_toVec.
      - cbn [cworkOf cbfsOf]. rewrite !map_length, app_length, map_length. cbn. split; [lia|].
        rewrite app_length in HB. cbn in HB. lia. }
    assert (I0 : Inv (f, mkCWork [] [] [])).
    { exists []. split; [auto|]. split; [reflexivity|]. split; [split; constructor|]. split; [constructor|].
      intros s. split; [intros H; split; auto|tauto]. }
    unfold initLoopC.
    destruct (run_total (initBodyC c strategy) Inv ms (fpFuel c) (f, mkCWork [] [] []) I0) as (r & -> & HRuns).
    - intros [rem w] HI. destruct (isFalse rem) eqn:E.
      + unfold initBodyC. now rewrite E.
      + destruct (Step rem w HI E) as (rem' & w' & -> & HI' & L1 & L2).
        split; auto. unfold ms. cbn [snd]. lia.
    - unfold ms. cbn [snd cbfsOf length]. apply (pow_lt_fuel c Hk). lia.
    - destruct (Runs_last (initBodyC c strategy) Inv _ _ HRuns I0) as ([rem w] & HI & HD).
      { intros [rem w] st' HI E. destruct (isFalse rem) eqn:Ef.
        - unfold initBodyC in E. rewrite Ef in E. discriminate.
        - destruct (Step rem w HI Ef) as (rem' & w' & E' & HI' & _).
          rewrite E' in E. injection E as <-. auto. }
      destruct (isFalse rem) eqn:Ef.
      2:{ destruct (Step rem w HI Ef) as (? & ? & E' & _). rewrite E' in HD. discriminate. }
      unfold initBodyC in HD. rewrite Ef in HD. injection HD as <-.
      destruct HI as (V & _ & -> & HG & HV & HRem).
      exists V. split; auto. split; auto. split; auto. intros s Hs. rewrite isFalse_spec in Ef.
      destruct (in_dec (list_eq_dec bool_dec) (toVec N s) (map fst V)) as [H|H].
      + apply in_map_iff in H. destruct H as ([a b] & E & H). cbn in E. subst a.
        rewrite Forall_forall in HV. destruct (HV _ H) as [E _]. cbn in E. now subst b.
      + exfalso. assert (pos rem s = true) by (apply HRem; auto).
        unfold pos in H0. rewrite Ef in H0. discriminate.
  Qed.

  (** ** Printed values of inputs *)
  Definition inVals (u : list bool) : list bool :=
    map (fun k => nth k u false) (filter (fun k => negb (isOut c k)) (seq 0 N)).

  Lemma filter_double (P : nat -> bool) : (forall k, P (2 * k + 1) = false) -> forall n,
    filter P (seq 0 (2 * n)) = map (fun k => 2 * k) (filter (fun k => P (2 * k)) (seq 0 n)).
  Proof.
    intros HP. induction n as [|n IH]; [reflexivity|].
    replace (2 * S n) with (2 * n + 2) by lia. rewrite seq_app, filter_app, IH. cbn [plus].
    replace (S n) with (n + 1) by lia. rewrite seq_app, filter_app, map_app. f_equal. cbn [plus seq filter].
    replace (S (2 * n)) with (2 * n + 1) by lia. rewrite HP. now destruct (P (2 * n)).
  Qed.

  Lemma printed_inputs u :
    map (fun i => negb (isFalse (band (inOf u) (bvar i)))) (printedInputs c) = inVals u.
  Proof.
    unfold printedInputs, inVals. rewrite (nvars_spec c Hk), filter_double.
    - rewrite map_map.
      assert (EF : filter (fun k => inherits (nth (2 * k) (varTypes c) NoneVariableType) PreInput) (seq 0 N) =
                   filter (fun k => negb (isOut c k)) (seq 0 N)).
      { apply filter_ext_in. intros k Hin. apply in_seq in Hin. apply (isIn_spec c Hk). lia. }
      rewrite EF. apply map_ext_in. intros k Hin. apply filter_In in Hin. destruct Hin as [Hin O].
      apply in_seq in Hin. apply negb_true_iff in O. destruct (nth k u false) eqn:E.
      + apply negb_true_iff, isFalse_false. exists (tv (ofVec u) (ofVec u)). rewrite eval_and, eval_var, tv_even.
        unfold ofVec at 3. rewrite E, andb_true_r. apply eval_inOf. intros i _ _. now rewrite tv_even.
      + apply negb_false_iff, isFalse_spec. intros e. rewrite eval_and, eval_var.
        destruct (eval (inOf u) e) eqn:Ee; auto. apply (proj1 (eval_inOf u e)) with (k := k) in Ee; auto; [|lia].
        now rewrite Ee, E.
    - intros k. rewrite (type_odd c Hk). destruct (nth (2 * k) (varTypes c) NoneVariableType); reflexivity.
  Qed.

  (** ** The main loop *)
  Hypothesis Hstrat : forall i j, i < MA -> j < MG -> any (strategy i j).

  Definition deadAt (v u : list bool) : Prop := forall y,
    trans (safetyEnv c) (ofVec v) (mrg c (ofVec u) y) = true /\
    trans (safetySys c) (ofVec v) (mrg c (ofVec u) y) = false.

  Definition movesC (I : list item) (v : list bool) (r : rank) (succs : list nat) : Prop :=
    (exists u m, length u = N /\ deadAt v u /\ succs = [m] /\ nth_error (map ikey I) m = Some (ikey (true, (u, r)))) \/
    ((forall u, ~ deadAt v u) /\ exists x U,
      succsC v r I U succs /\
      ((exists t, trans (strategy (fst r) (snd r)) (ofVec v) t = true) ->
        trans (strategy (fst r) (snd r)) (ofVec v) (ofVec x) = true) /\
      forall t, (exists u, In u U /\ same N t (ofVec u)) <->
        trans (strategy (fst r) (snd r)) (ofVec v) t = true /\ same_in (game_of c) N t (ofVec x) /\
        trans (safetySys c) (ofVec v) t = true).

  Definition nodeC (I : list item) (nd : cnode) : Prop :=
    exists d v r, nth_error I (c_num nd) = Some (d, (v, r)) /\ c_rank nd = r /\
      if d then c_succ nd = None /\ c_vals nd = inVals v
      else c_vals nd = v /\ exists succs, c_succ nd = Some succs /\ movesC I v r succs.

  Lemma nodeC_ext I X nd : nodeC I nd -> nodeC (I ++ X) nd.
  Proof.
    intros (d & v & r & E & Er & H). exists d, v, r. split; [|split; auto].
    - rewrite nth_error_app1; auto. apply nth_error_Some. congruence.
    - destruct d; auto. destruct H as (H & succs & Es & HM). split; auto. exists succs. split; auto.
      destruct HM as [(u & m & Hu & HD & -> & En)|(HD & x & U & HS & H2 & H3)].
      + left. exists u, m. repeat split; auto; try apply HD.
        rewrite map_app, nth_error_app1; auto. apply nth_error_Some. congruence.
      + right. split; auto. exists x, U. split; [now apply succsC_ext|auto].
  Qed.

  Definition isFull (nd : cnode) : bool := match c_succ nd with Some _ => true | None => false end.

  Record cresult (V : list vkey) (I : list item) (dn : list vkey) (out : list cnode) : Prop := mkCResult {
    cr_good : goodI I;
    cr_init : exists Y, I = map (pair false) V ++ Y;
    cr_nodes : Forall (nodeC I) out;
    cr_nodup : NoDup (map c_num out);
    cr_printed : forall n it, nth_error I n = Some it ->
      (exists nd, In nd out /\ c_num nd = n) <-> (fst it = true \/ In (snd it) dn);
    cr_from : forall n k, length V <= n -> nth_error I n = Some (false, k) ->
      exists nd l, In nd out /\ c_num nd < n /\ c_succ nd = Some l /\ In n l /\ forall u, ~ deadAt (c_vals nd) u;
    cr_dead : forall n u r, nth_error I n = Some (true, (u, r)) ->
      exists nd, In nd out /\ c_rank nd = r /\ deadAt (c_vals nd) u /\ c_succ nd = Some [n];
    cr_count : length (filter isFull out) = length dn
  }.

  Lemma deadInput_trans v s t : trans (bforall (varCubePostOutput c)
        (band (band (ptOf c v) (safetyEnv c)) (bnot (safetySys c)))) s t = true <->
      same N s (ofVec v) /\ forall y, trans (safetyEnv c) s (mrg c t y) = true /\ trans (safetySys c) s (mrg c t y) = false.
  Proof.
    rewrite faPostOut_trans by auto. split.
    - intros H. split.
      + specialize (H t). rewrite !trans_and, !andb_true_iff, trans_ptOf in H by auto. tauto.
      + intros y. specialize (H y). rewrite !trans_and, trans_not, !andb_true_iff, negb_true_iff in H. tauto.
    - intros [H1 H2] y. rewrite !trans_and, trans_not, !andb_true_iff, negb_true_iff, trans_ptOf by auto.
      destruct (H2 y). auto.
  Qed.

  Lemma fulls_index I k : In k (fulls I) -> exists n, nth_error I n = Some (false, k).
  Proof. intros H. apply in_fulls in H. now apply In_nth_error in H. Qed.

  Lemma mainLoopC_spec V : goodI (map (pair false) V) -> exists I out,
    run (mainBodyC c strategy) (fpFuel c + MA + MG) (cworkOf V (map (pair false) V), []) = Some out /\
    cresult V I (fulls I) out.
  Proof.
    intros HG0.
    set (Inv := fun st : cwork * list cnode => exists I dn todo,
      fst st = cworkOf todo I /\ fulls I = dn ++ todo /\ cresult V I dn (snd st)).
    set (ms := fun st : cwork * list cnode => 2 ^ N * (MA * MG) - length (filter isFull (snd st))).
    assert (Step : forall w out, Inv (w, out) -> ctodoOf w <> [] ->
       exists w' out', mainBodyC c strategy (w, out) = Cont (w', out') /\ Inv (w', out') /\
         length (filter isFull out') = S (length (filter isFull out)) /\ length (filter isFull out') <= 2 ^ N * (MA * MG)).
    { intros w out (I & dn & todo & Ew & HFu & HC) Hne. cbn [fst snd] in *. subst w.
      destruct todo as [|[v r] todo]; [now elim Hne|]. clear Hne.
      destruct HC as [HG HIn HNo HND HPr HFr HDe HCo].
      destruct (fulls_index I (v, r)) as (m & Em); [rewrite HFu; apply in_or_app; right; now left|].
      assert (Hvr : length v = N /\ rankOK r).
      { destruct HG as [_ HG]. rewrite Forall_forall in HG. apply nth_error_In in Em. apply (HG _ Em). }
      destruct Hvr as [Hv Hr].
      assert (Hnotin : ~ In (v, r) dn /\ ~ In (v, r) todo).
      { pose proof (fulls_NoDup I HG) as ND. rewrite HFu in ND. apply NoDup_remove_2 in ND.
        rewrite in_app_iff in ND. tauto. }
      assert (Hfresh : ~ In m (map c_num out)).
      { intros Hin. apply in_map_iff in Hin. destruct Hin as (nd & E & Hin).
        destruct (proj1 (HPr m _ Em)) as [H|H]; eauto; [discriminate|]. now apply Hnotin. }
      assert (Hlt : m < length I) by (apply nth_error_Some; congruence).
      assert (HB : S (length dn) <= 2 ^ N * (MA * MG)).
      { pose proof (fulls_bound I HG) as B. rewrite HFu, app_length in B. cbn in B. lia. }
      unfold mainBodyC. cbn [cworkOf ctodoOf map ctableOf cbfsOf].
      pose proof (clookup_nth todo I m _ HG Em) as EL. cbn [cworkOf ctableOf ikey fst snd] in EL.
      rewrite EL. cbn [fkey snd fst].
      assert (EB : nth m (map (fun it => fst (ikey it)) I) bfalse = ptOf c v).
      { apply nth_error_nth. rewrite nth_error_map, Em. reflexivity. }
      rewrite EB, (printed_vals c Hwf v Hv).
      set (dead := bforall (varCubePostOutput c) (band (band (ptOf c v) (safetyEnv c)) (bnot (safetySys c)))).
      assert (Ad : any dead).
      { unfold dead. apply dep_forall with (P := isAnyV c); [|now intros z Hz _]. apply dep_and; [apply dep_and|apply dep_not; exact HSs].
        - apply pre_any, pre_ptOf. exact Hk.
        - apply isPrePostIn_isAny. exact HSe. }
      change {| ctableOf := combine (map ikey I) (seq 0 (length I));
                cbfsOf := map (fun it => fst (ikey it)) I; ctodoOf := map fkey todo |} with (cworkOf todo I).
      destruct (isFalse dead) eqn:Edead; cbn [negb].
      - (* no deadlock *)
        set (R0 := band (ptOf c v) (strategy (fst r) (snd r))).
        assert (AR0 : any R0) by (unfold R0; apply dep_and; auto; apply Hstrat; apply Hr).
        assert (HR0 : forall s t, trans R0 s t = true <-> same N s (ofVec v) /\ trans (strategy (fst r) (snd r)) s t = true).
        { intros s t. unfold R0. rewrite trans_and, andb_true_iff, trans_ptOf by auto. tauto. }
        assert (HX : exists x, length x = N /\
           ((exists t, trans R0 (ofVec v) t = true) -> trans R0 (ofVec v) (ofVec x) = true) /\
           forall s t, trans (determinize R0 (postInputVars c)) s t = true <-> trans R0 s t = true /\ same_in (game_of c) N t (ofVec x)).
        { destruct (isFalse R0) eqn:E0.
          - exists (toVec N (fun _ => false)). split; [apply toVec_length|].
            pose proof (determinize_empty (postInputVars c) R0 E0) as E1. rewrite isFalse_spec in E0, E1.
            split; [intros (t & H); unfold trans in H; rewrite E0 in H; discriminate|].
            intros s t. unfold trans. rewrite E0, E1. split; [discriminate|]. intros [H _]. discriminate.
          - destruct (determinize_in R0 AR0 E0) as (s0 & x & Hx & Hsx & HD). exists x. split; auto. split; auto.
            intros _. apply HR0 in Hsx. apply HR0. split; [now intros k _|]. destruct Hsx as [H1 H2]. rewrite <- H2.
            apply (trans_ext c Hk); auto; [apply Hstrat; apply Hr|now apply same_sym]. }
        destruct HX as (x & Hx & Hxin & HD). set (R := determinize R0 (postInputVars c)) in *.
        assert (AR : any R).
        { apply dep_determinize; auto. intros y Hy. apply (in_PostInput c Hk) in Hy.
          destruct Hy as (k & -> & Hk' & _). unfold isAnyV. rewrite (nvars_spec c Hk). lia. }
        destruct (succLoopC_spec R v r (ofVec x) todo I AR Hv Hr HG) as (X & U & succs & -> & HG' & HS & HU & HNew).
        { intros s t H. apply HD in H. destruct H as [H1 H2]. apply HR0 in H1. tauto. }
        assert (Hfulls : fulls (I ++ map (pair false) X) = (dn ++ [(v, r)]) ++ todo ++ X).
        { rewrite fulls_app, HFu. rewrite <- !app_assoc. cbn. do 2 f_equal. f_equal.
          unfold fulls. clear. induction X as [|a X IH]; cbn; congruence. }
        assert (Hnd : forall u, ~ deadAt v u).
        { intros u Hd. rewrite isFalse_spec in Edead.
          assert (trans dead (ofVec v) (ofVec u) = true); [|unfold trans in H; rewrite Edead in H; discriminate].
          apply deadInput_trans. split; [now intros k _|exact Hd]. }
        do 2 eexists. split; [reflexivity|]. rewrite filter_app, app_length. cbn [filter isFull c_succ length]. split; [|split; [lia|]].
        + exists (I ++ map (pair false) X), (dn ++ [(v, r)]), (todo ++ X). cbn [fst snd]. split; [auto|]. split; [auto|].
          constructor; auto.
          * destruct HIn as (Y & ->). eexists. now rewrite <- app_assoc.
          * apply Forall_app. split; [eapply Forall_impl; [|exact HNo]; intros; now apply nodeC_ext|].
            repeat constructor. exists false, v, r. cbn [c_num c_rank c_vals c_succ].
            split; [now rewrite nth_error_app1|]. split; auto. split; auto. exists succs. split; auto.
            right. split; [exact Hnd|].
            exists x, U. split; auto. split.
               ++ intros (t & H). apply (HR0 (ofVec v) (ofVec x)). apply Hxin. exists t. apply HR0. split; auto. now intros k _.
               ++ intros t. rewrite <- HU, trans_and, andb_true_iff, HD, HR0.
                  assert (same N (ofVec v) (ofVec v)) by now intros k _. tauto.
          * rewrite map_app. cbn. now apply NoDup_snoc.
          * intros n it En. destruct (Nat.lt_ge_cases n (length I)) as [L|L].
            -- rewrite nth_error_app1 in En by auto. specialize (HPr n it En). split.
               ++ intros (nd & Hin & E). apply in_app_iff in Hin. destruct Hin as [Hin|[<-|[]]].
                  ** destruct (proj1 HPr) as [H|H]; eauto. right. apply in_or_app. auto.
                  ** cbn in E. subst n. rewrite Em in En. injection En as <-. right. apply in_or_app. right. now left.
               ++ intros [H|H].
                  ** destruct (proj2 HPr (or_introl H)) as (nd & H1 & H2). exists nd. split; auto. apply in_or_app. auto.
                  ** apply in_app_iff in H. destruct H as [H|[H|[]]].
                     --- destruct (proj2 HPr (or_intror H)) as (nd & H1 & H2). exists nd. split; auto. apply in_or_app. auto.
                     --- destruct it as [d k]. cbn in H. subst k. destruct d.
                         +++ destruct (proj2 HPr (or_introl eq_refl)) as (nd & H1 & H2). exists nd. split; auto. apply in_or_app. auto.
                         +++ assert (n = m) as ->.
                             { destruct HG as [HGk _]. rewrite NoDup_nth_error in HGk. apply HGk; [now rewrite map_length|].
                               rewrite !nth_error_map, En, Em. reflexivity. }
                             eexists. split; [apply in_or_app; right; now left|]. reflexivity.
            -- rewrite nth_error_app2, nth_error_map in En by auto.
               destruct (nth_error X (n - length I)) as [k|] eqn:Ek; [|discriminate]. injection En as <-. cbn [fst snd].
               assert (HnX : ~ In k (dn ++ [(v, r)])).
               { pose proof (fulls_NoDup _ HG') as ND. rewrite Hfulls in ND. apply nth_error_In in Ek.
                 intros Hin. apply in_split in Hin. destruct Hin as (l1 & l2 & E). rewrite E in ND.
                 rewrite <- app_assoc in ND. cbn in ND. apply NoDup_remove_2 in ND. apply ND.
                 rewrite !in_app_iff. auto. }
               split; [|intros [H|H]; [discriminate|contradiction]].
               intros (nd & Hin & E). exfalso.
               assert (c_num nd < length I); [|lia]. apply in_app_iff in Hin. destruct Hin as [Hin|[<-|[]]]; auto.
               rewrite Forall_forall in HNo. destruct (HNo nd Hin) as (d & v' & r' & E' & _). apply nth_error_Some. congruence.
          * intros n k Hn En. destruct (Nat.lt_ge_cases n (length I)) as [L|L].
            -- rewrite nth_error_app1 in En by auto.
               destruct (HFr n k Hn En) as (nd & l & H1 & H2 & H3). exists nd, l. split; auto. apply in_or_app. auto.
            -- do 2 eexists. split; [apply in_or_app; right; now left|]. cbn [c_num c_succ c_vals]. split; [lia|]. split; [reflexivity|].
               split; [|exact Hnd]. apply HNew. split; [lia|]. rewrite <- (map_length (pair false) X), <- app_length.
               apply nth_error_Some. congruence.
          * intros n u r' En. destruct (Nat.lt_ge_cases n (length I)) as [L|L].
            -- rewrite nth_error_app1 in En by auto. destruct (HDe n u r' En) as (nd & H1 & H2).
               exists nd. split; auto. apply in_or_app. auto.
            -- rewrite nth_error_app2, nth_error_map in En by auto. destruct (nth_error X _); discriminate.
          * rewrite filter_app, !app_length. cbn. lia.
        + lia.
      - (* deadlock *)
        assert (HPd : forall s t, trans dead s t = true -> same N s (ofVec v)).
        { intros s t H. apply deadInput_trans in H. tauto. }
        destruct (determinize_post c Hk dead v Ad Hv HPd Edead) as (u & Hu & Hdu & HD).
        assert (Hdead : deadAt v u) by (apply deadInput_trans in Hdu; exact (proj2 Hdu)).
        assert (Ac : any (determinize dead (postVars c))).
        { apply dep_determinize; auto. intros y Hy. apply (in_postVars c Hk) in Hy.
          destruct Hy as (k & -> & Hk'). unfold isAnyV. rewrite (nvars_spec c Hk). lia. }
        unfold addDeadlocked. rewrite (next_in _ v u Ac HD), printed_inputs.
        change (inOf u, r) with (ikey (true, (u, r))).
        pose proof (clookup_spec todo I (ikey (true, (u, r)))) as HL.
        set (newOut := fun tn => mkCNode m r v (Some [tn])).
        assert (Common : forall Y tn extra, (Y = [] /\ extra = [] /\ nth_error (map ikey I) tn = Some (ikey (true, (u, r))) \/
             Y = [(true, (u, r))] /\ extra = [mkCNode (length I) r (inVals u) None] /\ tn = length I) ->
           goodI (I ++ Y) ->
           cresult V (I ++ Y) (dn ++ [(v, r)]) (out ++ newOut tn :: extra)).
        { intros Y tn extra HY HG'.
          assert (Etn : nth_error (map ikey (I ++ Y)) tn = Some (ikey (true, (u, r)))).
          { rewrite map_app. destruct HY as [(-> & _ & E)|(-> & _ & ->)].
            - rewrite app_nil_r. exact E.
            - rewrite nth_error_app2; rewrite map_length; auto. now rewrite Nat.sub_diag. }
          assert (Hout : forall nd, In nd out -> c_num nd < length I).
          { intros nd Hin. rewrite Forall_forall in HNo. destruct (HNo nd Hin) as (d & v' & r' & E' & _).
            apply nth_error_Some. congruence. }
          assert (Nnew : nodeC (I ++ Y) (newOut tn)).
          { exists false, v, r. cbn [newOut c_num c_rank c_vals c_succ]. split; [now rewrite nth_error_app1|].
            split; auto. split; auto. exists [tn]. split; auto. left. exists u, tn. auto. }
          assert (NDm : NoDup (map c_num (out ++ [newOut tn]))) by (rewrite map_app; now apply NoDup_snoc).
          assert (Old : forall n it, n < length I -> nth_error I n = Some it -> 
            (exists nd, In nd (out ++ [newOut tn]) /\ c_num nd = n) <-> fst it = true \/ In (snd it) (dn ++ [(v, r)])).
          { intros n it L En. specialize (HPr n it En). split.
            - intros (nd & Hin & E). apply in_app_iff in Hin. destruct Hin as [Hin|[<-|[]]].
              + destruct (proj1 HPr) as [H|H]; eauto. right. apply in_or_app. auto.
              + cbn in E. subst n. rewrite Em in En. injection En as <-. right. apply in_or_app. right. now left.
            - intros [H|H].
              + destruct (proj2 HPr (or_introl H)) as (nd & H1 & H2). exists nd. split; auto. apply in_or_app. auto.
              + apply in_app_iff in H. destruct H as [H|[H|[]]].
                * destruct (proj2 HPr (or_intror H)) as (nd & H1 & H2). exists nd. split; auto. apply in_or_app. auto.
                * destruct it as [d k]. cbn in H. subst k. destruct d.
                  -- destruct (proj2 HPr (or_introl eq_refl)) as (nd & H1 & H2). exists nd. split; auto. apply in_or_app. auto.
                  -- assert (n = m) as ->.
                     { destruct HG as [HGk _]. rewrite NoDup_nth_error in HGk. apply HGk; [now rewrite map_length|].
                       rewrite !nth_error_map, En, Em. reflexivity. }
                     eexists. split; [apply in_or_app; right; now left|]. reflexivity. }
          assert (Hsplit : forall nd, In nd (out ++ [newOut tn]) -> In nd (out ++ newOut tn :: extra)).
          { intros nd Hin. apply in_app_iff in Hin. apply in_or_app. destruct Hin as [Hin|[<-|[]]]; [now left|right; now left]. }
          constructor; auto.
          - destruct HIn as (Z & ->). eexists. now rewrite <- app_assoc.
          - apply Forall_app. split; [eapply Forall_impl; [|exact HNo]; intros; now apply nodeC_ext|].
            constructor; auto. destruct HY as [(-> & -> & _)|(-> & -> & ->)]; constructor; auto.
            exists true, u, r. cbn [c_num c_rank c_vals c_succ]. split; auto.
            rewrite nth_error_app2, Nat.sub_diag by auto. reflexivity.
          - destruct HY as [(-> & -> & _)|(-> & -> & ->)]; auto.
            replace (out ++ [newOut (length I); mkCNode (length I) r (inVals u) None])
              with ((out ++ [newOut (length I)]) ++ [mkCNode (length I) r (inVals u) None]) by now rewrite <- app_assoc.
            rewrite map_app. apply NoDup_snoc; auto. cbn. intros Hin. apply in_map_iff in Hin.
            destruct Hin as (nd & E & Hin). apply in_app_iff in Hin. destruct Hin as [Hin|[<-|[]]].
            + apply Hout in Hin. lia.
            + cbn in E. lia.
          - intros n it En. destruct (Nat.lt_ge_cases n (length I)) as [L|L].
            + rewrite nth_error_app1 in En by auto. rewrite <- (Old n it L En). split.
              * intros (nd & Hin & E). exists nd. split; auto. apply in_app_iff in Hin. apply in_or_app.
                destruct Hin as [Hin|[<-|Hin]]; [now left|right; now left|].
                destruct HY as [(-> & -> & _)|(-> & -> & ->)]; [destruct Hin|].
                destruct Hin as [<-|[]]. cbn in E. lia.
              * intros (nd & Hin & E). eauto.
            + rewrite nth_error_app2 in En by auto. destruct HY as [(-> & -> & _)|(-> & -> & ->)]; [now destruct (n - length I)|].
              destruct (n - length I) as [|n'] eqn:E'; [|now destruct n']. injection En as <-. cbn [fst snd].
              split; auto. intros _. eexists. split; [apply in_or_app; right; right; now left|]. cbn. lia.
          - intros n k Hn En. destruct (Nat.lt_ge_cases n (length I)) as [L|L].
            + rewrite nth_error_app1 in En by auto.
              destruct (HFr n k Hn En) as (nd & l & H1 & H2 & H3). exists nd, l. split; auto. apply in_or_app. auto.
            + rewrite nth_error_app2 in En by auto. destruct HY as [(-> & -> & _)|(-> & -> & ->)]; [now destruct (n - length I)|].
              destruct (n - length I) as [|n']; [discriminate|now destruct n'].
          - intros n u' r' En. destruct (Nat.lt_ge_cases n (length I)) as [L|L].
            + rewrite nth_error_app1 in En by auto. destruct (HDe n u' r' En) as (nd & H1 & H2).
              exists nd. split; auto. apply in_or_app. auto.
            + rewrite nth_error_app2 in En by auto. destruct HY as [(-> & -> & _)|(-> & -> & ->)]; [now destruct (n - length I)|].
              destruct (n - length I) as [|n'] eqn:E'; [|now destruct n']. injection En as <- <-.
              exists (newOut (length I)). split; [apply in_or_app; right; now left|]. cbn.
              split; auto. split; auto. do 2 f_equal. lia.
          - rewrite filter_app, !app_length. cbn [filter newOut isFull c_succ].
            destruct HY as [(-> & -> & _)|(-> & -> & ->)]; cbn; lia. }
        clear EL. destruct (clookup (ctableOf (cworkOf todo I)) (ikey (true, (u, r)))) as [tn|].
        + do 2 eexists. split; [reflexivity|]. rewrite filter_app, app_length. cbn [filter isFull c_succ length]. split; [|split; lia].
          exists I, (dn ++ [(v, r)]), todo. cbn [fst snd]. split; [auto|]. split; [rewrite HFu, <- app_assoc; auto|].
          specialize (Common [] tn []). rewrite app_nil_r in Common. apply Common; auto.
        + assert (HG' : goodI (I ++ [(true, (u, r))])) by (apply goodI_snoc; auto).
          rewrite cregisterDead_workOf. cbn [cworkOf cbfsOf]. rewrite map_length.
          do 2 eexists. split; [reflexivity|]. rewrite filter_app, app_length. cbn [filter isFull c_succ length]. split; [|split; lia].
          exists (I ++ [(true, (u, r))]), (dn ++ [(v, r)]), todo. cbn [fst snd]. split; [auto|].
          split; [rewrite fulls_app, HFu; change (fulls [(true, (u, r))]) with (@nil vkey); now rewrite app_nil_r, <- app_assoc|].
          apply (Common [(true, (u, r))] (length I) [mkCNode (length I) r (inVals u) None]); auto. }
    assert (I0 : Inv (cworkOf V (map (pair false) V), [])).
    { exists (map (pair false) V), [], V. cbn [fst snd]. split; auto. split.
      - unfold fulls. clear. induction V as [|a V IH]; cbn; [auto|]. now rewrite IH.
      - constructor; auto.
        + exists []. now rewrite app_nil_r.
        + constructor.
        + intros n it E. rewrite nth_error_map in E. destruct (nth_error V n); [|discriminate]. injection E as <-.
          split; [now intros (nd & [] & _)|]. intros [H|[]]. discriminate.
        + intros n k Hn E. rewrite nth_error_map in E. assert (n < length V); [|lia].
          apply nth_error_Some. destruct (nth_error V n); discriminate.
        + intros n u r E. rewrite nth_error_map in E. destruct (nth_error V n); discriminate. }
    destruct (run_total (mainBodyC c strategy) Inv ms (fpFuel c + MA + MG) (cworkOf V (map (pair false) V), []) I0) as (res & Er & HRuns).
    - intros [w out] HI. destruct (ctodoOf w) as [|k todo] eqn:E.
      + unfold mainBodyC. now rewrite E.
      + destruct (Step w out HI) as (w' & out' & -> & HI' & L1 & L2); [congruence|].
        split; auto. unfold ms. cbn [snd]. lia.
    - unfold ms. cbn [snd length filter]. rewrite Nat.sub_0_r, !Nat.pow_add_r.
      assert (H1 : 2 ^ N < 2 ^ fpFuel c) by (apply (pow_lt_fuel c Hk); auto).
      assert (H2 : MA < 2 ^ MA) by (apply Nat.pow_gt_lin_r; lia).
      assert (H3 : MG < 2 ^ MG) by (apply Nat.pow_gt_lin_r; lia).
      rewrite <- Nat.mul_assoc. apply Nat.mul_lt_mono; auto. apply Nat.mul_lt_mono; auto.
    - rewrite Er.
      destruct (Runs_last (mainBodyC c strategy) Inv _ _ HRuns I0) as ([w out] & HI & HD).
      { intros [w out] st' HI E. destruct (ctodoOf w) as [|k todo] eqn:Ef.
        - unfold mainBodyC in E. rewrite Ef in E. discriminate.
        - destruct (Step w out HI) as (w' & out' & E' & HI' & _); [congruence|].
          rewrite E' in E. injection E as <-. auto. }
      destruct (ctodoOf w) as [|k todo] eqn:Ef.
      2:{ destruct (Step w out HI) as (? & ? & E' & _); [congruence|]. rewrite E' in HD. discriminate. }
      unfold mainBodyC in HD. rewrite Ef in HD. injection HD as <-.
      destruct HI as (I & dn & todo & Ew & HFu & HC). cbn [fst snd] in *. subst w. cbn [cworkOf ctodoOf] in Ef.
      destruct todo; [|discriminate]. rewrite app_nil_r in HFu. exists I, out. rewrite HFu. auto.
  Qed.
End CEXTRACT.
