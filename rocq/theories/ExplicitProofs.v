(** * Correctness of the extraction of explicit-state strategies *)

From Coq Require Import Arith List Bool Lia.
From Verif Require Import BDD Loop Spec VarTypes Synth Sem FixBase GameSound SynthProofs Verdict AutSpec Explicit DetProofs.
Import ListNotations.

(** ** Skipping satisfied goals *)

Fixpoint jumpS (fuel m : nat) (test : nat -> bool) (current next : nat) (firstTry : bool) : option nat :=
  match fuel with
  | O => None
  | S fuel =>
      if (negb (Nat.eqb next current) || firstTry) && test next
      then jumpS fuel m test current (Nat.modulo (next + 1) m) false
      else Some next
  end.

Lemma jump_S fuel c current comb (test : nat -> bool) :
  (forall i, i < length (livenessGuarantees c) ->
     negb (isFalse (band (nth i (livenessGuarantees c) bfalse) comb)) = test i) ->
  0 < length (livenessGuarantees c) ->
  forall next first, next < length (livenessGuarantees c) ->
  jump fuel c current next first comb = jumpS fuel (length (livenessGuarantees c)) test current next first.
Proof.
  intros H Hm. induction fuel as [|fuel IH]; intros next first Hn; cbn [jump jumpS]; auto.
  rewrite H by auto. destruct (_ && _); auto. apply IH. apply Nat.mod_upper_bound. lia.
Qed.

Lemma jumpS_spec m test current : current < m ->
  forall k e, e + k = S m -> (forall i, i < e -> test ((current + i) mod m) = true) ->
  e <= m ->
  exists d, e <= d <= m /\ jumpS k m test current ((current + e) mod m) (Nat.eqb e 0) = Some ((current + d) mod m) /\
    (forall i, i < d -> test ((current + i) mod m) = true) /\
    (d < m -> test ((current + d) mod m) = false).
Proof.
  intros Hc. induction k as [|k IH]; intros e He Ht Hle; [lia|]. cbn [jumpS].
  destruct (Nat.eq_dec e m) as [->|Hne].
  - replace ((current + m) mod m) with current.
    2:{ replace (current + m) with (current + 1 * m) by lia. rewrite Nat.mod_add by lia.
        symmetry. now apply Nat.mod_small. }
    rewrite Nat.eqb_refl. replace (m =? 0) with false by (symmetry; apply Nat.eqb_neq; lia). cbn.
    exists m. replace (current + m) with (current + 1 * m) by lia.
    rewrite Nat.mod_add, Nat.mod_small by lia. repeat split; auto; lia.
  - assert (G : negb ((current + e) mod m =? current) || (e =? 0) = true).
    { destruct (Nat.eqb_spec e 0) as [->|Hz]; [apply orb_true_r|]. rewrite orb_false_r.
      apply negb_true_iff, Nat.eqb_neq. intros E.
      assert (M : (current + e) mod m <> current).
      { destruct (Nat.lt_ge_cases (current + e) m) as [L|L].
        - rewrite Nat.mod_small by auto. lia.
        - replace (current + e) with (current + e - m + 1 * m) by lia.
          rewrite Nat.mod_add, Nat.mod_small by lia. lia. }
      contradiction. }
    rewrite G. cbn [andb]. destruct (test ((current + e) mod m)) eqn:T.
    + destruct (IH (S e) ltac:(lia)) as (d & Hd & E & H1 & H2); [|lia|].
      * intros i Hi. destruct (Nat.eq_dec i e) as [->|]; auto. apply Ht. lia.
      * exists d. split; [lia|]. split; auto. rewrite <- E. cbn [Nat.eqb]. f_equal.
        rewrite Nat.add_mod_idemp_l by lia. f_equal. lia.
    + exists e. repeat split; auto.
Qed.

(** ** Lists *)
Lemma skipn_S_nth {A} (l : list A) : forall p x, nth_error l p = Some x -> skipn p l = x :: skipn (S p) l.
Proof.
  induction l as [|a l IH]; intros [|p] x H; try discriminate; cbn in *.
  - now injection H as ->.
  - now apply IH.
Qed.

Lemma skipn_nil_iff {A} (l : list A) : forall p, skipn p l = [] <-> length l <= p.
Proof.
  induction l as [|a l IH]; intros [|p]; cbn; split; try (intros; lia); auto; try discriminate.
  - intros H. apply IH in H. lia.
  - intros H. apply IH. lia.
Qed.

Lemma skipn_flag {A} (l : list A) : forall p,
  match skipn p l with [] => false | _ => true end = (p <? length l).
Proof.
  intros p. destruct (skipn p l) eqn:E.
  - apply skipn_nil_iff in E. symmetry. now apply Nat.ltb_ge.
  - symmetry. apply Nat.ltb_lt. destruct (Nat.lt_ge_cases p (length l)) as [|L]; auto.
    apply skipn_nil_iff in L. congruence.
Qed.

Lemma combine_app {A B} (l l' : list A) (m m' : list B) : length l = length m ->
  combine (l ++ l') (m ++ m') = combine l m ++ combine l' m'.
Proof.
  revert m. induction l as [|a l IH]; intros [|b m] H; try discriminate; cbn; auto. f_equal. auto.
Qed.

Lemma Forall2_len {A B} (P : A -> B -> Prop) l m : Forall2 P l m -> length l = length m.
Proof. induction 1; cbn; auto. Qed.

Lemma vkey_dec (a b : list bool * nat) : {a = b} + {a <> b}.
Proof. decide equality; [apply Nat.eq_dec|apply (list_eq_dec bool_dec)]. Qed.

Local Arguments isOut : simpl never.

Section EXTRACT.
  Variable c : ctx.
  Hypothesis Hwf : wf c.
  Let Hk := wf_kinds c Hwf.
  Let HSe := wf_safetyEnv c Hwf.
  Local Notation N := (nvars c).
  Local Notation M := (length (livenessGuarantees c)).
  Local Notation pre := (dep (isPreV c)).
  Local Notation any := (dep (isAnyV c)).
  Let Mpos : 0 < M.
  Proof. pose proof (wf_gua_ne c Hwf). destruct (livenessGuarantees c); [now elim H|cbn; lia]. Qed.

  (** ** The positional strategy of a goal *)
  Definition first_of (Fs : list BF) (s t : state) : Prop :=
    exists p F q, Fs = p ++ F :: q /\ trans F s t = true /\
      forall F', In F' p -> forall y, trans F' s (mrg c t y) = false.

  Lemma mrg_mrg t y y' : forall k, mrg c (mrg c t y) y' k = mrg c t y' k.
  Proof. intros k. unfold mrg. now destruct (isOut c k). Qed.

  Lemma positional_gen i data : forall done covered strategy,
    (forall s t, trans covered s t = true <-> exists F y, In F done /\ trans F s (mrg c t y) = true) ->
    (forall s t, trans strategy s t = true <-> first_of done s t) ->
    let r := fold_left (positionalStep c i) data (covered, strategy) in
    forall s t, trans (snd r) s t = true <-> first_of (done ++ dataOf i data) s t.
  Proof.
    induction data as [|[j F] data IH]; intros dn covered strategy HC HS r s t; subst r.
    - cbn. now rewrite app_nil_r.
    - cbn [fold_left]. unfold positionalStep at 2. unfold dataOf. cbn [fst snd filter].
      destruct (Nat.eqb j i); [|now apply IH].
      cbn [map snd]. fold (dataOf i data).
      replace (dn ++ F :: dataOf i data) with ((dn ++ [F]) ++ dataOf i data) by now rewrite <- app_assoc.
      apply IH.
      + intros s' t'. rewrite trans_or, trans_and, trans_not. split.
        * intros H. apply orb_true_iff in H. destruct H as [H|H].
          -- apply HC in H. destruct H as (F' & y & Hi & H). exists F', y. split; auto. apply in_or_app. auto.
          -- apply andb_true_iff in H. destruct H as [H _]. apply exPostOut_trans in H; auto.
             destruct H as (y & H). exists F, y. split; auto. apply in_or_app. right. now left.
        * intros (F' & y & Hi & H). apply orb_true_iff. apply in_app_iff in Hi. destruct Hi as [Hi|[<-|[]]].
          -- left. apply HC. eauto.
          -- destruct (trans covered s' t'); auto. right. rewrite andb_true_r.
             apply exPostOut_trans; eauto.
      + intros s' t'. rewrite trans_or, !trans_and, trans_not. split.
        * intros H. apply orb_true_iff in H. destruct H as [H|H].
          -- apply HS in H. destruct H as (p & F' & q & -> & H1 & H2).
             exists p, F', (q ++ [F]). rewrite <- app_assoc. auto.
          -- apply andb_true_iff in H. destruct H as [H H1]. apply andb_true_iff in H. destruct H as [_ H].
             exists dn, F, []. repeat split; auto. intros F' Hi y.
             destruct (trans F' s' (mrg c t' y)) eqn:E; auto.
             assert (trans covered s' t' = true) by (apply HC; eauto). rewrite H0 in H. discriminate.
        * intros (p & F' & q & E & H1 & H2). apply orb_true_iff.
          destruct q as [|x q] using rev_ind.
          -- apply app_inj_tail in E. destruct E as [<- <-]. right. rewrite H1, andb_true_r.
             apply andb_true_iff. split.
             ++ apply exPostOut_trans; auto. exists t'. rewrite <- H1. apply trans_eq.
                intros k. unfold mrg. now destruct (isOut c k).
             ++ apply negb_true_iff. destruct (trans covered s' t') eqn:Ec; auto.
                apply HC in Ec. destruct Ec as (F'' & y & Hi & Hy). rewrite H2 in Hy by auto. discriminate.
          -- left. apply HS. rewrite app_comm_cons, app_assoc in E. apply app_inj_tail in E.
             destruct E as [-> _]. exists p, F', q. auto.
  Qed.

  Lemma positional_spec data i s t :
    trans (positional c data i) s t = true <-> first_of (dataOf i data) s t.
  Proof.
    unfold positional. apply (positional_gen i data []).
    - intros s' t'. rewrite trans_false. split; [discriminate|]. intros (F & y & [] & _).
    - intros s' t'. rewrite trans_false. split; [discriminate|].
      intros (p & F & q & E & _). destruct p; discriminate.
  Qed.

  Lemma any_positional data i : Forall (fun e => fst e = i -> any (snd e)) data -> any (positional c data i).
  Proof.
    intros H. unfold positional.
    assert (G : forall acc, any (fst acc) -> any (snd acc) ->
              any (snd (fold_left (positionalStep c i) data acc))).
    { induction H as [|[j F] data HF H IH]; intros [cv st] H1 H2; cbn [fold_left]; auto.
      cbn [fst snd] in *. apply IH; unfold positionalStep; cbn [fst snd];
        destruct (Nat.eqb_spec j i); auto; cbn [fst snd]; repeat first [apply dep_or | apply dep_and | apply dep_not]; auto;
        apply (isPrePostIn_isAny c), dep_exPostOut; auto. }
    apply G; apply dep_false.
  Qed.

  (** ** The lookup table *)
  Local Notation vkey := (list bool * nat)%type.
  Definition keysOf (V : list vkey) : list key := map (fun e => (ptOf c (fst e), snd e)) V.
  Definition workOf (p : nat) (V : list vkey) : work :=
    mkWork (combine (keysOf V) (seq 0 (length V))) (map fst (keysOf V)) (skipn p (keysOf V)).
  Definition goodV (V : list vkey) : Prop :=
    NoDup V /\ Forall (fun e => length (fst e) = N /\ snd e < M) V.

  Lemma keysOf_length V : length (keysOf V) = length V.
  Proof. apply map_length. Qed.

  Lemma nth_keysOf V n v j : nth_error V n = Some (v, j) -> nth_error (keysOf V) n = Some (ptOf c v, j).
  Proof. intros H. unfold keysOf. now rewrite nth_error_map, H. Qed.

  Lemma key_eqb_eq a b : key_eqb a b = true <-> a = b.
  Proof.
    destruct a as [f i], b as [g j]. unfold key_eqb. cbn.
    rewrite andb_true_iff, bf_eqb_eq, Nat.eqb_eq. split; [intros [-> ->]; auto|]. now injection 1.
  Qed.

  Lemma find_combine K : forall k0 ky, 
    match find (fun e => key_eqb (fst e) ky) (combine K (seq k0 (length K))) with
    | Some e => exists n, snd e = k0 + n /\ nth_error K n = Some ky
    | None => ~ In ky K
    end.
  Proof.
    induction K as [|a K IH]; intros k0 ky; cbn [combine seq length find]; auto.
    cbn [fst]. destruct (key_eqb a ky) eqn:E.
    - apply key_eqb_eq in E. subst a. exists 0. cbn. split; auto.
    - specialize (IH (S k0) ky). destruct (find _ _) as [e|].
      + destruct IH as (n & E1 & E2). exists (S n). cbn. split; auto. lia.
      + intros [->|H]; auto. assert (key_eqb ky ky = true) by now apply key_eqb_eq. congruence.
  Qed.

  Lemma lookup_spec p V v j : goodV V -> length v = N ->
    match lookup (tableOf (workOf p V)) (ptOf c v, j) with
    | Some n => nth_error V n = Some (v, j)
    | None => ~ In (v, j) V
    end.
  Proof.
    intros [_ HV] Hv. unfold lookup. cbn [workOf tableOf].
    pose proof (find_combine (keysOf V) 0 (ptOf c v, j)) as H. rewrite keysOf_length in H.
    destruct (find _ _) as [e|].
    - destruct H as (n & -> & H). cbn. unfold keysOf in H. rewrite nth_error_map in H.
      destruct (nth_error V n) as [[v' j']|] eqn:E; cbn in H; [|discriminate H]. inversion H as [[H1 H2]]. subst j'. clear H.
      f_equal. f_equal. apply (ptOf_inj c); auto.
      rewrite Forall_forall in HV. apply nth_error_In in E. now apply (HV (v', j)).
    - intros Hin. apply H. unfold keysOf. now apply (in_map (fun e => (ptOf c (fst e), snd e)) V (v, j)).
  Qed.

  Lemma lookup_nth p V n v j : goodV V -> nth_error V n = Some (v, j) ->
    lookup (tableOf (workOf p V)) (ptOf c v, j) = Some n.
  Proof.
    intros G E. assert (Hv : length v = N).
    { destruct G as [_ G]. rewrite Forall_forall in G. apply (G (v, j)). now apply nth_error_In in E. }
    pose proof (lookup_spec p V v j G Hv) as H. destruct (lookup _ _) as [n'|].
    - f_equal. destruct G as [G _]. rewrite NoDup_nth_error in G. apply G.
      + apply nth_error_Some. congruence.
      + congruence.
    - elim H. now apply nth_error_In in E.
  Qed.

  Lemma register_workOf p V v j : p <= length V ->
    register (workOf p V) (ptOf c v, j) = workOf p (V ++ [(v, j)]).
  Proof.
    intros Hp. unfold register, workOf. cbn [tableOf bfsOf todoOf fst].
    assert (E : keysOf (V ++ [(v, j)]) = keysOf V ++ [(ptOf c v, j)]) by (unfold keysOf; now rewrite map_app).
    rewrite E, map_app, !app_length, map_length, keysOf_length, seq_app, combine_app
      by now rewrite keysOf_length, seq_length.
    rewrite skipn_app, keysOf_length. replace (p - length V) with 0 by lia. reflexivity.
  Qed.

  Lemma goodV_bound V : goodV V -> length V <= 2 ^ N * M.
  Proof.
    intros [G1 G2]. replace (2 ^ N * M) with (length (list_prod (vectors N) (seq 0 M))).
    - apply NoDup_incl_length; auto. intros [v j] Hin. rewrite Forall_forall in G2.
      destruct (G2 _ Hin) as [E1 E2]. apply in_prod; [now apply in_vectors|apply in_seq; cbn in *; lia].
    - now rewrite prod_length, vectors_length, seq_length.
  Qed.

  Lemma goodV_snoc V v j : goodV V -> length v = N -> j < M -> ~ In (v, j) V -> goodV (V ++ [(v, j)]).
  Proof.
    intros [G1 G2] Hv Hj Hn. split.
    - apply NoDup_rev in G1. rewrite <- (rev_involutive (V ++ _)). apply NoDup_rev. rewrite rev_app_distr. cbn.
      constructor; auto. now rewrite <- in_rev.
    - apply Forall_app. split; auto.
  Qed.

  (** ** Successors *)
  Definition inpOf (u : list bool) : list bool :=
    map (fun k => if isOut c k then false else nth k u false) (seq 0 N).

  Lemma inpOf_length u : length (inpOf u) = N.
  Proof. unfold inpOf. now rewrite map_length, seq_length. Qed.

  Lemma inpOf_same u u' : inpOf u = inpOf u' <-> same_in (game_of c) N (ofVec u) (ofVec u').
  Proof.
    unfold inpOf, same_in, ofVec. cbn. split.
    - intros E k Hk' O. assert (H := f_equal (fun l => nth k l false) E). cbn in H.
      set (F := fun u k => if isOut c k then false else nth k u false) in *.
      change (nth k (map (F u) (seq 0 N)) false = nth k (map (F u') (seq 0 N)) false) in H.
      rewrite (nth_indep _ _ (F u 0)) in H by now rewrite map_length, seq_length.
      rewrite (nth_indep (map (F u') _) _ (F u' 0)) in H by now rewrite map_length, seq_length.
      rewrite !map_nth, !seq_nth in H by auto. unfold F in H. cbn in H. now rewrite O in H.
    - intros H. apply map_ext_in. intros k Hk'. apply in_seq in Hk'. destruct (isOut c k) eqn:E; auto.
      apply H; auto. lia.
  Qed.

  Definition test (v u : list bool) (i : nat) : bool :=
    trans (nth i (livenessGuarantees c) bfalse) (ofVec v) (ofVec u).
  Definition nextGoal (j : nat) (v u : list bool) : nat :=
    match jumpS (S M) M (test v u) j j true with Some n => n | None => 0 end.

  Lemma nextGoal_spec j v u : j < M -> exists d, d <= M /\
    jumpS (S M) M (test v u) j j true = Some (nextGoal j v u) /\
    nextGoal j v u = (j + d) mod M /\
    (forall e, e < d -> test v u ((j + e) mod M) = true) /\
    (d < M -> test v u ((j + d) mod M) = false).
  Proof.
    intros Hj. destruct (jumpS_spec M (test v u) j Hj (S M) 0 eq_refl) as (d & Hd & E & H1 & H2); [lia|lia|].
    rewrite Nat.add_0_r, (Nat.mod_small j M Hj) in E. cbn [Nat.eqb] in E.
    exists d. unfold nextGoal. rewrite E. repeat split; auto. lia.
  Qed.

  Lemma nextGoal_lt j v u : j < M -> nextGoal j v u < M.
  Proof.
    intros Hj. destruct (nextGoal_spec j v u Hj) as (d & _ & _ & -> & _). apply Nat.mod_upper_bound. lia.
  Qed.

  Lemma gua_any i : any (nth i (livenessGuarantees c) bfalse).
  Proof.
    destruct (nth_in_or_default i (livenessGuarantees c) bfalse) as [H| ->]; [|apply dep_false].
    pose proof (wf_gua c Hwf) as G. rewrite Forall_forall in G. auto.
  Qed.

  Variable perm : bool.

  (** Two successors are told apart by their inputs, or by all values. *)
  Definition capOf (u : list bool) : list bool := if perm then u else inpOf u.
  Definition sameCap (s t : state) : Prop := if perm then same N s t else same_in (game_of c) N s t.

  Lemma capOf_same u u' : length u = N -> length u' = N -> capOf u = capOf u' <-> sameCap (ofVec u) (ofVec u').
  Proof.
    intros E E'. unfold capOf, sameCap. destruct perm; [|apply inpOf_same]. split.
    - intros ->. now intros k _.
    - now apply (same_vec c).
  Qed.

  Lemma capOf_length u : length u = N -> length (capOf u) = N.
  Proof. unfold capOf. destruct perm; auto using inpOf_length. Qed.

  Lemma sameCap_in s t : sameCap s t -> same_in (game_of c) N s t.
  Proof. unfold sameCap. destruct perm; auto. intros H k Hk' _. now apply H. Qed.

  Lemma sameCap_dec u t : sameCap (ofVec u) t \/ ~ sameCap (ofVec u) t.
  Proof.
    destruct (forallb (fun k => implb (perm || negb (isOut c k)) (Bool.eqb (nth k u false) (t k))) (seq 0 N)) eqn:E.
    - left. rewrite forallb_forall in E. unfold sameCap.
      destruct perm; intros k Hk'; [|intros O]; specialize (E k ltac:(apply in_seq; lia)).
      + cbn in E. now apply eqb_prop in E.
      + cbn in O. rewrite O in E. cbn in E. now apply eqb_prop in E.
    - right. intros H. rewrite <- not_true_iff_false in E. apply E. apply forallb_forall. intros k Hk'.
      apply in_seq in Hk'. unfold sameCap in H. destruct perm.
      + cbn. apply eqb_true_iff. apply H. lia.
      + destruct (isOut c k) eqn:O; auto. cbn. apply eqb_true_iff. apply H; auto. lia.
  Qed.

  (** What is recorded about the successors of the state [(v, j)]. *)
  Definition succsOk (R : BF) (v : list bool) (j : nat) (V : list vkey) (U : list (list bool)) (succs : list nat) : Prop :=
    Forall2 (fun u n => nth_error V n = Some (u, nextGoal j v u)) U succs /\
    Forall (fun u => length u = N /\ trans R (ofVec v) (ofVec u) = true) U /\
    NoDup (map capOf U).

  Lemma succsOk_ext R v j V X U succs : succsOk R v j V U succs -> succsOk R v j (V ++ X) U succs.
  Proof.
    intros (H1 & H2 & H3). repeat split; auto. clear H2 H3.
    induction H1 as [|u n U succs H H1 IH]; constructor; auto.
    rewrite nth_error_app1; auto. apply nth_error_Some. congruence.
  Qed.

  Lemma vec_mrg t y : same N (ofVec (toVec N (mrg c t y))) (mrg c t y).
  Proof. apply same_toVec. Qed.

  Lemma fpFuel_bound n : n <= 2 ^ N -> n < 2 ^ fpFuel c.
  Proof. apply (pow_lt_fuel c Hk). Qed.

  Lemma succLoop_spec R v j p V : any R -> length v = N -> j < M -> goodV V -> p <= length V ->
    (forall s t, trans R s t = true -> same N s (ofVec v)) ->
    exists X U succs,
      run (succBody perm c j) (fpFuel c) (R, (workOf p V, [])) = Some (workOf p (V ++ X), succs) /\
      goodV (V ++ X) /\ succsOk R v j (V ++ X) U succs /\
      (forall t, trans R (ofVec v) t = true -> exists u, In u U /\ sameCap (ofVec u) t) /\
      (forall i, length V <= i < length (V ++ X) -> In i succs).
  Proof.
    intros HR Hv Hj HV Hp HP.
    set (Inv := fun st : BF * (work * list nat) => exists X U,
      let '(rem, (w, succs)) := st in
      any rem /\ w = workOf p (V ++ X) /\ goodV (V ++ X) /\ succsOk R v j (V ++ X) U succs /\
      (forall i, length V <= i < length (V ++ X) -> In i succs) /\
      forall s t, trans rem s t = true <->
        trans R s t = true /\ forall u, In u U -> ~ sameCap (ofVec u) t).
    set (ms := fun st : BF * (work * list nat) => 2 ^ N - length (snd (snd st))).
    assert (Step : forall rem w succs, Inv (rem, (w, succs)) -> isFalse rem = false ->
       exists rem' w' succs', succBody perm c j (rem, (w, succs)) = Cont (rem', (w', succs')) /\
         Inv (rem', (w', succs')) /\ length succs' = S (length succs) /\ length succs' <= 2 ^ N).
    { intros rem w succs (X & U & Ar & -> & HG & HS & HN & HRem) Hne.
      assert (HPr : forall s t, trans rem s t = true -> same N s (ofVec v)).
      { intros s t H. apply HRem in H. apply (HP s t). tauto. }
      destruct (determinize_post c Hk rem v Ar Hv HPr Hne) as (u & Hu & Hru & HD).
      set (comb := determinize rem (postVars c)) in *.
      assert (Ac : any comb).
      { apply dep_determinize; auto. intros x Hx. apply (in_postVars c Hk) in Hx.
        destruct Hx as (k & -> & Hk'). unfold isAnyV. rewrite (nvars_spec c Hk). lia. }
      assert (HJ : jump (S M) c j j true comb = Some (nextGoal j v u)).
      { destruct (nextGoal_spec j v u Hj) as (d & _ & <- & _). apply jump_S; auto.
        intros i Hi. unfold test.
        destruct (trans (nth i (livenessGuarantees c) bfalse) (ofVec v) (ofVec u)) eqn:E.
        - apply negb_true_iff, isFalse_false. exists (tv (ofVec v) (ofVec u)). rewrite eval_and.
          apply andb_true_iff. split; [exact E|]. apply (HD (ofVec v) (ofVec u)). split; now intros k _.
        - apply negb_false_iff, isFalse_spec. intros e. rewrite eval_and.
          destruct (eval comb e) eqn:Ec; [|apply andb_false_r]. rewrite andb_true_r.
          assert (Ee : forall f, eval f e = trans f (fun k => e (2 * k)) (fun k => e (2 * k + 1))).
          { intros f. apply eval_ext. intros x. destruct (even_cases x) as [[k ->]|[k ->]]; now rewrite ?tv_even, ?tv_odd. }
          rewrite Ee in Ec. apply HD in Ec. destruct Ec as [E1 E2]. rewrite Ee, <- E.
          apply (trans_ext c Hk); auto. apply gua_any. }
      assert (HT : swapPrePost c (bexists (varCubePre c) comb) = ptOf c u) by (eapply next_point; eauto).
      set (cap := if perm then comb else bexists (varCubePostOutput c) comb) in *.
      assert (HC : forall s t, trans cap s t = true <->
                    same N s (ofVec v) /\ sameCap (ofVec u) t).
      { intros s t. unfold cap, sameCap. destruct perm.
        { rewrite HD. split; intros [H1 H2]; split; auto; apply same_sym; auto. }
        rewrite exPostOut_trans by auto. split.
        - intros (y & H). apply HD in H. destruct H as [H1 H2]. split; auto.
          intros k Hk' O. rewrite <- H2 by auto. unfold mrg. cbn in O. now rewrite O.
        - intros [H1 H2]. exists (ofVec u). apply HD. split; auto. intros k Hk'. unfold mrg.
          destruct (isOut c k) eqn:O; auto. symmetry. apply H2; auto. }
      assert (Arem : any (band rem (bnot cap))).
      { apply dep_and; auto. apply dep_not. unfold cap. destruct perm; auto.
        apply (isPrePostIn_isAny c), dep_exPostOut; auto. }
      assert (HR' : forall s t, trans (band rem (bnot cap)) s t = true <->
                trans R s t = true /\ forall u', In u' (U ++ [u]) -> ~ sameCap (ofVec u') t).
      { intros s t. rewrite trans_and, trans_not, andb_true_iff, HRem, negb_true_iff. split.
        - intros [[H1 H2] H3]. split; auto. intros u' Hin. apply in_app_iff in Hin.
          destruct Hin as [Hin|[<-|[]]]; auto. intros Hs.
          assert (trans cap s t = true); [|congruence].
          apply HC. split; auto. apply (HP s t H1).
        - intros [H1 H2]. repeat split; auto.
          + intros u' Hin. apply H2. apply in_or_app. auto.
          + destruct (trans cap s t) eqn:E; auto.
            apply HC in E. destruct E as [_ E]. elim (H2 u); auto. apply in_or_app. right. now left. }
      apply HRem in Hru. destruct Hru as [Hru Hfresh].
      assert (Hlen : forall succs' : list nat, length succs' = length succs -> length (U ++ [u]) = S (length succs')).
      { intros s' E. destruct HS as (HS & _). apply Forall2_len in HS. rewrite app_length. cbn. lia. }
      assert (HND : NoDup (map capOf (U ++ [u]))).
      { rewrite map_app. pose proof (NoDup_rev (proj2 (proj2 HS))) as HS'. rewrite <- (rev_involutive (map capOf U ++ _)).
        apply NoDup_rev. rewrite rev_app_distr. cbn. constructor; auto.
        rewrite <- in_rev. intros Hin. apply in_map_iff in Hin. destruct Hin as (u' & E & Hin).
        apply (Hfresh u' Hin). apply capOf_same; auto.
        destruct HS as (_ & HS & _). rewrite Forall_forall in HS. now apply HS. }
      assert (HB : length (U ++ [u]) <= 2 ^ N).
      { rewrite <- vectors_length. rewrite <- (map_length capOf). apply NoDup_incl_length; auto.
        intros x Hx. apply in_map_iff in Hx. destruct Hx as (u' & <- & Hx). apply in_vectors, capOf_length.
        destruct HS as (_ & HS & _). rewrite Forall_forall in HS. apply in_app_iff in Hx.
        destruct Hx as [Hx|[<-|[]]]; auto. now apply HS. }
      assert (HF2 : Forall (fun u => length u = N /\ trans R (ofVec v) (ofVec u) = true) (U ++ [u])).
      { apply Forall_app. split; [apply HS|]. repeat constructor; auto. }
      unfold succBody. rewrite Hne. fold comb. rewrite HJ, HT. fold cap.
      pose proof (lookup_spec p (V ++ X) u (nextGoal j v u) HG Hu) as HL.
      destruct (lookup _ _) as [tn|].
      - do 3 eexists. split; [reflexivity|]. split; [|rewrite app_length; cbn; split; [lia|]].
        + exists X, (U ++ [u]). split; [auto|]. split; [auto|]. split; [auto|]. split; [|split; auto].
          * split; [|split; auto]. apply Forall2_app; [apply HS|]. repeat constructor. exact HL.
          * intros i Hi. apply in_or_app. left. auto.
        + rewrite (Hlen succs eq_refl) in HB. lia.
      - do 3 eexists. split; [reflexivity|]. split; [|rewrite app_length; cbn; split; [lia|]].
        + exists (X ++ [(u, nextGoal j v u)]), (U ++ [u]). rewrite !app_assoc.
          assert (HG' : goodV ((V ++ X) ++ [(u, nextGoal j v u)]))
            by (apply goodV_snoc; auto using nextGoal_lt).
          split; [auto|]. split; [apply register_workOf; rewrite app_length; lia|]. split; [auto|]. split; [|split; auto].
          * destruct (succsOk_ext R v j (V ++ X) [(u, nextGoal j v u)] U succs HS) as (S1 & _).
            split; [|split; auto]. apply Forall2_app; auto. repeat constructor.
            cbn [workOf bfsOf]. rewrite map_length, keysOf_length, nth_error_app2 by lia.
            now rewrite Nat.sub_diag.
          * cbn [workOf bfsOf]. rewrite map_length, keysOf_length. intros i Hi.
            rewrite app_length in Hi. cbn in Hi. apply in_or_app.
            destruct (Nat.eq_dec i (length (V ++ X))) as [->|]; [right; now left|].
            left. apply HN. lia.
        + rewrite (Hlen succs eq_refl) in HB. lia. }
    assert (I0 : Inv (R, (workOf p V, []))).
    { exists [], []. rewrite app_nil_r. split; [auto|]. split; [auto|]. split; [auto|]. split; [|split].
      - repeat split; constructor.
      - lia.
      - intros s t. split; [intros H; split; auto|tauto]. }
    destruct (run_total (succBody perm c j) Inv ms (fpFuel c) (R, (workOf p V, [])) I0) as (r & Er & HRuns).
    - intros [rem [w succs]] HI. destruct (isFalse rem) eqn:E.
      + unfold succBody. now rewrite E.
      + destruct (Step rem w succs HI E) as (rem' & w' & succs' & -> & HI' & L1 & L2).
        split; auto. unfold ms. cbn [snd]. lia.
    - unfold ms. cbn [snd length]. apply fpFuel_bound. lia.
    - destruct (Runs_last (succBody perm c j) Inv _ _ HRuns I0) as ([rem [w succs]] & HI & HD).
      { intros [rem [w succs]] st' HI E. destruct (isFalse rem) eqn:Ef.
        - unfold succBody in E. rewrite Ef in E. discriminate.
        - destruct (Step rem w succs HI Ef) as (rem' & w' & succs' & E' & HI' & _).
          rewrite E' in E. injection E as <-. auto. }
      destruct (isFalse rem) eqn:Ef.
      2:{ destruct (Step rem w succs HI Ef) as (? & ? & ? & E' & _). rewrite E' in HD. discriminate. }
      unfold succBody in HD. rewrite Ef in HD. injection HD as <-.
      destruct HI as (X & U & _ & -> & HG & HS & HN & HRem).
      exists X, U, succs. split; auto. split; [auto|]. split; [auto|]. split; [|auto].
      intros t Ht. rewrite isFalse_spec in Ef.
      assert (D : (exists u, In u U /\ sameCap (ofVec u) t) \/ forall u, In u U -> ~ sameCap (ofVec u) t).
      { clear HRem HS. induction U as [|u U IH]; [right; now intros u []|].
        destruct (sameCap_dec u t) as [H|H]; [left; exists u; split; auto; now left|].
        destruct IH as [(u' & H1 & H2)|IH]; [left; exists u'; split; auto; now right|].
        right. intros u' [<-|Hu]; auto. }
      destruct D as [D|D]; auto.
      exfalso. assert (trans rem (ofVec v) t = true); [|unfold trans in H; rewrite Ef in H; discriminate].
      apply HRem. auto.
  Qed.

  (** ** Initial states *)
  Lemma initLoop_spec f : pre f -> exists V,
    initLoop c f = Some (workOf 0 V) /\ goodV V /\
    Forall (fun e => snd e = 0 /\ pos f (ofVec (fst e)) = true) V /\
    forall s, pos f s = true -> In (toVec N s, 0) V.
  Proof.
    intros Hf.
    set (Inv := fun st : BF * work => exists V,
      let '(rem, w) := st in
      pre rem /\ w = workOf 0 V /\ goodV V /\
      Forall (fun e => snd e = 0 /\ pos f (ofVec (fst e)) = true) V /\
      forall s, pos rem s = true <-> pos f s = true /\ ~ In (toVec N s, 0) V).
    set (ms := fun st : BF * work => 2 ^ N - length (bfsOf (snd st))).
    assert (Step : forall rem w, Inv (rem, w) -> isFalse rem = false ->
       exists rem' w', initBody c (rem, w) = Cont (rem', w') /\ Inv (rem', w') /\
         length (bfsOf w') = S (length (bfsOf w)) /\ length (bfsOf w') <= 2 ^ N).
    { intros rem w (V & Hr & -> & HG & HV & HRem) Hne.
      destruct (determinize_pre c Hk rem Hr Hne) as (l & Hl & Hp & ED).
      apply HRem in Hp. destruct Hp as [Hp Hfresh].
      assert (El : toVec N (ofVec l) = l).
      { apply (same_vec c); auto using toVec_length. apply same_toVec. }
      rewrite El in Hfresh.
      assert (HG' : goodV (V ++ [(l, 0)])) by (apply goodV_snoc; auto).
      assert (HV' : Forall (fun e => snd e = 0 /\ pos f (ofVec (fst e)) = true) (V ++ [(l, 0)])).
      { apply Forall_app. split; auto. }
      assert (HB : length (V ++ [(l, 0)]) <= 2 ^ N).
      { rewrite <- (map_length fst), <- vectors_length. apply NoDup_incl_length.
        - destruct HG' as [HG' _]. clear -HG' HV'. induction HG' as [|[a i] l' Hn H IH]; [constructor|].
          inversion HV' as [|? ? [E _] HV'']; subst. cbn in E. subst i.
          constructor; auto. intros Hin. apply in_map_iff in Hin. destruct Hin as ([b k] & E & Hin).
          cbn in E. subst b. rewrite Forall_forall in HV''. destruct (HV'' _ Hin) as [E _]. cbn in E. subst k.
          contradiction.
        - intros x Hx. apply in_map_iff in Hx. destruct Hx as (e & <- & Hx). apply in_vectors.
          destruct HG' as [_ HG']. rewrite Forall_forall in HG'. now apply HG'. }
      unfold initBody. rewrite Hne, ED. rewrite register_workOf by lia.
      do 2 eexists. split; [reflexivity|]. split.
      - exists (V ++ [(l, 0)]). split; [apply dep_and; auto; apply dep_not, pre_ptOf; auto|].
        split; [auto|]. split; [auto|]. split; [auto|].
        intros s. rewrite pos_and, pos_not, andb_true_iff, HRem, negb_true_iff. split.
        + intros [[H1 H2] H3]. split; auto. intros Hin. apply in_app_iff in Hin.
          destruct Hin as [Hin|[E|[]]]; auto. injection E as E.
          assert (pos (ptOf c l) s = true); [|congruence]. apply pos_ptOf; auto. rewrite E.
          apply same_sym, same_toVec.
        + intros [H1 H2]. repeat split; auto.
          * intros Hin. apply H2. apply in_or_app. auto.
          * destruct (pos (ptOf c l) s) eqn:E; auto. elim H2. apply in_or_app. right. left. f_equal.
            apply pos_ptOf in E; auto. apply (same_vec c); auto using toVec_length.
            apply same_sym. apply same_trans with s; auto. apply same_toVec.
      - cbn [workOf bfsOf]. rewrite !map_length, !keysOf_length, app_length. cbn. split; [lia|].
        rewrite app_length in HB. cbn in HB. lia. }
    assert (I0 : Inv (f, mkWork [] [] [])).
    { exists []. split; [auto|]. split; [reflexivity|]. split; [split; constructor|]. split; [constructor|].
      intros s. split; [intros H; split; auto|tauto]. }
    unfold initLoop.
    destruct (run_total (initBody c) Inv ms (fpFuel c) (f, mkWork [] [] []) I0) as (r & -> & HRuns).
    - intros [rem w] HI. destruct (isFalse rem) eqn:E.
      + unfold initBody. now rewrite E.
      + destruct (Step rem w HI E) as (rem' & w' & -> & HI' & L1 & L2).
        split; auto. unfold ms. cbn [snd]. lia.
    - unfold ms. cbn [snd bfsOf length]. apply fpFuel_bound. lia.
    - destruct (Runs_last (initBody c) Inv _ _ HRuns I0) as ([rem w] & HI & HD).
      { intros [rem w] st' HI E. destruct (isFalse rem) eqn:Ef.
        - unfold initBody in E. rewrite Ef in E. discriminate.
        - destruct (Step rem w HI Ef) as (rem' & w' & E' & HI' & _).
          rewrite E' in E. injection E as <-. auto. }
      destruct (isFalse rem) eqn:Ef.
      2:{ destruct (Step rem w HI Ef) as (? & ? & E' & _). rewrite E' in HD. discriminate. }
      unfold initBody in HD. rewrite Ef in HD. injection HD as <-.
      destruct HI as (V & _ & -> & HG & HV & HRem).
      exists V. split; auto. split; auto. split; auto. intros s Hs. rewrite isFalse_spec in Ef.
      destruct (in_dec vkey_dec (toVec N s, 0) V) as [H|H]; auto.
      exfalso. assert (pos rem s = true) by (apply HRem; auto).
      unfold pos in H0. rewrite Ef in H0. discriminate.
  Qed.

  (** ** The main loop *)
  Variable recovery : bool.
  Variable strategy : nat -> BF.
  Hypothesis Hstrat : forall j, j < M -> any (strategy j).

  (** The transitions printed for goal [j]. *)
  Definition stratT (j : nat) : BF :=
    if recovery then strategy j else band (strategy j) (safetyEnv c).

  Lemma any_stratT j : j < M -> any (stratT j).
  Proof.
    intros Hj.
    pose proof (Hstrat j Hj).
    unfold stratT. destruct recovery; auto. apply dep_and; auto. now apply isPrePostIn_isAny.
  Qed.

  Definition fromPt (v : list bool) (j : nat) : BF :=
    if recovery then band (ptOf c v) (strategy j)
    else band (band (ptOf c v) (strategy j)) (safetyEnv c).

  Lemma fromPt_spec v j s t : trans (fromPt v j) s t = true <-> same N s (ofVec v) /\ trans (stratT j) s t = true.
  Proof.
    unfold fromPt, stratT. destruct recovery; rewrite !trans_and, !andb_true_iff, trans_ptOf by auto; tauto.
  Qed.

  Lemma any_fromPt v j : j < M -> any (fromPt v j).
  Proof.
    intros Hj.
    pose proof (Hstrat j Hj).
    pose proof (isPre_isAny c _ (pre_ptOf c Hk v)).
    unfold fromPt. destruct recovery; repeat apply dep_and; auto. now apply isPrePostIn_isAny.
  Qed.

  (** The node printed for entry number [i]. *)
  Definition nodeOk (V : list vkey) (i : nat) (nd : node) : Prop :=
    exists v j U, nth_error V i = Some (v, j) /\ nd = mkNode i j v (n_succ nd) /\
      succsOk (stratT j) v j V U (n_succ nd) /\
      (forall t, trans (stratT j) (ofVec v) t = true -> exists u, In u U /\ sameCap (ofVec u) t).

  Lemma nodeOk_ext V X i nd : nodeOk V i nd -> nodeOk (V ++ X) i nd.
  Proof.
    intros (v & j & U & E & En & HS & HC). exists v, j, U. split; [|split; [|split]]; auto.
    - rewrite nth_error_app1; auto. apply nth_error_Some. congruence.
    - now apply succsOk_ext.
  Qed.

  Lemma printed_vals v : length v = N ->
    map (fun i => negb (isFalse (band (ptOf c v) (bvar i)))) (printedVars c) = v.
  Proof.
    intros Hv.
    assert (EP : printedVars c = map (fun k => 2 * k) (seq 0 N)).
    { unfold printedVars. destruct Hk as (kinds & Ek & Hpk). unfold nvars. rewrite Ek.
      rewrite length_typesOf, Nat.div2_double.
      assert (G : forall ks a, forallb isPreKind ks = true ->
         filter (fun i => inherits (nth (i - 2 * a) (typesOf ks) NoneVariableType) Pre) (seq (2 * a) (2 * length ks))
         = map (fun k => 2 * k) (seq a (length ks))).
      { induction ks as [|k ks IH]; intros a Hks; [reflexivity|].
        cbn in Hks. apply andb_true_iff in Hks. destruct Hks as [Hk1 Hks].
        replace (2 * length (k :: ks)) with (S (S (2 * length ks))) by (cbn; lia).
        cbn [seq length map]. cbn [filter]. rewrite Nat.sub_diag.
        replace (S (2 * a) - 2 * a) with 1 by lia. cbn [typesOf flat_map app nth].
        assert (inherits k Pre = true) as -> by (now destruct k).
        assert (inherits (postOf k) Pre = false) as -> by (now destruct k).
        f_equal. rewrite <- (IH (S a) Hks). replace (S (S (2 * a))) with (2 * S a) by lia.
        apply filter_ext_in. intros i Hi. apply in_seq in Hi.
        replace (i - 2 * a) with (S (S (i - 2 * S a))) by lia. reflexivity. }
      specialize (G kinds 0 Hpk). rewrite Nat.mul_0_r in G. rewrite <- G.
      apply filter_ext. intros i. now rewrite Nat.sub_0_r. }
    rewrite EP, map_map.
    assert (G : forall k, k < N -> negb (isFalse (band (ptOf c v) (bvar (2 * k)))) = nth k v false).
    { intros k Hk'. destruct (nth k v false) eqn:E.
      - apply negb_true_iff, isFalse_false. exists (tv (ofVec v) (ofVec v)). rewrite eval_and, eval_var, tv_even.
        unfold ofVec at 3. rewrite E, andb_true_r. apply eval_ptOf; auto. intros i Hi. now rewrite tv_even.
      - apply negb_false_iff, isFalse_spec. intros e. rewrite eval_and, eval_var.
        destruct (eval (ptOf c v) e) eqn:Ee; auto. apply (proj1 (eval_ptOf c v e)) with (k := k) in Ee; auto.
        now rewrite Ee, E. }
    apply (nth_ext _ _ false false); [now rewrite !map_length, seq_length|].
    rewrite map_length, seq_length. intros k Hk'.
    set (F := fun k => negb (isFalse (band (ptOf c v) (bvar (2 * k))))) in *.
    rewrite (nth_indep _ _ (F 0)) by now rewrite map_length, seq_length.
    rewrite map_nth, seq_nth by auto. cbn [plus]. unfold F. now apply G.
  Qed.

  (** Flags that tell if more states follow. *)
  Fixpoint flagged (l : list (node * bool)) : Prop :=
    match l with
    | [] => True
    | [(_, b)] => b = false
    | (_, b) :: l => b = true /\ flagged l
    end.

  Record result (f : BF) (r_keys : list vkey) (out : list (node * bool)) : Prop := mkResult {
    r_good : goodV r_keys;
    r_len : length out = length r_keys;
    r_nodes : forall i nd, nth_error (map fst out) i = Some nd -> nodeOk r_keys i nd;
    r_init : forall s, pos f s = true -> In (toVec N s, 0) r_keys;
    r_from : forall i, i < length r_keys ->
       (exists v, nth_error r_keys i = Some (v, 0) /\ pos f (ofVec v) = true) \/
       (exists i' nd, i' < i /\ nth_error (map fst out) i' = Some nd /\ In i (n_succ nd));
    r_flags : flagged out
  }.

  Lemma mainLoop_spec f V0 : goodV V0 ->
    Forall (fun e => snd e = 0 /\ pos f (ofVec (fst e)) = true) V0 ->
    (forall s, pos f s = true -> In (toVec N s, 0) V0) ->
    exists keys out, run (mainBody perm recovery c strategy) (fpFuel c + M) (workOf 0 V0, []) = Some out /\ result f keys out.
  Proof.
    intros HG0 HV0 HI0.
    set (Inv := fun st : work * list (node * bool) => exists V,
      let '(w, out) := st in
      let p := length out in
      w = workOf p (V0 ++ V) /\ p <= length (V0 ++ V) /\ goodV (V0 ++ V) /\
      (forall i nd, nth_error (map fst out) i = Some nd -> nodeOk (V0 ++ V) i nd) /\
      (forall i, length V0 <= i < length (V0 ++ V) ->
         exists i' nd, i' < i /\ nth_error (map fst out) i' = Some nd /\ In i (n_succ nd)) /\
      (forall i nd b, nth_error out i = Some (nd, b) -> b = (S i <? length (V0 ++ V)) \/ S i < p /\ b = true)).
    set (ms := fun st : work * list (node * bool) => 2 ^ N * M - length (snd st)).
    assert (Step : forall w out, Inv (w, out) -> todoOf w <> [] ->
       exists w' out', mainBody perm recovery c strategy (w, out) = Cont (w', out') /\ Inv (w', out') /\
         length out' = S (length out) /\ length out' <= 2 ^ N * M).
    { intros w out (V & -> & Hp & HG & HN & HF & HFl) Hne.
      cbn [workOf todoOf] in Hne.
      assert (Hlt : length out < length (V0 ++ V)).
      { destruct (Nat.lt_ge_cases (length out) (length (V0 ++ V))); auto. elim Hne.
        apply skipn_nil_iff. now rewrite keysOf_length. }
      destruct (nth_error (V0 ++ V) (length out)) as [[v j]|] eqn:Ev.
      2:{ apply nth_error_None in Ev. lia. }
      pose proof (nth_keysOf _ _ _ _ Ev) as Ek.
      assert (Hvj : length v = N /\ j < M).
      { destruct HG as [_ HG]. rewrite Forall_forall in HG. apply (HG (v, j)). now apply nth_error_In in Ev. }
      destruct Hvj as [Hv Hj].
      unfold mainBody. cbn [workOf todoOf tableOf bfsOf]. rewrite (skipn_S_nth _ _ _ Ek).
      pose proof (lookup_nth (length out) _ _ _ _ HG Ev) as EL. cbn [workOf tableOf] in EL. rewrite EL.
      assert (EB : nth (length out) (map fst (keysOf (V0 ++ V))) bfalse = ptOf c v).
      { apply nth_error_nth. rewrite nth_error_map, Ek. reflexivity. }
      rewrite EB. cbn [snd]. rewrite (printed_vals v Hv).
      change (if recovery then band (ptOf c v) (strategy j)
              else band (band (ptOf c v) (strategy j)) (safetyEnv c)) with (fromPt v j).
      change {| tableOf := combine (keysOf (V0 ++ V)) (seq 0 (length (V0 ++ V)));
                bfsOf := map fst (keysOf (V0 ++ V));
                todoOf := skipn (S (length out)) (keysOf (V0 ++ V)) |} with (workOf (S (length out)) (V0 ++ V)).
      destruct (succLoop_spec (fromPt v j) v j (S (length out)) (V0 ++ V) (any_fromPt v j Hj) Hv Hj HG Hlt)
        as (X & U & succs & -> & HG' & HS & HC & HNew).
      { intros s t H. apply fromPt_spec in H. tauto. }
      assert (HS' : succsOk (stratT j) v j ((V0 ++ V) ++ X) U succs).
      { destruct HS as (S1 & S2 & S3). repeat split; auto. eapply Forall_impl; [|exact S2].
        intros u [E1 E2]. split; auto. apply fromPt_spec in E2. tauto. }
      do 2 eexists. split; [reflexivity|]. split; [|rewrite app_length; cbn [length]; split; [lia|]].
      - exists (V ++ X). rewrite app_length. cbn [length]. rewrite Nat.add_1_r.
        rewrite app_assoc.
        split; [auto|]. split; [rewrite (app_length (V0 ++ V)); lia|]. split; [auto|]. split; [|split].
        + intros i nd E. rewrite map_app in E.
          destruct (Nat.lt_ge_cases i (length out)) as [L|L].
          * rewrite nth_error_app1 in E by now rewrite map_length. apply nodeOk_ext. auto.
          * rewrite nth_error_app2 in E by now rewrite map_length. rewrite map_length in E.
            destruct (i - length out) as [|n] eqn:En; [|cbn in E; destruct n; discriminate].
            cbn in E. injection E as <-. assert (i = length out) as -> by lia.
            exists v, j, U. cbn [n_succ]. split; [|split; [|split]]; auto.
            -- rewrite nth_error_app1; auto.
            -- intros t Ht. apply HC. apply fromPt_spec. split; auto. now intros k _.
        + intros i Hi. rewrite map_app.
          destruct (Nat.lt_ge_cases i (length (V0 ++ V))) as [L|L].
          * destruct (HF i) as (i' & nd & L1 & E & Hin); [lia|]. exists i', nd. split; auto. split; auto.
            rewrite nth_error_app1; auto. apply nth_error_Some. congruence.
          * exists (length out). eexists. split; [lia|]. split.
            -- rewrite nth_error_app2 by now rewrite map_length. rewrite map_length, Nat.sub_diag. reflexivity.
            -- cbn [n_succ]. apply HNew. lia.
        + intros i nd b E. destruct (Nat.lt_ge_cases i (length out)) as [L|L].
          * rewrite nth_error_app1 in E by auto. right. split; [lia|].
            destruct (HFl i nd b E) as [->|[_ ->]]; auto. apply Nat.ltb_lt. lia.
          * left. rewrite nth_error_app2 in E by auto.
            destruct (i - length out) as [|n] eqn:En; [|cbn in E; destruct n; discriminate].
            cbn [nth_error workOf todoOf] in E. rewrite skipn_flag in E.
            assert (i = length out) as -> by lia. injection E as _ <-. now rewrite keysOf_length.
      - pose proof (goodV_bound _ HG). lia. }
    assert (I0 : Inv (workOf 0 V0, [])).
    { exists []. rewrite app_nil_r. cbn [length]. split; [auto|]. split; [lia|]. split; [auto|].
      split; [intros [|]; discriminate|]. split; [lia|]. intros [|]; discriminate. }
    destruct (run_total (mainBody perm recovery c strategy) Inv ms (fpFuel c + M) (workOf 0 V0, []) I0) as (r & Er & HRuns).
    - intros [w out] HI. destruct (todoOf w) as [|k todo] eqn:E.
      + unfold mainBody. now rewrite E.
      + destruct (Step w out HI) as (w' & out' & -> & HI' & L1 & L2); [congruence|].
        split; auto. unfold ms. cbn [snd]. lia.
    - unfold ms. cbn [snd length]. rewrite Nat.sub_0_r, Nat.pow_add_r.
      assert (H1 : 2 ^ N < 2 ^ fpFuel c) by now apply fpFuel_bound.
      assert (H2 : M < 2 ^ M) by (apply Nat.pow_gt_lin_r; lia).
      apply Nat.mul_lt_mono; auto.
    - rewrite Er.
      destruct (Runs_last (mainBody perm recovery c strategy) Inv _ _ HRuns I0) as ([w out] & HI & HD).
      { intros [w out] st' HI E. destruct (todoOf w) as [|k todo] eqn:Ef.
        - unfold mainBody in E. rewrite Ef in E. discriminate.
        - destruct (Step w out HI) as (w' & out' & E' & HI' & _); [congruence|].
          rewrite E' in E. injection E as <-. auto. }
      destruct (todoOf w) as [|k todo] eqn:Ef.
      2:{ destruct (Step w out HI) as (? & ? & E' & _); [congruence|]. rewrite E' in HD. discriminate. }
      unfold mainBody in HD. rewrite Ef in HD. injection HD as <-.
      destruct HI as (V & -> & Hp & HG & HN & HF & HFl).
      cbn [workOf todoOf] in Ef. apply skipn_nil_iff in Ef. rewrite keysOf_length in Ef.
      assert (EL : length out = length (V0 ++ V)) by lia.
      exists (V0 ++ V), out. split; auto. apply mkResult; auto.
      + intros s Hs. apply in_or_app. auto.
      + intros i Hi. destruct (Nat.lt_ge_cases i (length V0)) as [L|L]; [left|right; auto].
        destruct (nth_error V0 i) as [[v j]|] eqn:E; [|apply nth_error_None in E; lia].
        exists v. rewrite nth_error_app1 by auto. rewrite Forall_forall in HV0.
        destruct (HV0 (v, j)) as [E1 E2]; [now apply nth_error_In in E|]. cbn in E1, E2. subst j. auto.
      + assert (Hb : forall i nd b, nth_error out i = Some (nd, b) -> b = (S i <? length out)).
        { intros i nd b E. rewrite EL. destruct (HFl i nd b E) as [H|[L ->]]; auto.
          symmetry. apply Nat.ltb_lt. lia. }
        clear -Hb. induction out as [|[nd b] out IH]; cbn; auto.
        destruct out as [|e out].
        * apply (Hb 0 nd b eq_refl).
        * split; [apply (Hb 0 nd b eq_refl)|]. apply IH. intros i nd' b' E.
          rewrite (Hb (S i) nd' b' E). reflexivity.
  Qed.

  (** The two loops together. *)
  Lemma worklist_spec f : pre f -> exists w keys out, initLoop c f = Some w /\
    run (mainBody perm recovery c strategy) (fpFuel c + M) (w, []) = Some out /\ result f keys out.
  Proof.
    intros Hf. destruct (initLoop_spec _ Hf) as (V & E & HG & HV & HI).
    destruct (mainLoop_spec f V HG HV HI) as (keys & out & E' & R). eauto 6.
  Qed.
End EXTRACT.

Lemma extract_spec c recovery w data : wf c -> dep (isPreV c) w ->
  Forall (fun e => fst e < length (livenessGuarantees c) -> dep (isAnyV c) (snd e)) data ->
  exists keys out, extract recovery c w data = Some out /\
    result c false recovery (positional c data) (extractInit recovery c w) keys out.
Proof.
  intros Hwf Hw HD. unfold extract.
  assert (Hf : dep (isPreV c) (extractInit recovery c w)).
  { unfold extractInit. pose proof (wf_initSys c Hwf).
    assert (dep (isPreV c) (initEnv c)).
    { eapply dep_weaken; [|apply (wf_initEnv c Hwf)]. now intros v [H' _]. }
    destruct recovery; repeat apply dep_and; auto. }
  destruct (worklist_spec c Hwf false recovery (positional c data)) with (f := extractInit recovery c w)
    as (wk & keys & out & -> & E & R); auto.
  - intros j Hj. apply any_positional; auto. eapply Forall_impl; [|exact HD]. intros e He <-. auto.
  - exists keys, out. auto.
Qed.
