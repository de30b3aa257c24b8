(** * Explicit counterstrategies: what the printed states mean in the game *)

From Coq Require Import Arith List Bool Lia Wf_nat Permutation.
From Verif Require Import BDD Loop Spec VarTypes Synth Sem FixBase SynthProofs SolversProofs AutSpec Explicit DetProofs
  ExplicitProofs CounterSpec Counter CounterData CounterExtract.
Import ListNotations.

Local Arguments isOut : simpl never.

(** ** Rotating through a list of properties *)
Definition rdist (M x y : nat) : nat := (y + M - x) mod M.

Lemma mod_lt2 M z : z < M + M -> z mod M = if z <? M then z else z - M.
Proof.
  intros H. destruct (Nat.ltb_spec z M).
  - now apply Nat.mod_small.
  - symmetry. apply (Nat.mod_unique z M 1); lia.
Qed.

Lemma rdist_jump M (test : nat -> bool) x y d : x < M -> y < M -> d <= M ->
  (forall e, e < d -> test ((x + e) mod M) = true) -> test y = false ->
  rdist M ((x + d) mod M) y + d = rdist M x y.
Proof.
  intros Hx Hy Hd HT Hn.
  assert (Hz : d <= rdist M x y).
  { destruct (Nat.le_gt_cases d (rdist M x y)) as [|L]; auto. exfalso.
    assert (E : (x + rdist M x y) mod M = y).
    { unfold rdist. rewrite (mod_lt2 M (y + M - x)) by lia.
      destruct (Nat.ltb_spec (y + M - x) M); rewrite mod_lt2 by lia.
      - destruct (Nat.ltb_spec (x + (y + M - x)) M); lia.
      - destruct (Nat.ltb_spec (x + (y + M - x - M)) M); lia. }
    rewrite <- E in Hn. rewrite (HT _ L) in Hn. discriminate. }
  unfold rdist in *. rewrite (mod_lt2 M (y + M - x)) in * by lia. rewrite (mod_lt2 M (x + d)) by lia.
  destruct (Nat.ltb_spec (y + M - x) M), (Nat.ltb_spec (x + d) M); rewrite mod_lt2 by lia;
    match goal with |- context [?a <? ?b] => destruct (Nat.ltb_spec a b) end; lia.
Qed.

Lemma concat_split {A} (Es : list (list A)) : forall P F Q, concat Es = P ++ F :: Q ->
  exists k E p q, nth_error Es k = Some E /\ E = p ++ F :: q /\ P = concat (firstn k Es) ++ p.
Proof.
  induction Es as [|E0 Es IH]; intros P F Q H; cbn in H; [destruct P; discriminate|].
  revert P H. assert (G : forall l P, l ++ concat Es = P ++ F :: Q ->
     (exists p q, l = p ++ F :: q /\ P = p) \/ (exists P', P = l ++ P' /\ concat Es = P' ++ F :: Q)).
  { induction l as [|a l IHl]; intros P H; cbn in H; [right; exists P; auto|].
    destruct P as [|b P]; cbn in H; injection H as -> H.
    - left. exists [], l. auto.
    - destruct (IHl P H) as [(p & q & -> & ->)|(P' & -> & E)].
      + left. exists (b :: p), q. auto.
      + right. exists P'. auto. }
  intros P H. destruct (G E0 P H) as [(p & q & -> & ->)|(P' & -> & E)].
  - exists 0, (p ++ F :: q), p, q. auto.
  - destruct (IH _ _ _ E) as (k & E' & p & q & H1 & H2 & ->). exists (S k), E', p, q. cbn.
    rewrite <- app_assoc. auto.
Qed.

Lemma firstn_incl {A} (l : list A) k k' : k <= k' -> exists r, firstn k' l = firstn k l ++ r.
Proof.
  intros H. exists (skipn k (firstn k' l)). rewrite <- (firstn_skipn k (firstn k' l)) at 1.
  f_equal. rewrite firstn_firstn. f_equal. lia.
Qed.

Lemma concat_firstn_S {A} (l : list (list A)) k E : nth_error l k = Some E ->
  concat (firstn (S k) l) = concat (firstn k l) ++ E.
Proof.
  revert k. induction l as [|a l IH]; intros k H; [destruct k; discriminate|].
  destruct k as [|k]; cbn in *.
  - injection H as ->. now rewrite app_nil_r.
  - rewrite <- app_assoc. f_equal. now apply IH.
Qed.

Section RANK.
  Variable c : ctx.
  Hypothesis Hwf : wf c.
  Let Hk := wf_kinds c Hwf.
  Let HSe := wf_safetyEnv c Hwf.
  Let HSs := wf_safetySys c Hwf.
  Local Notation N := (nvars c).
  Local Notation MA := (length (livenessAssumptions c)).
  Local Notation MG := (length (livenessGuarantees c)).
  Local Notation any := (dep (isAnyV c)).
  Local Notation asm i := (nth i (livenessAssumptions c) bfalse).
  Local Notation gua j := (nth j (livenessGuarantees c) bfalse).
  Local Notation iterZ := (iterZ c).
  Local Notation muY := (muY c).

  Variable K : nat.
  Variable data : list entry.
  Hypothesis HK : stepZ c (iterZ K) = iterZ K.
  Hypothesis HR : rounds c (S K) data.

  Local Notation D i j := (dataOfC i j data).
  Local Notation strat i j := (positionalC c data i j).

  Lemma rounds_at i j : i < MA -> j < MG -> exists Es, D i j = concat Es /\ length Es = S K /\
      forall k E, nth_error Es k = Some E -> roundOK c (iterZ k) (gua j) (asm i) E.
  Proof. intros Hi Hj. apply HR; now apply nth_error_nth'. Qed.

  Lemma D_good i j : i < MA -> j < MG -> Forall (fun F => any F /\ closedF c F) (D i j).
  Proof.
    intros Hi Hj. destruct (rounds_at i j Hi Hj) as (Es & -> & _ & H).
    apply Forall_forall. intros F Hin. apply in_concat in Hin. destruct Hin as (E & HE & HF).
    apply In_nth_error in HE. destruct HE as (k & HE). apply in_split in HF. destruct HF as (p & q & HF).
    destruct (H k E HE) as [H1 _]. now apply (H1 p F q).
  Qed.

  Lemma any_strat i j : i < MA -> j < MG -> any (strat i j).
  Proof. intros Hi Hj. apply (positionalC_spec c Hwf data i j (D_good i j Hi Hj)). Qed.

  Lemma strat_first i j s t : i < MA -> j < MG -> trans (strat i j) s t = true <-> first_in (D i j) s t.
  Proof. intros Hi Hj. apply (positionalC_spec c Hwf data i j (D_good i j Hi Hj)). Qed.

  Lemma strat_cov i j s : i < MA -> j < MG -> (exists t, trans (strat i j) s t = true) <-> covE (D i j) s.
  Proof. intros Hi Hj. apply (positionalC_spec c Hwf data i j (D_good i j Hi Hj)). Qed.

  (** The first entry with a transition from [s] belongs to round [k] and has
      number [n]. *)
  Definition fcT (i j : nat) (s t : state) (k n : nat) : Prop := exists Es E p F q,
    D i j = concat Es /\ length Es = S K /\
    (forall k E, nth_error Es k = Some E -> roundOK c (iterZ k) (gua j) (asm i) E) /\
    nth_error Es k = Some E /\ E = p ++ F :: q /\ n = length (concat (firstn k Es) ++ p) /\
    trans F s t = true /\ ~ covE (concat (firstn k Es) ++ p) s.
  Definition at_ (i j : nat) (s : state) (k n : nat) : Prop := exists t, fcT i j s t k n.

  Lemma first_unique (E : list BF) s : forall P F Q P' F' Q', E = P ++ F :: Q -> E = P' ++ F' :: Q' ->
    ~ covE P s -> ~ covE P' s -> (exists t, trans F s t = true) -> (exists t, trans F' s t = true) -> P = P' /\ F = F'.
  Proof.
    induction E as [|a E IH]; intros P F Q P' F' Q' E1 E2 H1 H2 H3 H4; [destruct P; discriminate|].
    destruct P as [|b P], P' as [|b' P']; cbn in E1, E2; injection E1 as E1 E1'; injection E2 as E2 E2'.
    - split; congruence.
    - elim H2. destruct H3 as (t & H3). exists b', t. split; [now left|congruence].
    - elim H1. destruct H4 as (t & H4). exists b, t. split; [now left|congruence].
    - destruct (IH P F Q P' F' Q' E1' E2') as [-> ->]; auto; [| |split; congruence].
      + intros (G & t & Hin & HG). apply H1. exists G, t. split; [now right|auto].
      + intros (G & t & Hin & HG). apply H2. exists G, t. split; [now right|auto].
  Qed.

  Lemma firstn_round (Es : list (list BF)) k E p F q : nth_error Es k = Some E -> E = p ++ F :: q ->
    concat Es = (concat (firstn k Es) ++ p) ++ F :: q ++ concat (skipn (S k) Es).
  Proof.
    intros H ->. rewrite <- (firstn_skipn k Es) at 1. rewrite concat_app.
    rewrite (skipn_S_nth _ _ _ H). cbn [concat]. now rewrite <- !app_assoc.
  Qed.

  Lemma fcT_strat i j s t k n t' : i < MA -> j < MG -> fcT i j s t k n -> trans (strat i j) s t' = true ->
    fcT i j s t' k n.
  Proof.
    intros Hi Hj (Es & E & p & F & q & E1 & L & H & E2 & E3 & E4 & HT & HC) HS.
    apply strat_first in HS; auto. destruct HS as (P' & F' & Q' & E5 & HT' & HC').
    rewrite E1 in E5. pose proof (firstn_round Es k E p F q E2 E3) as E6.
    destruct (first_unique _ s _ _ _ _ _ _ E6 E5 HC HC') as [EP EF]; eauto. subst F'.
    exists Es, E, p, F, q. auto 10.
  Qed.

  Lemma at_strat i j s k n t : i < MA -> j < MG -> at_ i j s k n -> trans (strat i j) s t = true -> fcT i j s t k n.
  Proof. intros Hi Hj (t' & H). now apply fcT_strat with (t := t'). Qed.

  Lemma at_unique i j s k n k' n' : at_ i j s k n -> at_ i j s k' n' -> n = n'.
  Proof.
    intros (t & Es & E & p & F & q & E1 & L & H & E2 & E3 & E4 & HT & HC)
           (t' & Es' & E' & p' & F' & q' & E1' & L' & H' & E2' & E3' & E4' & HT' & HC').
    pose proof (firstn_round Es k E p F q E2 E3) as E6. pose proof (firstn_round Es' k' E' p' F' q' E2' E3') as E6'.
    rewrite <- E1 in E6. rewrite <- E1' in E6'.
    destruct (first_unique _ s _ _ _ _ _ _ E6 E6' HC HC') as [EP EF]; eauto. congruence.
  Qed.

  Lemma at_move i j s k n : i < MA -> j < MG -> at_ i j s k n -> exists t, trans (strat i j) s t = true.
  Proof.
    intros Hi Hj (t & Es & E & p & F & q & E1 & L & H & E2 & E3 & E4 & HT & HC).
    exists t. apply strat_first; auto. rewrite E1. do 3 eexists. split; [apply (firstn_round Es k E p F q E2 E3)|]. auto.
  Qed.

  (** A covered position has a first covering entry; it lies in the part of the
      list that covers. *)
  Lemma cov_at i j s : i < MA -> j < MG -> covE (D i j) s -> exists k n, at_ i j s k n.
  Proof.
    intros Hi Hj HC. apply strat_cov in HC; auto. destruct HC as (t & HC).
    apply strat_first in HC; auto. destruct HC as (P & F & Q & E5 & HT & HC).
    destruct (rounds_at i j Hi Hj) as (Es & E1 & L & H). rewrite E1 in E5.
    destruct (concat_split Es P F Q E5) as (k & E & p & q & H1 & H2 & ->).
    exists k, (length (concat (firstn k Es) ++ p)), t. exists Es, E, p, F, q. auto 10.
  Qed.

  Lemma at_lt i j s k n P Q : at_ i j s k n -> D i j = P ++ Q -> covE P s -> n < length P.
  Proof.
    intros (t & Es & E & p & F & q & E1 & L & H & E2 & E3 & -> & HT & HC) EP (F' & t' & Hin & HF).
    pose proof (firstn_round Es k E p F q E2 E3) as E6. rewrite <- E1, EP in E6.
    set (R := concat (firstn k Es) ++ p) in *. set (T := q ++ concat (skipn (S k) Es)) in *. clearbody R T.
    destruct (Nat.lt_ge_cases (length R) (length P)) as [|L']; auto. exfalso. apply HC.
    exists F', t'. split; auto. clear - E6 L' Hin. revert R E6 L'. induction P as [|a P IH]; intros R E6 L'; [destruct Hin|].
    destruct R as [|b R]; cbn in *; [lia|]. injection E6 as -> E6. destruct Hin as [->|Hin]; [now left|right].
    apply (IH Hin R E6). lia.
  Qed.

  Lemma at_round i j s k : i < MA -> j < MG -> k <= K -> pos (muY (iterZ k) (gua j)) s = false ->
    exists k' n, k' <= k /\ at_ i j s k' n.
  Proof.
    intros Hi Hj Hkk HM. destruct (rounds_at i j Hi Hj) as (Es & E1 & L & H).
    assert (HE : exists E, nth_error Es k = Some E).
    { destruct (nth_error Es k) as [E|] eqn:E0; eauto. apply nth_error_None in E0. lia. }
    destruct HE as (E & HE). destruct (H k E HE) as [_ HC]. specialize (HC s HM).
    assert (HC' : covE (concat (firstn (S k) Es)) s).
    { rewrite (concat_firstn_S _ _ _ HE). apply covE_app. auto. }
    assert (HD : covE (D i j) s).
    { rewrite E1, <- (firstn_skipn (S k) Es), concat_app. apply covE_app. auto. }
    apply strat_cov in HD; auto. destruct HD as (t & HD). apply strat_first in HD; auto.
    destruct HD as (P & F & Q & E5 & HT & HCP). rewrite E1 in E5.
    destruct (concat_split Es P F Q E5) as (k' & E' & p & q & H1 & H2 & ->).
    exists k', (length (concat (firstn k' Es) ++ p)). split; [|exists t, Es, E', p, F, q; auto 10].
    destruct (Nat.le_gt_cases k' k) as [|L']; auto. exfalso. apply HCP. apply covE_app. left.
    destruct (firstn_incl Es (S k) k') as (r & ->); [lia|]. rewrite concat_app. apply covE_app. auto.
  Qed.

  Lemma mrg_id t : forall k, mrg c t t k = t k.
  Proof. intros k. unfold mrg. now destruct (isOut c k). Qed.

  Lemma pos_eq f s t : (forall k, s k = t k) -> pos f s = pos f t.
  Proof. intros H. apply eval_ext. intros v. unfold tv. now destruct (Nat.even v). Qed.

  Lemma trans_eq2 f s s' t : (forall k, s k = s' k) -> trans f s t = trans f s' t.
  Proof. intros H. apply eval_ext. intros v. unfold tv. now destruct (Nat.even v). Qed.

  Lemma In_gua j : j < MG -> In (gua j) (livenessGuarantees c).
  Proof. now apply nth_In. Qed.

  Lemma any_gua j : j < MG -> any (gua j).
  Proof. intros Hj. pose proof (wf_gua c Hwf) as H. rewrite Forall_forall in H. now apply H, nth_In. Qed.

  Lemma fcT_safe i j s t k n : fcT i j s t k n -> trans (safetyEnv c) s t = true.
  Proof.
    intros (Es & E & p & F & q & E1 & L & H & E2 & E3 & -> & HT & HC).
    destruct (H k E E2) as [H1 _]. destruct (H1 p F q E3) as [_ H2]. destruct (H2 s t HT t) as [H3 _].
    rewrite <- H3. apply trans_eq. intros x. symmetry. apply mrg_id.
  Qed.

  Lemma fcT_step i j s t k n : fcT i j s t k n -> trans (safetySys c) s t = true ->
    k <= K /\ (trans (gua j) s t = true -> pos (iterZ k) t = false) /\ pos (muY (iterZ k) (gua j)) t = false /\
    (trans (asm i) s t = true \/ exists P Q, D i j = P ++ Q /\ length P = n /\ covE P t).
  Proof.
    intros (Es & E & p & F & q & E1 & L & H & E2 & E3 & -> & HT & HC) HS.
    destruct (H k E E2) as [H1 _]. destruct (H1 p F q E3) as [_ H2]. destruct (H2 s t HT t) as [_ H3].
    assert (M : forall f, trans f s (mrg c t t) = trans f s t) by (intros f; apply trans_eq, mrg_id).
    assert (Mp : forall f, pos f (mrg c t t) = pos f t) by (intros f; apply pos_eq, mrg_id).
    rewrite !M, !Mp in H3. destruct (H3 HS) as (H4 & H5 & H6). split; [|split; [auto|split; auto]].
    - assert (k < length Es) by (apply nth_error_Some; congruence). lia.
    - destruct H6 as [H6|(F' & t' & Hin & HF)]; auto. right.
      exists (concat (firstn k Es) ++ p). eexists. split; [rewrite E1; apply (firstn_round Es k E p F q E2 E3)|].
      split; auto. apply covE_app. right. exists F', t'. split; auto. rewrite <- HF. apply trans_eq2. intros x. symmetry. apply mrg_id.
  Qed.

  Lemma iterZ_le k k' : k <= k' -> sub (iterZ k') (iterZ k).
  Proof.
    induction 1 as [|k' _ IH]; [apply sub_refl|]. intros s H. apply IH. now apply (iterZ_dec c Hwf).
  Qed.

  Lemma round_W i j s t k n : j < MG -> fcT i j s t k n -> trans (safetySys c) s t = true -> pos (iterZ K) t = false.
  Proof.
    intros Hj HF HS. destruct (fcT_step i j s t k n HF HS) as (Hkk & _ & HM & _).
    destruct (pos (iterZ K) t) eqn:E; auto. exfalso. rewrite <- HK in E. pose proof (proj1 (stepZ_spec c _ _) E) as E'. clear E. rename E' into E.
    specialize (E (gua j) (In_gua j Hj)).
    assert (pos (muY (iterZ k) (gua j)) t = true); [|congruence].
    revert E. apply (muY_mono c Hwf); auto using any_gua, iterZ_le, pre_iterZ.
  Qed.

  Lemma stepZ_false z s : dep (isPreV c) z -> pos (stepZ c z) s = false -> exists j, j < MG /\ pos (muY z (gua j)) s = false.
  Proof.
    intros Hz H.
    destruct (existsb (fun j => negb (pos (muY z (gua j)) s)) (seq 0 MG)) eqn:E.
    - apply existsb_exists in E. destruct E as (j & Hin & E). apply in_seq in Hin. exists j. split; [lia|].
      now apply negb_true_iff.
    - exfalso. assert (pos (stepZ c z) s = true); [|congruence]. apply stepZ_spec. intros g Hg.
      apply (In_nth _ _ bfalse) in Hg. destruct Hg as (j & Hj & <-).
      destruct (pos (muY z (gua j)) s) eqn:E'; auto.
      assert (existsb (fun j => negb (pos (muY z (gua j)) s)) (seq 0 MG) = true); [|congruence].
      apply existsb_exists. exists j. split; [apply in_seq; lia|]. now rewrite E'.
  Qed.

  (** One step. *)
  Lemma at_step i j s t k n i' j' : i < MA -> j < MG -> i' < MA -> j' < MG ->
    at_ i j s k n -> trans (strat i j) s t = true -> trans (safetySys c) s t = true ->
    (trans (gua j) s t = false -> exists k' n', k' <= k /\ at_ i' j t k' n') /\
    (trans (gua j) s t = true -> exists k' n', k' <= k /\ at_ i' j' t k' n') /\
    (trans (gua j) s t = true -> MG = 1 -> exists k' n', k' < k /\ at_ i' j' t k' n') /\
    (trans (asm i) s t = false -> exists k' n', n' < n /\ at_ i j t k' n').
  Proof.
    intros Hi Hj Hi' Hj' HA HT HS. pose proof (at_strat i j s k n t Hi Hj HA HT) as HF.
    destruct (fcT_step i j s t k n HF HS) as (Hkk & HG & HM & HP).
    split; [|split; [|split]].
    - intros _. apply at_round; auto.
    - intros H. specialize (HG H). apply at_round; auto.
      destruct (pos (muY (iterZ k) (gua j')) t) eqn:E; auto.
      apply (muY_inside c Hwf) in E; auto using In_gua. congruence.
    - intros H E1. specialize (HG H). destruct k as [|k]; [change (pos btrue t = false) in HG; rewrite pos_true in HG; discriminate|].
      destruct (stepZ_false (iterZ k) t) as (j0 & Hj0 & HM0); auto; [apply pre_iterZ; auto|].
      destruct (at_round i' j' t k Hi' Hj') as (k' & n' & L & H'); [lia| |exists k', n'; split; auto; lia].
      replace j' with j0 by lia. exact HM0.
    - intros H. destruct HP as [HP|(P & Q & E & EL & HC)]; [congruence|].
      destruct (cov_at i j t Hi Hj) as (k' & n' & H').
      { rewrite E. apply covE_app. auto. }
      exists k', n'. split; auto. rewrite <- EL. now apply (at_lt i j t k' n' P Q).
  Qed.

  (** ** Infinite paths *)
  Section PATH.
    Variables (v : nat -> list bool) (r : nat -> nat * nat).
    Hypothesis Hr : forall n, rankOK c (r n).
    Hypothesis Hat : forall n, exists k m, at_ (fst (r n)) (snd (r n)) (ofVec (v n)) k m.
    Hypothesis Hmove : forall n, trans (strat (fst (r n)) (snd (r n))) (ofVec (v n)) (ofVec (v (S n))) = true.
    Hypothesis Hsafe : forall n, trans (safetySys c) (ofVec (v n)) (ofVec (v (S n))) = true.
    Hypothesis Hnext : forall n, r (S n) = nextR c (r n) (v n) (v (S n)).

    Let A i n := trans (asm i) (ofVec (v n)) (ofVec (v (S n))).
    Let G j n := trans (gua j) (ofVec (v n)) (ofVec (v (S n))).

    Lemma next_asm n : exists d, d <= MA /\ fst (r (S n)) = (fst (r n) + d) mod MA /\
      (forall e, e < d -> A ((fst (r n) + e) mod MA) n = true) /\
      (d < MA -> A ((fst (r n) + d) mod MA) n = false).
    Proof.
      rewrite Hnext. cbn [nextR fst].
      destruct (nextC_spec c Hwf (livenessAssumptions c) (fst (r n)) (v n) (v (S n))) as (d & H1 & _ & H2 & H3 & H4); [apply Hr|].
      exists d. auto.
    Qed.
    Lemma next_gua n : exists d, d <= MG /\ snd (r (S n)) = (snd (r n) + d) mod MG /\
      (forall e, e < d -> G ((snd (r n) + e) mod MG) n = true) /\
      (d < MG -> G ((snd (r n) + d) mod MG) n = false).
    Proof.
      rewrite Hnext. cbn [nextR snd].
      destruct (nextC_spec c Hwf (livenessGuarantees c) (snd (r n)) (v n) (v (S n))) as (d & H1 & _ & H2 & H3 & H4); [apply Hr|].
      exists d. auto.
    Qed.

    Lemma stay_asm n : A (fst (r n)) n = false -> fst (r (S n)) = fst (r n).
    Proof.
      intros H. destruct (next_asm n) as (d & H1 & H2 & H3 & _). destruct (Hr n) as [L _].
      destruct d as [|d]; [now rewrite Nat.add_0_r, Nat.mod_small in H2|].
      specialize (H3 0). rewrite Nat.add_0_r, Nat.mod_small in H3 by auto. rewrite H3 in H; [discriminate|lia].
    Qed.
    Lemma stay_gua n : G (snd (r n)) n = false -> snd (r (S n)) = snd (r n).
    Proof.
      intros H. destruct (next_gua n) as (d & H1 & H2 & H3 & _). destruct (Hr n) as [_ L].
      destruct d as [|d]; [now rewrite Nat.add_0_r, Nat.mod_small in H2|].
      specialize (H3 0). rewrite Nat.add_0_r, Nat.mod_small in H3 by auto. rewrite H3 in H; [discriminate|lia].
    Qed.

    Lemma dist_asm n i0 : i0 < MA -> A i0 n = false ->
      rdist MA (fst (r (S n))) i0 <= rdist MA (fst (r n)) i0 /\
      (A (fst (r n)) n = true -> rdist MA (fst (r (S n))) i0 < rdist MA (fst (r n)) i0).
    Proof.
      intros H0 HA. destruct (next_asm n) as (d & H1 & H2 & H3 & H4). destruct (Hr n) as [L _].
      pose proof (rdist_jump MA (fun i => A i n) (fst (r n)) i0 d L H0 H1 H3 HA) as E. rewrite H2. split; [lia|].
      intros HT. destruct d as [|d]; [|lia]. rewrite Nat.add_0_r, Nat.mod_small in H4 by auto.
      rewrite H4 in HT; [discriminate|lia].
    Qed.
    Lemma dist_gua n j0 : j0 < MG -> G j0 n = false ->
      rdist MG (snd (r (S n))) j0 <= rdist MG (snd (r n)) j0 /\
      (G (snd (r n)) n = true -> rdist MG (snd (r (S n))) j0 < rdist MG (snd (r n)) j0).
    Proof.
      intros H0 HA. destruct (next_gua n) as (d & H1 & H2 & H3 & H4). destruct (Hr n) as [_ L].
      pose proof (rdist_jump MG (fun i => G i n) (snd (r n)) j0 d L H0 H1 H3 HA) as E. rewrite H2. split; [lia|].
      intros HT. destruct d as [|d]; [|lia]. rewrite Nat.add_0_r, Nat.mod_small in H4 by auto.
      rewrite H4 in HT; [discriminate|lia].
    Qed.

    (** The current assumption or the current guarantee will be satisfied. *)
    Lemma progress1 : forall m n k, at_ (fst (r n)) (snd (r n)) (ofVec (v n)) k m ->
      exists n', n <= n' /\ r n' = r n /\ (A (fst (r n')) n' = true \/ G (snd (r n')) n' = true).
    Proof.
      induction m as [m IH] using lt_wf_ind. intros n k HA.
      destruct (A (fst (r n)) n) eqn:EA; [exists n; auto|]. destruct (G (snd (r n)) n) eqn:EG; [exists n; auto|].
      destruct (Hr n) as [L1 L2].
      destruct (at_step (fst (r n)) (snd (r n)) (ofVec (v n)) (ofVec (v (S n))) k m 
        (fst (r n)) (snd (r n)) L1 L2 L1 L2 HA (Hmove n) (Hsafe n)) as (_ & _ & _ & H4).
      destruct (H4 EA) as (k' & m' & Lm & HA').
      assert (Er : r (S n) = r n).
      { rewrite (surjective_pairing (r (S n))), (surjective_pairing (r n)), stay_asm, stay_gua; auto. }
      rewrite <- Er in HA'. destruct (IH m' Lm (S n) k' HA') as (n' & L & E & H).
      exists n'. split; [lia|]. split; [congruence|auto].
    Qed.

    (** A quantity that does not increase and decreases whenever the current
        guarantee is satisfied. *)
    Variable n0 : nat.
    Variable pot : nat -> nat -> Prop.
    Hypothesis Hpot : forall n d, n0 <= n -> pot n d -> exists d', pot (S n) d' /\ d' <= d /\
      (G (snd (r n)) n = true -> d' < d).

    Lemma pot_later n d n' : n0 <= n -> n <= n' -> pot n d -> exists d', pot n' d' /\ d' <= d.
    Proof.
      intros L0 L HP. induction L as [|n' L IH]; [eauto|]. destruct IH as (d' & H1 & H2).
      destruct (Hpot n' d') as (d'' & H3 & H4 & _); auto; [lia|]. exists d''. split; auto. lia.
    Qed.

    Lemma progress2 : forall d n, n0 <= n -> pot n d ->
      exists n', n <= n' /\ fst (r n') = fst (r n) /\ A (fst (r n')) n' = true.
    Proof.
      induction d as [d IH] using lt_wf_ind. intros n L0 HP.
      destruct (Hat n) as (k & m & HA). destruct (progress1 m n k HA) as (n' & L & E & H).
      destruct (A (fst (r n')) n') eqn:EA; [exists n'; split; auto; split; congruence|].
      destruct H as [H|H]; [discriminate|].
      destruct (pot_later n d n' L0 L HP) as (d1 & H1 & H2).
      destruct (Hpot n' d1) as (d2 & H3 & _ & H4); auto; [lia|].
      destruct (IH d2) with (n := S n') as (n'' & L' & E' & H'); auto; [specialize (H4 H); lia|lia|].
      exists n''. split; [lia|]. split; auto. rewrite E', stay_asm by auto. congruence.
    Qed.

    Lemma progress3 i0 d : i0 < MA -> forall n, n0 <= n -> pot n d -> exists n', n <= n' /\ A i0 n' = true.
    Proof.
      intros H0.
      assert (G0 : forall e n d, n0 <= n -> pot n d -> rdist MA (fst (r n)) i0 = e -> exists n', n <= n' /\ A i0 n' = true).
      { induction e as [e IH] using lt_wf_ind. intros n d' L0 HP Ee.
        destruct (progress2 d' n L0 HP) as (n' & L & E & H).
        destruct (A i0 n') eqn:EA; [exists n'; auto|].
        destruct (dist_asm n' i0 H0 EA) as [_ HD]. specialize (HD H). rewrite E in HD.
        destruct (pot_later n d' (S n') L0) as (d1 & H1 & H2); auto.
        destruct (IH (rdist MA (fst (r (S n'))) i0)) with (n := S n') (d := d1) as (n'' & L' & H'); auto; [lia|lia|].
        exists n''. split; auto. lia. }
      intros n L0 HP. eauto.
    Qed.
  End PATH.

  Section PATHS.
    Variables (v : nat -> list bool) (r : nat -> nat * nat).
    Hypothesis Hr : forall n, rankOK c (r n).
    Hypothesis Hat : forall n, exists k m, at_ (fst (r n)) (snd (r n)) (ofVec (v n)) k m.
    Hypothesis Hmove : forall n, trans (strat (fst (r n)) (snd (r n))) (ofVec (v n)) (ofVec (v (S n))) = true.
    Hypothesis Hsafe : forall n, trans (safetySys c) (ofVec (v n)) (ofVec (v (S n))) = true.
    Hypothesis Hnext : forall n, r (S n) = nextR c (r n) (v n) (v (S n)).

    Lemma path_safeE n : trans (safetyEnv c) (ofVec (v n)) (ofVec (v (S n))) = true.
    Proof.
      destruct (Hat n) as (k & m & HA). destruct (Hr n).
      apply (fcT_safe (fst (r n)) (snd (r n)) _ _ k m). apply at_strat; auto.
    Qed.

    (** Some guarantee is violated from some point on. *)
    Lemma path_never n0 j0 i0 : j0 < MG -> i0 < MA ->
      (forall n, n0 <= n -> trans (gua j0) (ofVec (v n)) (ofVec (v (S n))) = false) ->
      forall n, exists n', n <= n' /\ trans (asm i0) (ofVec (v n')) (ofVec (v (S n'))) = true.
    Proof.
      intros Hj0 Hi0 HN n.
      destruct (progress3 v r Hr Hat Hmove Hsafe Hnext n0 (fun n d => rdist MG (snd (r n)) j0 = d)) with
        (i0 := i0) (n := max n n0) (d := rdist MG (snd (r (max n n0))) j0) as (n' & L & H); auto; [|lia|].
      - intros m d L <-. destruct (dist_gua v r Hr Hnext m j0 Hj0 (HN m L)) as [H1 H2]. eauto.
      - exists n'. split; auto. lia.
    Qed.

    (** A single guarantee. *)
    Lemma single_pot : MG = 1 -> forall n d, (exists m, at_ (fst (r n)) (snd (r n)) (ofVec (v n)) d m) ->
      exists d', (exists m, at_ (fst (r (S n))) (snd (r (S n))) (ofVec (v (S n))) d' m) /\ d' <= d /\
      (trans (gua (snd (r n))) (ofVec (v n)) (ofVec (v (S n))) = true -> d' < d).
    Proof.
      intros E n d (m & HA). destruct (Hr n) as [L1 L2]. destruct (Hr (S n)) as [L3 L4].
      destruct (at_step (fst (r n)) (snd (r n)) (ofVec (v n)) (ofVec (v (S n))) d m
        (fst (r (S n))) (snd (r (S n))) L1 L2 L3 L4 HA (Hmove n) (Hsafe n)) as (H1 & _ & H3 & _).
      destruct (trans (gua (snd (r n))) (ofVec (v n)) (ofVec (v (S n)))) eqn:EG.
      - destruct (H3 eq_refl E) as (k' & n' & L & H). exists k'. split; eauto. split; auto. lia.
      - destruct (H1 eq_refl) as (k' & n' & L & H). replace (snd (r n)) with (snd (r (S n))) in H by lia.
        exists k'. split; eauto. split; auto. discriminate.
    Qed.

    Lemma path_single i0 : MG = 1 -> i0 < MA ->
      forall n, exists n', n <= n' /\ trans (asm i0) (ofVec (v n')) (ofVec (v (S n'))) = true.
    Proof.
      intros E Hi0 n. destruct (Hat n) as (d & HA).
      destruct (progress3 v r Hr Hat Hmove Hsafe Hnext 0
        (fun n d => exists m, at_ (fst (r n)) (snd (r n)) (ofVec (v n)) d m)) with (i0 := i0) (n := n) (d := d)
        as (n' & L & H); auto; [|lia|eauto].
      intros m d' _ HP. now apply single_pot.
    Qed.

    Lemma path_count : MG = 1 -> exists B, forall n,
      length (filter (fun m => trans (gua 0) (ofVec (v m)) (ofVec (v (S m)))) (seq 0 n)) <= B.
    Proof.
      intros E. destruct (Hat 0) as (B & HA).
      assert (G : forall n, exists d, (exists m, at_ (fst (r n)) (snd (r n)) (ofVec (v n)) d m) /\
        length (filter (fun m => trans (gua 0) (ofVec (v m)) (ofVec (v (S m)))) (seq 0 n)) + d <= B).
      { induction n as [|n (d & H1 & H2)]; [exists B; split; auto|].
        destruct (single_pot E n d H1) as (d' & H3 & H4 & H5). exists d'. split; auto.
        rewrite seq_S, filter_app, app_length. cbn [plus filter].
        replace (snd (r n)) with 0 in H5 by (destruct (Hr n); lia).
        destruct (trans (gua 0) (ofVec (v n)) (ofVec (v (S n)))); cbn [length]; [specialize (H5 eq_refl)|]; lia. }
      exists B. intros n. destruct (G n) as (d & _ & H). lia.
    Qed.
  End PATHS.
End RANK.
