(** * Determinization and single positions *)

From Coq Require Import Arith List Bool Lia.
From Verif Require Import BDD Loop Spec VarTypes Synth Sem FixBase AutSpec Explicit.
Import ListNotations.

Lemma determinize1_spec f v e0 : eval f e0 = true ->
  exists b, (exists e, eval f e = true /\ e v = b) /\
    forall e, eval (determinize1 f v) e = eval f e && Bool.eqb (e v) b.
Proof.
  intros H. unfold determinize1. destruct (isFalse (band f (bnot (bvar v)))) eqn:E.
  - exists true. rewrite isFalse_spec in E. split.
    + exists e0. split; auto. specialize (E e0). rewrite eval_and, eval_not, eval_var, H in E.
      cbn in E. now destruct (e0 v).
    + intros e. rewrite eval_and, eval_var. now destruct (eval f e), (e v).
  - exists false. apply isFalse_false in E. destruct E as (e & E).
    rewrite eval_and, eval_not, eval_var in E. apply andb_true_iff in E. destruct E as [E1 E2].
    split; [exists e; split; auto; now destruct (e v)|].
    intros e'. rewrite eval_and, eval_not, eval_var. now destruct (eval f e'), (e' v).
Qed.

Definition agreeOn (vs : list nat) (e e' : nat -> bool) : bool :=
  forallb (fun v => Bool.eqb (e v) (e' v)) vs.

Lemma agreeOn_iff vs e e' : agreeOn vs e e' = true <-> forall v, In v vs -> e v = e' v.
Proof.
  unfold agreeOn. rewrite forallb_forall. split; intros H v Hv; specialize (H v Hv); now apply eqb_true_iff.
Qed.

(** A member [e0] of the set is picked, and exactly the members that agree with it
    on the listed variables are kept. *)
Lemma determinize_spec vs : forall f, isFalse f = false ->
  exists e0, eval f e0 = true /\
    forall e, eval (determinize f vs) e = eval f e && agreeOn vs e e0.
Proof.
  induction vs as [|v vs IH]; intros f Hf; cbn [determinize fold_left].
  - apply isFalse_false in Hf. destruct Hf as (e0 & H). exists e0. split; auto.
    intros e. cbn. now rewrite andb_true_r.
  - apply isFalse_false in Hf. destruct Hf as (e0 & H).
    destruct (determinize1_spec f v e0 H) as (b & (e1 & H1 & H1') & Hb).
    destruct (IH (determinize1 f v)) as (e2 & H2 & H3).
    + apply isFalse_false. exists e1. rewrite Hb, H1, H1'. now destruct b.
    + exists e2. rewrite Hb in H2. apply andb_true_iff in H2. destruct H2 as [H2 H2'].
      apply eqb_prop in H2'. split; auto. intros e. fold (determinize (determinize1 f v) vs).
      rewrite H3, Hb. cbn [agreeOn forallb]. rewrite H2'. fold (agreeOn vs e e2).
      now destruct (eval f e), (Bool.eqb (e v) b).
Qed.

Lemma determinize_empty vs : forall f, isFalse f = true -> isFalse (determinize f vs) = true.
Proof.
  induction vs as [|v vs IH]; intros f Hf; cbn [determinize fold_left]; auto.
  apply IH. unfold determinize1. rewrite isFalse_spec in Hf.
  replace (isFalse (band f (bnot (bvar v)))) with true.
  - apply isFalse_spec. intros e. now rewrite eval_and, Hf.
  - symmetry. apply isFalse_spec. intros e. now rewrite eval_and, Hf.
Qed.

Lemma dep_determinize (P : nat -> Prop) vs : (forall v, In v vs -> P v) -> forall f, dep P f -> dep P (determinize f vs).
Proof.
  induction vs as [|v vs IH]; intros Hv f Hf; cbn [determinize fold_left]; auto.
  apply IH; [intros; apply Hv; now right|]. unfold determinize1.
  assert (P v) by (apply Hv; now left).
  destruct (isFalse _); apply dep_and; auto; [|apply dep_not]; now apply dep_var.
Qed.

(** ** The set with exactly one position *)
Section POINT.
  Variable c : ctx.
  Hypothesis Hk : exists kinds, varTypes c = typesOf kinds /\ forallb isPreKind kinds = true.
  Local Notation N := (nvars c).
  Local Notation pre := (dep (isPreV c)).
  Local Notation any := (dep (isAnyV c)).

  Definition lit (l : list bool) (k : nat) : BF := if nth k l false then bvar (2 * k) else bnot (bvar (2 * k)).
  Definition ptOf (l : list bool) : BF := fold_left (fun f k => band f (lit l k)) (seq 0 N) btrue.

  Lemma fold_lit l ks : forall f e,
    eval (fold_left (fun f k => band f (lit l k)) ks f) e = true <->
    eval f e = true /\ forall k, In k ks -> e (2 * k) = nth k l false.
  Proof.
    induction ks as [|k ks IH]; intros f e; cbn [fold_left].
    - split; [intros H; split; auto; now intros k []|tauto].
    - rewrite IH, eval_and, andb_true_iff. unfold lit. split.
      + intros [[H1 H2] H3]. split; auto. intros m [<-|Hm]; auto.
        destruct (nth k l false); rewrite ?eval_not, eval_var in H2; auto. now apply negb_true_iff.
      + intros [H1 H2]. repeat split; auto.
        * specialize (H2 k (or_introl eq_refl)).
          destruct (nth k l false); rewrite ?eval_not, eval_var, H2; reflexivity.
        * intros m Hm. apply H2. now right.
  Qed.

  Lemma eval_ptOf l e : eval (ptOf l) e = true <-> forall k, k < N -> e (2 * k) = nth k l false.
  Proof.
    unfold ptOf. rewrite fold_lit, eval_true. split.
    - intros [_ H] k Hk'. apply H. apply in_seq. lia.
    - intros H. split; auto. intros k Hk'. apply in_seq in Hk'. apply H. lia.
  Qed.

  Lemma trans_ptOf l s t : trans (ptOf l) s t = true <-> same N s (ofVec l).
  Proof.
    unfold trans. rewrite eval_ptOf. unfold same, ofVec. split; intros H k Hk'; specialize (H k Hk');
      rewrite ?tv_even in *; auto.
  Qed.
  Lemma pos_ptOf l s : pos (ptOf l) s = true <-> same N s (ofVec l).
  Proof. apply trans_ptOf. Qed.

  Lemma pre_ptOf l : pre (ptOf l).
  Proof.
    unfold ptOf. assert (G : forall ks f, (forall k, In k ks -> k < N) -> pre f ->
              pre (fold_left (fun f k => band f (lit l k)) ks f)).
    { induction ks as [|k ks IH]; intros f Hks Hf; cbn [fold_left]; auto.
      apply IH; [intros; apply Hks; now right|]. apply dep_and; auto.
      assert (isPreV c (2 * k)).
      { split; [|apply even_double]. rewrite nvars_spec by auto.
        assert (k < N) by (apply Hks; now left). lia. }
      unfold lit. destruct (nth k l false); [|apply dep_not]; now apply dep_var. }
    apply G; [|apply dep_true]. intros k Hk'. apply in_seq in Hk'. lia.
  Qed.

  Lemma same_vec l l' : length l = N -> length l' = N -> same N (ofVec l) (ofVec l') -> l = l'.
  Proof.
    intros H H' S. apply (nth_ext l l' false false); [congruence|].
    intros k Hk'. apply S. congruence.
  Qed.

  Lemma ptOf_inj l l' : length l = N -> length l' = N -> ptOf l = ptOf l' -> l = l'.
  Proof.
    intros H H' E. apply same_vec; auto. apply pos_ptOf. rewrite <- E. apply pos_ptOf. now intros k _.
  Qed.

  Lemma toVec_length s : length (toVec N s) = N.
  Proof. unfold toVec. now rewrite map_length, seq_length. Qed.

  Lemma same_toVec s : same N (ofVec (toVec N s)) s.
  Proof. intros k Hk'. now apply ofVec_toVec. Qed.

  Lemma same_sym n s t : same n s t -> same n t s.
  Proof. intros H k Hk'. symmetry. auto. Qed.
  Lemma same_trans n s t u : same n s t -> same n t u -> same n s u.
  Proof. intros H H' k Hk'. rewrite H, H'; auto. Qed.

  (** Determinizing a set of positions. *)
  Lemma determinize_pre f : pre f -> isFalse f = false ->
    exists l, length l = N /\ pos f (ofVec l) = true /\ determinize f (preVars c) = ptOf l.
  Proof.
    intros Hf Hne. destruct (determinize_spec (preVars c) f Hne) as (e0 & H0 & HE).
    set (s0 := fun k => e0 (2 * k)).
    assert (Hs0 : forall s, same N s s0 -> pos f s = true).
    { intros s Hs. rewrite <- H0. apply Hf. intros v [Hv Ev]. rewrite nvars_spec in Hv by auto.
      destruct (even_cases v) as [[k ->]|[k ->]]; [|rewrite even_double1 in Ev; discriminate].
      rewrite tv_even. apply Hs. lia. }
    exists (toVec N s0). split; [apply toVec_length|]. split; [apply Hs0, same_toVec|].
    apply (pos_inj c).
    - apply dep_determinize; auto. intros v Hv. apply (in_preVars c Hk) in Hv.
      destruct Hv as (k & -> & Hk'). split; [rewrite nvars_spec by auto; lia|apply even_double].
    - apply pre_ptOf.
    - intros s. apply eq_true_iff_eq. rewrite pos_ptOf. unfold pos. rewrite HE, andb_true_iff, agreeOn_iff.
      split.
      + intros [_ H]. apply same_trans with s0; [|apply same_sym, same_toVec].
        intros k Hk'. unfold s0. rewrite <- (H (2 * k)); [now rewrite tv_even|].
        apply (in_preVars c Hk). eauto.
      + intros H. assert (S : same N s s0) by (eapply same_trans; [exact H|apply same_toVec]).
        split; [now apply Hs0|]. intros v Hv. apply (in_preVars c Hk) in Hv.
        destruct Hv as (k & -> & Hk'). rewrite tv_even. now apply S.
  Qed.

  (** Determinizing transitions from a single position. *)
  Lemma determinize_post f l : any f -> length l = N ->
    (forall s t, trans f s t = true -> same N s (ofVec l)) -> isFalse f = false ->
    exists u, length u = N /\ trans f (ofVec l) (ofVec u) = true /\
      forall s t, trans (determinize f (postVars c)) s t = true <-> same N s (ofVec l) /\ same N t (ofVec u).
  Proof.
    intros Hf Hl HP Hne. destruct (determinize_spec (postVars c) f Hne) as (e0 & H0 & HE).
    set (s0 := fun k => e0 (2 * k)). set (t0 := fun k => e0 (2 * k + 1)).
    assert (E0 : trans f s0 t0 = true).
    { rewrite <- H0. unfold trans. apply eval_ext. intros v.
      destruct (even_cases v) as [[k ->]|[k ->]]; rewrite ?tv_even, ?tv_odd; reflexivity. }
    pose proof (HP _ _ E0) as S0.
    assert (Hst : forall s t, same N s (ofVec l) -> same N t t0 -> trans f s t = true).
    { intros s t Hs Ht. rewrite <- E0. apply (trans_ext c Hk); auto.
      intros k Hk'. rewrite Hs, S0; auto. }
    exists (toVec N t0). split; [apply toVec_length|]. split.
    - apply Hst; [now intros k _|apply same_toVec].
    - intros s t. unfold trans at 1. rewrite HE, andb_true_iff, agreeOn_iff. split.
      + intros [H1 H2]. split; [apply (HP s t H1)|].
        apply same_trans with t0; [|apply same_sym, same_toVec].
        intros k Hk'. unfold t0. rewrite <- (H2 (2 * k + 1)); [now rewrite tv_odd|].
        apply (in_postVars c Hk). eauto.
      + intros [H1 H2]. assert (S : same N t t0) by (eapply same_trans; [exact H2|apply same_toVec]).
        split; [now apply Hst|]. intros v Hv. apply (in_postVars c Hk) in Hv.
        destruct Hv as (k & -> & Hk'). rewrite tv_odd. now apply S.
  Qed.

  (** Removing the current values and renaming next to current values. *)
  Lemma next_point f l u : length u = N ->
    any f -> (forall s t, trans f s t = true <-> same N s (ofVec l) /\ same N t (ofVec u)) ->
    swapPrePost c (bexists (varCubePre c) f) = ptOf u.
  Proof.
    intros Hu Hf H.
    assert (HX : forall s t, trans (bexists (varCubePre c) f) s t = true <-> same N t (ofVec u)).
    { intros s t. unfold trans. rewrite eval_exists. split.
      - intros (e & Ha & He).
        assert (E : trans f (fun k => e (2 * k)) (fun k => e (2 * k + 1)) = true).
        { rewrite <- He. apply eval_ext. intros v.
          destruct (even_cases v) as [[k ->]|[k ->]]; rewrite ?tv_even, ?tv_odd; reflexivity. }
        apply H in E. destruct E as [_ E]. intros k Hk'. rewrite <- E by auto.
        rewrite <- Ha; [now rewrite tv_odd|].
        intros Hin. apply (in_cubePre c Hk) in Hin. destruct Hin as (m & E' & _). lia.
      - intros Ht. exists (tv (fun k => if k <? N then ofVec l k else s k) t). split.
        + intros v Hv. destruct (even_cases v) as [[k ->]|[k ->]]; rewrite ?tv_even, ?tv_odd; auto.
          destruct (Nat.ltb_spec k N) as [L|L]; auto. elim Hv. apply (in_cubePre c Hk). eauto.
        + apply H. split; auto. intros k Hk'. now apply Nat.ltb_lt in Hk' as ->. }
    assert (HA : any (bexists (varCubePre c) f)) by (eapply dep_exists; [exact Hf|auto]).
    apply trans_inj. intros s t. apply eq_true_iff_eq. rewrite trans_swap, HX, trans_ptOf by auto. tauto.
  Qed.
End POINT.
