(** * Proofs: counts in binary

    A game with counter bits among its outputs is won by the system if and only if the game with a count
    is (MixedSpec.v). *)

From Coq Require Import Arith List Bool Lia.
From Verif Require Import Spec GameExt MixedSpec.
Import ListNotations.

(** ** The value of the bits from position [o] *)
Fixpoint cval (n o : nat) (b : state) : nat :=
  match n with
  | O => 0
  | S n => (if b o then 1 else 0) + 2 * cval n (S o) b
  end.
Lemma cval_bound n : forall o b, cval n o b < 2 ^ n.
Proof.
  induction n as [|n IH]; intros o b; cbn [cval]; [cbn; lia|]. rewrite Nat.pow_succ_r'. specialize (IH (S o) b). destruct (b o); lia.
Qed.
Lemma cval_bit n : forall o b i, i < n -> Nat.testbit (cval n o b) i = b (o + i).
Proof.
  induction n as [|n IH]; intros o b i Hi; [lia|]. cbn [cval]. destruct i as [|i].
  - rewrite Nat.add_0_r. destruct (b o); [rewrite Nat.add_comm; apply Nat.testbit_odd_0|rewrite Nat.add_0_l; apply Nat.testbit_even_0].
  - replace (o + S i) with (S o + i) by lia. rewrite <- IH by lia. destruct (b o).
    + rewrite Nat.add_comm. apply Nat.testbit_odd_succ. lia.
    + rewrite Nat.add_0_l. apply Nat.testbit_even_succ. lia.
Qed.
Lemma cval_of n : forall o b c, c < 2 ^ n -> (forall i, i < n -> b (o + i) = Nat.testbit c i) -> cval n o b = c.
Proof.
  induction n as [|n IH]; intros o b c Hc H; [cbn in *; lia|]. cbn [cval]. rewrite Nat.pow_succ_r' in Hc.
  pose proof (Nat.div2_odd c) as D. rewrite (IH (S o) b (Nat.div2 c)).
  - specialize (H 0 ltac:(lia)). rewrite Nat.add_0_r in H. rewrite H. cbn [Nat.testbit]. unfold Nat.b2n in D. destruct (Nat.odd c); lia.
  - destruct (Nat.odd c); cbn [Nat.b2n] in D; lia.
  - intros i Hi. replace (S o + i) with (o + S i) by lia. rewrite H by lia. reflexivity.
Qed.
Lemma cval_ext n : forall o b b', (forall i, i < n -> b (o + i) = b' (o + i)) -> cval n o b = cval n o b'.
Proof.
  intros o b b' H. apply cval_of; [apply cval_bound|]. intros i Hi. rewrite cval_bit by assumption. now apply H.
Qed.
Lemma cval_zero n o b : cval n o b = 0 <-> forall i, i < n -> b (o + i) = false.
Proof.
  split.
  - intros E i Hi. rewrite <- (cval_bit n o b i Hi), E. apply Nat.bits_0.
  - intros H. apply cval_of; [pose proof (Nat.pow_nonzero 2 n); lia|]. intros i Hi. rewrite Nat.bits_0. now apply H.
Qed.

Section EQUIV.
  Variable G : game.
  Variable N : nat.
  Variable asm : list ((state -> state -> bool) * nat).
  Variable k : nat.
  Definition same (s s' : state) : Prop := forall v, v < N -> s v = s' v.
  Definition same2 (p : state -> state -> bool) : Prop := forall s s' t t', same s s' -> same t t' -> p s t = p s' t'.
  Hypothesis dE : forall s s', same s s' -> g_initE G s = g_initE G s'.
  Hypothesis dS : forall s s', same s s' -> g_initS G s = g_initS G s'.
  Hypothesis dSafe : same2 (g_safeS G).
  Hypothesis dA : forall p, In p (g_liveA G) -> same2 p.
  Hypothesis dG : forall p, In p (g_liveG G) -> same2 p.
  Hypothesis dAsm : forall a, In a asm -> same2 (fst a).

  Lemma same_sym s s' : same s s' -> same s' s.
  Proof. intros H v Hv. symmetry. now apply H. Qed.

  Lemma violations_same s s' t t' : same s s' -> same t t' -> violations asm s t = violations asm s' t'.
  Proof.
    intros H H'. unfold violations. f_equal. apply filter_ext_in. intros a Ia. now rewrite (dAsm a Ia _ _ _ _ H H').
  Qed.
  Lemma disturbed_same s s' t t' : same s s' -> same t t' -> disturbed asm s t -> disturbed asm s' t'.
  Proof. intros H H' (a & Ia & Na & F). exists a. repeat split; auto. rewrite <- F. symmetry. now apply (dAsm a Ia). Qed.

  Definition alike (p q : countedState) : Prop := same (fst p) (fst q) /\ snd p = snd q.
  Lemma stepE_alike p q p' q' : alike p p' -> alike q q' -> stepE asm k p q -> stepE asm k p' q'.
  Proof.
    intros [P1 P2] [Q1 Q2] [H1 H2]. split.
    - intros a Ia La. rewrite <- (H1 a Ia La). symmetry. now apply (dAsm a Ia).
    - rewrite <- P2, <- (violations_same _ _ _ _ P1 Q1). exact H2.
  Qed.
  Lemma stepS_alike p q p' q' : alike p p' -> alike q q' -> stepS G asm p q -> stepS G asm p' q'.
  Proof.
    intros [P1 P2] [Q1 Q2] [H1 H2]. split.
    - rewrite <- H1. symmetry. now apply dSafe.
    - rewrite <- P2, <- Q2, <- (violations_same _ _ _ _ P1 Q1). exact H2.
  Qed.
  Lemma alike_sym p q : alike p q -> alike q p.
  Proof. intros [H1 H2]. split; auto. now apply same_sym. Qed.

  Lemma mixedObjective_alike p q : (forall n, alike (p n) (q n)) -> mixedObjective G asm k p -> mixedObjective G asm k q.
  Proof.
    intros H O I. assert (H' : forall n, alike (q n) (p n)) by (intros n; now apply alike_sym).
    destruct O as ((I1 & I2) & S & Lv). { rewrite <- I. apply dE. apply H. }
    split; [split|split].
    - rewrite <- I1. apply dS. apply H'.
    - transitivity (snd (p 0)); [symmetry; apply (H 0)|exact I2].
    - intros n A. apply (stepS_alike (p n) (p (Datatypes.S n))); auto. apply S. intros m Hm. apply (stepE_alike (q m) (q (Datatypes.S m))); auto.
    - intros A As. destruct Lv as (G1 & G2).
      + intros n. now apply (stepE_alike (q n) (q (Datatypes.S n))).
      + intros a Ia n. destruct (As a Ia n) as (m & Hm & D). exists m. split; auto. rewrite (proj2 (H m)).
        rewrite (dA a Ia _ _ _ _ (proj1 (H m)) (proj1 (H (Datatypes.S m)))). exact D.
      + split.
        * intros g Ig n. destruct (G1 g Ig n) as (m & Hm & D). exists m. split; auto.
          rewrite <- (dG g Ig _ _ _ _ (proj1 (H m)) (proj1 (H (Datatypes.S m)))). destruct D as [D|D]; auto. left.
          now apply (disturbed_same _ _ _ _ (proj1 (H m)) (proj1 (H (Datatypes.S m)))).
        * intros n. destruct (G2 n) as (m & Hm & D). exists m. split; auto. rewrite <- (proj2 (H (Datatypes.S m))). destruct D as [D|D]; auto. left.
          now apply (disturbed_same _ _ _ _ (proj1 (H m)) (proj1 (H (Datatypes.S m)))).
  Qed.

  (** ** The game with counter bits *)
  Variable Gb : game.
  Variables Nb o nb : nat.
  Variables sg tu : nat -> nat.
  Hypothesis kBits : k < 2 ^ nb.
  Hypothesis Hts : forall v, tu (sg v) = v.
  Hypothesis sgNb : forall v, v < N -> sg v < Nb.
  Hypothesis sgOut : forall v, sg v < o \/ o + nb <= sg v.
  Hypothesis outSg : forall v, g_out Gb (sg v) = g_out G v.
  Hypothesis outTu : forall j, j < o \/ o + nb <= j -> g_out Gb j = g_out G (tu j).
  Hypothesis outCnt : forall i, i < nb -> g_out Gb (o + i) = true.

  Definition base (b : state) : state := fun v => b (sg v).
  Definition cnt (b : state) : nat := cval nb o b.
  Definition counted (b : state) : countedState := (base b, cnt b).
  Definition assemble (s : state) (c : nat) : state :=
    fun j => if (o <=? j) && (j <? o + nb) then Nat.testbit c (j - o) else s (tu j).

  Hypothesis hInitE : forall b, g_initE Gb b = g_initE G (base b).
  Hypothesis hInitS : forall b, g_initS Gb b = true <-> g_initS G (base b) = true /\ cnt b = 0.
  Hypothesis hSafeE : forall b b', cnt b <= k -> (g_safeE Gb b b' = true <-> stepE asm k (counted b) (counted b')).
  Hypothesis hSafeS : forall b b', cnt b <= k -> stepE asm k (counted b) (counted b') ->
    (g_safeS Gb b b' = true <-> stepS G asm (counted b) (counted b')).
  Hypothesis hLiveA : Forall2 (fun p a => forall b b', p b b' = true <-> cnt b <> 0 \/ a (base b) (base b') = true) (g_liveA Gb) (g_liveA G).
  Variable goals : list (state -> state -> bool).
  Variable last : state -> state -> bool.
  Hypothesis hGoals : g_liveG Gb = goals ++ [last].
  Hypothesis hLiveG : Forall2 (fun p a => forall b b', p b b' = true <-> disturbed asm (base b) (base b') \/ a (base b) (base b') = true) goals (g_liveG G).
  Hypothesis hLast : forall b b', last b b' = true <-> disturbed asm (base b) (base b') \/ cnt b' = 0.

  Lemma F2_in_l {A B} (R : A -> B -> Prop) l l' a : Forall2 R l l' -> In a l -> exists b, In b l' /\ R a b.
  Proof. induction 1 as [|x y l l' H HF IH]; intros []; subst; [exists y; cbn; auto|]. destruct IH as (b & ? & ?); auto. exists b; cbn; auto. Qed.
  Lemma F2_in_r {A B} (R : A -> B -> Prop) l l' b : Forall2 R l l' -> In b l' -> exists a, In a l /\ R a b.
  Proof. induction 1 as [|x y l l' H HF IH]; intros []; subst; [exists x; cbn; auto|]. destruct IH as (a & ? & ?); auto. exists a; cbn; auto. Qed.

  (** *** From bits to counts *)
  Lemma objective_counted pi : objective Gb pi -> mixedObjective G asm k (fun n => counted (pi n)).
  Proof.
    intros O I. cbn [counted fst snd] in *. rewrite <- hInitE in I. destruct (O I) as (IS & S & Lv). apply hInitS in IS. split; [exact IS|].
    assert (K : forall n, (forall m, m < n -> stepE asm k (counted (pi m)) (counted (pi (Datatypes.S m)))) -> 
      cnt (pi n) <= k /\ forall m, m < n -> g_safeE Gb (pi m) (pi (Datatypes.S m)) = true).
    { induction n as [|n IH]; intros A; [split; [lia|intros; lia]|]. destruct IH as (C & E). { intros m Hm. apply A. lia. }
      assert (E' : forall m, m < Datatypes.S n -> g_safeE Gb (pi m) (pi (Datatypes.S m)) = true).
      { intros m Hm. destruct (Nat.eq_dec m n) as [->|Hn]; [|apply E; lia]. apply hSafeE; auto. }
      split; auto. assert (T : g_safeS Gb (pi n) (pi (Datatypes.S n)) = true) by (apply S; intros m Hm; apply E'; lia).
      apply hSafeS in T; auto. destruct T as [_ T]. destruct (A n ltac:(lia)) as [_ T']. cbn [counted fst snd] in T, T'. lia. }
    split.
    - intros n A. destruct (K (Datatypes.S n)) as (_ & E). { intros m Hm. apply A. lia. }
      destruct (K n) as (C & _). { intros m Hm. apply A. lia. }
      apply hSafeS; auto. apply S. intros m Hm. apply E. lia.
    - intros A As. assert (Lv' : forall p, In p (g_liveG Gb) -> inf_often p pi).
      { apply Lv.
        - intros n. apply (proj2 (K (Datatypes.S n) (fun m _ => A m)) n). lia.
        - intros p Hp n. destruct (F2_in_l _ _ _ _ hLiveA Hp) as (a & Ia & Ha). destruct (As a Ia n) as (m & Hm & D). exists m. split; auto. apply Ha. exact D. }
      split.
      + intros g Ig n. destruct (F2_in_r _ _ _ _ hLiveG Ig) as (p & Hp & Hg). destruct (Lv' p) with (n := n) as (m & Hm & D).
        { rewrite hGoals. apply in_or_app. now left. }
        exists m. split; auto. now apply Hg.
      + intros n. destruct (Lv' last) with (n := n) as (m & Hm & D). { rewrite hGoals. apply in_or_app. right. now left. }
        exists m. split; auto. now apply hLast.
  Qed.

  (** *** From counts to bits *)
  Lemma objective_bits pi b : (forall n, same (fst (pi n)) (base (b n))) -> (forall n, snd (pi n) < 2 ^ nb -> cnt (b n) = snd (pi n)) ->
    mixedObjective G asm k pi -> objective Gb b.
  Proof.
    intros H C O I. rewrite hInitE in I. destruct O as ((I1 & I2) & S & Lv). { rewrite <- I. apply dE. apply H. }
    assert (C0 : cnt (b 0) = 0). { rewrite C, I2; auto. rewrite I2. lia. }
    assert (AL : forall n, cnt (b n) = snd (pi n) -> alike (counted (b n)) (pi n)).
    { intros n E. split; cbn [counted fst snd]; auto. now apply same_sym. }
    split. { apply hInitS. split; auto. rewrite <- I1. apply dS. apply same_sym. apply H. }
    assert (K : forall n, (forall m, m < n -> g_safeE Gb (b m) (b (Datatypes.S m)) = true) ->
      (forall m, m <= n -> cnt (b m) = snd (pi m) /\ snd (pi m) <= k) /\ (forall m, m < n -> stepE asm k (pi m) (pi (Datatypes.S m)))).
    { induction n as [|n IH]; intros A; [split; [intros m Hm; replace m with 0 by lia; lia|intros; lia]|].
      destruct IH as (E & F). { intros m Hm. apply A. lia. }
      assert (F' : forall m, m <= n -> stepE asm k (pi m) (pi (Datatypes.S m))).
      { intros m Hm. destruct (Nat.eq_dec m n) as [->|Hn]; [|apply F; lia]. destruct (E n ltac:(lia)) as [E1 E2].
        pose proof (A n ltac:(lia)) as T. apply hSafeE in T; [|lia]. destruct T as [T1 T2]. cbn [counted fst snd] in T1, T2. split.
        - intros a Ia La. rewrite <- (T1 a Ia La). apply (dAsm a Ia); apply H.
        - rewrite <- E1, (violations_same _ _ _ _ (H n) (H (Datatypes.S n))). exact T2. }
      split; [|intros m Hm; apply F'; lia].
      intros m Hm. destruct (Nat.eq_dec m (Datatypes.S n)) as [->|Hn]; [|apply E; lia].
      destruct (S n F') as [_ T]. destruct (F' n ltac:(lia)) as [_ T']. rewrite C; lia. }
    split.
    - intros n A. destruct (K (Datatypes.S n)) as (E & F). { intros m Hm. apply A. lia. }
      pose proof (AL n (proj1 (E n ltac:(lia)))) as A1. pose proof (AL (Datatypes.S n) (proj1 (E (Datatypes.S n) ltac:(lia)))) as A2.
      pose proof (E n ltac:(lia)) as En. apply hSafeS; [lia| |].
      + apply (stepE_alike (pi n) (pi (Datatypes.S n))); [now apply alike_sym|now apply alike_sym|]. apply F. lia.
      + apply (stepS_alike (pi n) (pi (Datatypes.S n))); [now apply alike_sym|now apply alike_sym|]. apply S. intros m Hm. apply F. lia.
    - intros A As. assert (E : forall n, cnt (b n) = snd (pi n)) by (intros n; apply (proj1 (K n (fun m _ => A m)) n); lia).
      assert (AL' : forall n, same (fst (pi n)) (base (b n))) by exact H.
      destruct Lv as (G1 & G2).
      + intros n. apply (proj2 (K (Datatypes.S n) (fun m _ => A m))). lia.
      + intros a Ia n. destruct (F2_in_r _ _ _ _ hLiveA Ia) as (p & Hp & Ha). destruct (As p Hp n) as (m & Hm & D). exists m. split; auto. apply Ha in D.
        rewrite <- E. destruct D as [D|D]; auto. right. rewrite <- D. now apply (dA a Ia).
      + intros p Hp. rewrite hGoals in Hp. apply in_app_or in Hp. destruct Hp as [Hp|[<-|[]]]; intros n.
        * destruct (F2_in_l _ _ _ _ hLiveG Hp) as (g & Ig & Hg). destruct (G1 g Ig n) as (m & Hm & D). exists m. split; auto. apply Hg.
          destruct D as [D|D]; [left; now apply (disturbed_same _ _ _ _ (AL' m) (AL' (Datatypes.S m)))|right; rewrite <- D; symmetry; now apply (dG g Ig)].
        * destruct (G2 n) as (m & Hm & D). exists m. split; auto. apply hLast. rewrite E.
          destruct D as [D|D]; [left; now apply (disturbed_same _ _ _ _ (AL' m) (AL' (Datatypes.S m)))|now right].
  Qed.

  (** *** Strategies *)
  Section Count.
    Variable fb : strategy.
    Let nin (x : state) : state := norm Gb Nb (assemble x 0).
    Fixpoint rebuildC (h : list countedState) : list state :=
      match h with
      | [] => []
      | p :: h => let r := rebuildC h in merge Gb (nin (fst p)) (fb r (nin (fst p))) :: r
      end.
    Definition withCount : countedStrategy := fun h x => let y := fb (rebuildC h) (nin x) in (base y, cnt y).
    Lemma nin_merge x y : nin (merge G x y) = nin x.
    Proof.
      apply norm_eq. intros j _ Hj. unfold assemble. destruct ((o <=? j) && (j <? o + nb)) eqn:E; [reflexivity|].
      unfold merge. rewrite <- outTu, Hj; [reflexivity|]. apply andb_false_iff in E. rewrite Nat.leb_gt, Nat.ltb_ge in E. lia.
    Qed.
    Lemma history_withCount x n : rebuildC (countedHistory G withCount x n) = history Gb fb (fun m => nin (x m)) n.
    Proof.
      induction n as [|n IH]; cbn [countedHistory rebuildC history]; cbv zeta; cbn [rebuildC fst].
      - now rewrite nin_merge.
      - now rewrite nin_merge, IH.
    Qed.
    Lemma counted_merge x y : alike (counted (merge Gb (nin x) y)) (merge G x (base y), cnt y).
    Proof.
      split; cbn [counted fst snd].
      - intros v Hv. unfold base, merge. rewrite outSg. destruct (g_out G v) eqn:E; [reflexivity|]. unfold nin. rewrite norm_val; [|auto|now rewrite outSg].
        unfold assemble. destruct ((o <=? sg v) && (sg v <? o + nb)) eqn:T.
        + apply andb_true_iff in T. rewrite Nat.leb_le, Nat.ltb_lt in T. destruct (sgOut v); lia.
        + now rewrite Hts.
      - apply cval_ext. intros i Hi. unfold merge. now rewrite outCnt.
    Qed.
    Lemma play_withCount x n : alike (counted (play Gb fb (fun m => nin (x m)) n)) (countedPlay G withCount x n).
    Proof.
      unfold play, countedPlay. destruct n as [|n]; cbn [history countedHistory hd]; cbv zeta; cbn [hd].
      - unfold withCount at 1 2. cbn [rebuildC fst snd]. apply counted_merge.
      - unfold withCount at 1 3. rewrite history_withCount. cbn [fst snd]. apply counted_merge.
    Qed.
  End Count.

  Section Bits.
    Variable fc : countedStrategy.
    Let nin (x : state) : state := norm G N (base x).
    Fixpoint rebuildB (h : list state) : list countedState :=
      match h with
      | [] => []
      | b :: h => let r := rebuildB h in let y := fc r (nin b) in (merge G (nin b) (fst y), snd y) :: r
      end.
    Definition withBits : strategy := fun h x => let y := fc (rebuildB h) (nin x) in assemble (fst y) (snd y).
    Lemma ninB_merge x y : nin (merge Gb x y) = nin x.
    Proof. apply norm_eq. intros v _ Hv. unfold base, merge. now rewrite outSg, Hv. Qed.
    Lemma history_withBits x n : rebuildB (history Gb withBits x n) = countedHistory G fc (fun m => nin (x m)) n.
    Proof.
      induction n as [|n IH]; cbn [history rebuildB countedHistory].
      - now rewrite ninB_merge.
      - now rewrite ninB_merge, IH.
    Qed.
    Lemma base_merge x (y : countedState) : same (merge G (nin x) (fst y)) (base (merge Gb x (assemble (fst y) (snd y)))).
    Proof.
      intros v Hv. unfold base at 1, merge. rewrite outSg. destruct (g_out G v) eqn:E.
      - unfold assemble. destruct ((o <=? sg v) && (sg v <? o + nb)) eqn:T.
        + apply andb_true_iff in T. rewrite Nat.leb_le, Nat.ltb_lt in T. destruct (sgOut v); lia.
        + now rewrite Hts.
      - unfold nin. now rewrite norm_val.
    Qed.
    Lemma cnt_merge x (y : countedState) : snd y < 2 ^ nb -> cnt (merge Gb x (assemble (fst y) (snd y))) = snd y.
    Proof.
      intros H. apply cval_of; auto. intros i Hi. unfold merge. rewrite outCnt by assumption. unfold assemble.
      replace (o <=? o + i) with true by (symmetry; apply Nat.leb_le; lia). replace (o + i <? o + nb) with true by (symmetry; apply Nat.ltb_lt; lia).
      cbn [andb]. f_equal. lia.
    Qed.
    Lemma play_withBits x n : same (fst (countedPlay G fc (fun m => nin (x m)) n)) (base (play Gb withBits x n)) /\
      (snd (countedPlay G fc (fun m => nin (x m)) n) < 2 ^ nb -> cnt (play Gb withBits x n) = snd (countedPlay G fc (fun m => nin (x m)) n)).
    Proof.
      unfold play, countedPlay. destruct n as [|n]; cbn [history countedHistory hd]; cbv zeta; cbn [hd fst snd].
      - unfold withBits. cbn [rebuildB]. split; [apply base_merge|apply cnt_merge].
      - unfold withBits at 1 3. rewrite history_withBits. split; [apply base_merge|apply cnt_merge].
    Qed.
  End Bits.

  Theorem count_equiv : realizable Gb <-> mixedRealizable G asm k.
  Proof.
    split.
    - intros (f & Hf). exists (withCount f). intros x.
      eapply mixedObjective_alike; [|apply objective_counted; apply Hf]. intros n. apply play_withCount.
    - intros (f & Hf). exists (withBits f). intros x. eapply objective_bits; [| |apply Hf]; intros n; apply (play_withBits f x n).
  Qed.
End EQUIV.
