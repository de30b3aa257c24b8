(** * Spoiling inputs if some outputs are set before the input is read

    As GameComplete.v, but the environment knows the values of the outputs in [B]. *)

From Coq Require Import Arith List Bool Lia.
From Verif Require Import Spec InterleaveSpec.
Import ListNotations.

Section SPOIL.
  Variable g : game.
  Variables nA nG : nat.
  Variable A : nat -> state -> state -> bool.
  Variable G : nat -> state -> state -> bool.
  Hypothesis HA : forall p, In p (g_liveA g) -> exists i, i < nA /\ forall s t, p s t = A i s t.
  Hypothesis HG : forall j, j < nG -> exists p, In p (g_liveG g) /\ forall s t, p s t = G j s t.
  Hypothesis nA_pos : 0 < nA.

  (** Outer iterates, middle fixed points and inner iterates. *)
  Variable Z : nat -> state -> bool.
  Variable Y : nat -> nat -> state -> bool.
  Variable X : nat -> nat -> nat -> nat -> state -> bool.
  Variable M : nat -> nat -> nat -> nat.
  Variable B : nat -> bool.
  Variable pick : nat -> nat -> nat -> nat -> state -> state -> state.

  Hypothesis HZ0 : forall s, Z 0 s = true.
  Hypothesis HX0 : forall k j i s, X k j i 0 s = true.
  Hypothesis HZ : forall k s, Z (S k) s = false -> exists j, j < nG /\ Y k j s = false.
  Hypothesis HY : forall k j i s, j < nG -> i < nA -> Y k j s = false -> X k j i (M k j i) s = false.
  Hypothesis Hpick : forall k j i m s, j < nG -> i < nA -> X k j i (S m) s = false ->
    forall b y, (forall n, B n = true -> y n = b n) -> let t := merge g (pick k j i m s b) y in
      g_safeE g s t = true /\
      (g_safeS g s t = true ->
        (G j s t = true -> Z k t = false) /\ Y k j t = false /\
        (A i s t = true \/ X k j i m t = false)).

  (** The memory of the spoiling environment: outer index, goal, assumption,
      inner index. *)
  Record mem := mkMem { mk : nat; mj : nat; mi : nat; mm : nat }.

  Definition findGoal (k : nat) (s : state) : nat :=
    match find (fun j => negb (Y k j s)) (seq 0 nG) with Some j => j | None => 0 end.

  Definition startMem (k : nat) (s : state) : mem :=
    let j := findGoal k s in mkMem k j 0 (pred (M k j 0)).

  Definition nextMem (e : mem) (s t : state) : mem :=
    if negb (Z (mk e) t) then startMem (pred (mk e)) t
    else if A (mi e) s t then
      let i := (mi e + 1) mod nA in mkMem (mk e) (mj e) i (pred (M (mk e) (mj e) i))
    else mkMem (mk e) (mj e) (mi e) (pred (mm e)).

  Definition inv (e : mem) (s : state) : Prop :=
    mj e < nG /\ mi e < nA /\ Y (mk e) (mj e) s = false /\ X (mk e) (mj e) (mi e) (S (mm e)) s = false.

  Lemma Msucc k j i s : j < nG -> i < nA -> Y k j s = false ->
    X k j i (S (pred (M k j i))) s = false.
  Proof.
    intros Hj Hi H. pose proof (HY k j i s Hj Hi H) as E.
    destruct (M k j i); [rewrite HX0 in E; discriminate|exact E].
  Qed.

  Lemma startMem_inv k s : Z (S k) s = false -> inv (startMem k s) s.
  Proof.
    intros H. destruct (HZ k s H) as (j & Hj & Ej). unfold startMem, findGoal.
    destruct (find _ _) as [j'|] eqn:F.
    - apply find_some in F. destruct F as [F1 F2]. apply in_seq in F1. apply negb_true_iff in F2.
      unfold inv; cbn. repeat split; auto; try lia. apply Msucc; auto; lia.
    - exfalso. pose proof (find_none _ _ F j) as N. cbv beta in N. rewrite Ej in N.
      assert (negb false = false) by (apply N; apply in_seq; lia). discriminate.
  Qed.

  Section STRATEGY.
    Variable f : strategy.
    Variable s0 : state.
    Variable K : nat.
    Hypothesis Hs0 : Z (S K) s0 = false.
    Hypothesis Hf : before B f.

    Definition hd' (h : list state) : state := hd (fun _ => false) h.

    Fixpoint hm (n : nat) : list state * mem :=
      match n with
      | O => ([s0], startMem K s0)
      | S n => let '(h, e) := hm n in
               let x := pick (mk e) (mj e) (mi e) (mm e) (hd' h) (f h s0) in
               let t := merge g x (f h x) in
               (t :: h, nextMem e (hd' h) t)
      end.

    Definition xs (n : nat) : state :=
      match n with
      | O => s0
      | S n => let e := snd (hm n) in pick (mk e) (mj e) (mi e) (mm e) (hd' (fst (hm n))) (f (fst (hm n)) s0)
      end.

    Lemma history_hm n : history_from g f s0 xs n = fst (hm n).
    Proof.
      induction n as [|n IH]; auto. cbn [history_from]. rewrite IH. unfold xs.
      cbn [hm]. destruct (hm n) as [h e]. reflexivity.
    Qed.

    Definition pi (n : nat) : state := play_from g f s0 xs n.
    Definition me (n : nat) : mem := snd (hm n).

    Lemma pi_S n : exists b y, (forall k, B k = true -> y k = b k) /\
      pi (S n) = merge g (pick (mk (me n)) (mj (me n)) (mi (me n)) (mm (me n)) (pi n) b) y.
    Proof.
      unfold pi, play_from. cbn [history_from hd]. rewrite history_hm.
      exists (f (fst (hm n)) s0), (f (fst (hm n)) (xs (S n))). split; [|reflexivity].
      intros k Hk. apply Hf; auto. destruct n; cbn; [discriminate|]. destruct (hm n). discriminate.
    Qed.
    Lemma me_S n : me (S n) = nextMem (me n) (pi n) (pi (S n)).
    Proof.
      unfold me, pi, play_from. rewrite !history_hm. cbn [hm]. destruct (hm n) as [h e]. reflexivity.
    Qed.

    Hypothesis Hwin : safe_and_live g (play_from g f s0 xs).

    Lemma all_inv n : inv (me n) (pi n) /\ (forall i, i < n -> g_safeE g (pi i) (pi (S i)) = true).
    Proof.
      induction n as [|n [I E]].
      - split; [apply startMem_inv; auto|]. lia.
      - destruct (pi_S n) as (b & y & Hb & Ey).
        destruct I as (I1 & I2 & I3 & I4).
        pose proof (Hpick _ _ _ _ _ I1 I2 I4 b y Hb) as P. cbv zeta in P. rewrite <- Ey in P.
        destruct P as [P1 P2].
        assert (E' : forall i, i < S n -> g_safeE g (pi i) (pi (S i)) = true).
        { intros i Hi. destruct (Nat.eq_dec i n) as [->|]; auto. apply E. lia. }
        split; auto.
        assert (Hs : g_safeS g (pi n) (pi (S n)) = true).
        { destruct Hwin as [H _]. apply H. intros i Hi. apply E'. lia. }
        destruct (P2 Hs) as (Q1 & Q2 & Q3).
        rewrite me_S. unfold nextMem.
        destruct (Z (mk (me n)) (pi (S n))) eqn:EZ; cbn [negb].
        + destruct (A (mi (me n)) (pi n) (pi (S n))) eqn:EA.
          * unfold inv; cbn. assert ((mi (me n) + 1) mod nA < nA) by (apply Nat.mod_upper_bound; lia).
            repeat split; auto. now apply Msucc.
          * destruct Q3 as [Q3|Q3]; [discriminate|].
            unfold inv; cbn. repeat split; auto.
            destruct (mm (me n)); [rewrite HX0 in Q3; discriminate|exact Q3].
        + destruct (mk (me n)) as [|k] eqn:Ek; [rewrite HZ0 in EZ; discriminate|].
          cbn [pred]. now apply startMem_inv.
    Qed.

    Lemma safeE_all n : g_safeE g (pi n) (pi (S n)) = true.
    Proof. apply (proj2 (all_inv (S n))). lia. Qed.

    Lemma safeS_all n : g_safeS g (pi n) (pi (S n)) = true.
    Proof. destruct Hwin as [H _]. apply H. intros i _. apply safeE_all. Qed.

    (** One step: the outer index drops, or the assumption pursued holds, or the
        inner index drops. *)
    Lemma one_step n :
      (G (mj (me n)) (pi n) (pi (S n)) = true -> mk (me (S n)) < mk (me n)) /\
      (mk (me (S n)) < mk (me n) \/
       (mk (me (S n)) = mk (me n) /\ mj (me (S n)) = mj (me n) /\
        ((A (mi (me n)) (pi n) (pi (S n)) = true /\ mi (me (S n)) = (mi (me n) + 1) mod nA) \/
         (mi (me (S n)) = mi (me n) /\ mm (me (S n)) < mm (me n))))).
    Proof.
      destruct (all_inv n) as [(I1 & I2 & I3 & I4) _].
      destruct (pi_S n) as (b & y & Hb & Ey).
      pose proof (Hpick _ _ _ _ _ I1 I2 I4 b y Hb) as P. cbv zeta in P. rewrite <- Ey in P.
      destruct P as [_ P2]. destruct (P2 (safeS_all n)) as (Q1 & Q2 & Q3).
      rewrite me_S. unfold nextMem.
      destruct (Z (mk (me n)) (pi (S n))) eqn:EZ; cbn [negb].
      - split; [intros H; specialize (Q1 H); congruence|]. right.
        destruct (A (mi (me n)) (pi n) (pi (S n))) eqn:EA; cbn; repeat split; auto.
        right. split; auto. destruct Q3 as [Q3|Q3]; [discriminate|].
        destruct (mm (me n)); [rewrite HX0 in Q3; discriminate|cbn; lia].
      - assert (mk (startMem (pred (mk (me n))) (pi (S n))) < mk (me n)); [|auto].
        unfold startMem; cbn. destruct (mk (me n)); [rewrite HZ0 in EZ; discriminate|cbn; lia].
    Qed.

    Lemma asm_often q : q < nA -> forall n, exists n', n <= n' /\ A q (pi n') (pi (S n')) = true.
    Proof.
      intros Hq.
      assert (Ind : forall k d m n, mk (me n) = k -> (mi (me n) + d) mod nA = q -> d < nA ->
                mm (me n) = m -> exists n', n <= n' /\ A q (pi n') (pi (S n')) = true).
      { induction k as [k IHk] using lt_wf_ind.
        assert (Any : forall n, mk (me n) < k -> exists n', n <= n' /\ A q (pi n') (pi (S n')) = true).
        { intros n Hn. destruct (all_inv n) as [(_ & I2 & _) _].
          destruct (Nat.lt_ge_cases q (mi (me n))) as [Hlt|Hle].
          - apply (IHk _ Hn (q + nA - mi (me n)) (mm (me n))); auto; [|lia].
            replace (mi (me n) + (q + nA - mi (me n))) with (q + 1 * nA) by lia.
            rewrite Nat.mod_add by lia. now apply Nat.mod_small.
          - apply (IHk _ Hn (q - mi (me n)) (mm (me n))); auto; [|lia].
            replace (mi (me n) + (q - mi (me n))) with q by lia. now apply Nat.mod_small. }
        induction d as [d IHd] using lt_wf_ind.
        induction m as [m IHm] using lt_wf_ind.
        intros n Ek Ed Hd Em.
        destruct (one_step n) as [_ [H|(E1 & E2 & [[HA1 E3]|[E3 H]])]].
        - destruct (Any (S n)) as (n' & L & H'); [lia|]. exists n'. split; auto. lia.
        - destruct d as [|d].
          + exists n. split; auto. destruct (all_inv n) as [(_ & I2 & _) _].
            rewrite Nat.add_0_r, Nat.mod_small in Ed by auto. now rewrite <- Ed.
          + destruct (IHd d ltac:(lia) (mm (me (S n))) (S n)) as (n' & L & H'); try lia.
            * rewrite E3, Nat.add_mod_idemp_l by lia. rewrite <- Ed. f_equal. lia.
            * exists n'. split; auto. lia.
        - destruct (IHm (mm (me (S n))) ltac:(lia) (S n)) as (n' & L & H'); try lia.
          + now rewrite E3.
          + exists n'. split; auto. lia. }
      intros n. destruct (all_inv n) as [(_ & I2 & _) _].
      destruct (Nat.lt_ge_cases q (mi (me n))) as [Hlt|Hle].
      - apply (Ind (mk (me n)) (q + nA - mi (me n)) (mm (me n)) n); auto; [|lia].
        replace (mi (me n) + (q + nA - mi (me n))) with (q + 1 * nA) by lia.
        rewrite Nat.mod_add by lia. now apply Nat.mod_small.
      - apply (Ind (mk (me n)) (q - mi (me n)) (mm (me n)) n); auto; [|lia].
        replace (mi (me n) + (q - mi (me n))) with q by lia. now apply Nat.mod_small.
    Qed.

    Lemma goal_often j : j < nG -> forall n, exists n', n <= n' /\ G j (pi n') (pi (S n')) = true.
    Proof.
      intros Hj n. destruct (HG j Hj) as (p & Hp & Ep).
      destruct Hwin as [_ H]. destruct (H safeE_all) with (p := p) (n := n) as (n' & L & H'); auto.
      - intros q Hq i. destruct (HA q Hq) as (a & Ha & Ea). destruct (asm_often a Ha i) as (i' & L & H').
        exists i'. split; auto. rewrite Ea. exact H'.
      - exists n'. split; auto. rewrite <- Ep. exact H'.
    Qed.

    Lemma contradiction_at : False.
    Proof.
      assert (Ind : forall k n, mk (me n) = k -> False).
      { induction k as [k IH] using lt_wf_ind. intros n Ek.
        destruct (all_inv n) as [(I1 & _) _].
        destruct (goal_often (mj (me n)) I1 n) as (n' & L & H).
        assert (Walk : forall d, n + d <= n' -> mk (me (n + d)) = k /\ mj (me (n + d)) = mj (me n)).
        { induction d as [|d IHd]; intros Hd; [now rewrite Nat.add_0_r|].
          destruct IHd as [W1 W2]; [lia|]. rewrite Nat.add_succ_r.
          destruct (one_step (n + d)) as [_ [Hlt|(E1 & E2 & _)]].
          - exfalso. eapply (IH (mk (me (S (n + d))))); [lia|reflexivity].
          - split; congruence. }
        destruct (Walk (n' - n) ltac:(lia)) as [W1 W2].
        replace (n + (n' - n)) with n' in * by lia.
        destruct (one_step n') as [Hg _]. rewrite W2 in Hg. specialize (Hg H).
        eapply (IH (mk (me (S n')))); [lia|reflexivity]. }
      exact (Ind _ 0 eq_refl).
    Qed.
  End STRATEGY.

  Theorem spoil (f : strategy) (s0 : state) (K : nat) :
    Z K s0 = false -> before B f -> exists x, ~ safe_and_live g (play_from g f s0 x).
  Proof.
    destruct K as [|K]; [rewrite HZ0; discriminate|].
    intros H Hf. exists (xs f s0 K). intros Hw. eapply contradiction_at; eauto.
  Qed.
End SPOIL.
