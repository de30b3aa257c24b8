(** * Ranked transition sets give winning strategies

    Abstract argument used for all strategies: for every goal there is a list of
    transition sets such that taking a transition of the first set that offers
    one makes progress. *)

From Coq Require Import Arith List Bool Lia.
From Verif Require Import Spec.
Import ListNotations.

Definition tset := state -> state -> bool.

(** Transition sets that only look at the values of the variables. *)
Definition extensional (F : tset) : Prop :=
  forall s s' t t', (forall k, s k = s' k) -> (forall k, t k = t' k) -> F s t = F s' t'.

Lemma firstn_incl {A} (l : list A) k n : k <= n -> incl (firstn k l) (firstn n l).
Proof.
  intros H z Hz. replace (firstn k l) with (firstn k (firstn n l)) in Hz.
  - rewrite <- (firstn_skipn k (firstn n l)). apply in_or_app. now left.
  - rewrite firstn_firstn. f_equal. lia.
Qed.

Section RANK.
  Variable g : game.

  (** Every next input permitted for the environment is answered by some set. *)
  Definition cov (Fs : list tset) (s : state) : Prop :=
    forall x, g_safeE g s (merge g x x) = true ->
      exists F y, In F Fs /\ F s (merge g x y) = true.

  Lemma cov_incl Fs Gs s : incl Fs Gs -> cov Fs s -> cov Gs s.
  Proof. intros H C x Hx. destruct (C x Hx) as (F & y & HF & Hy). exists F, y. auto. Qed.

  (** The ranking condition for one goal.  Each set is paired with a liveness
      assumption. *)
  Definition ranked (W : state -> Prop) (G : tset) (L : list (tset * tset)) : Prop :=
    (forall pre F A post, L = pre ++ (F, A) :: post -> forall s t, F s t = true ->
       g_safeS g s t = true /\ W t /\
       (G s t = true \/ cov (map fst pre) t \/
        (A s t = false /\ cov (map fst (pre ++ [(F, A)])) t))) /\
    (forall s, W s -> cov (map fst L) s) /\
    (forall F A, In (F, A) L -> In A (g_liveA g) /\ extensional F).

  (** A transition of one of the sets that come first. *)
  Definition follow (L : list (tset * tset)) (s t : state) : Prop :=
    exists pre F A post, L = pre ++ (F, A) :: post /\ F s t = true /\ ~ cov (map fst pre) s.

  Section SEQ.
    Variable W : state -> Prop.
    Variable m : nat.
    Variable G : nat -> tset.
    Variable L : nat -> list (tset * tset).
    Hypothesis HL : forall j, j < m -> ranked W (G j) (L j).
    Variable pi : nat -> state.
    Variable jn : nat -> nat.
    Hypothesis Hj : forall n, jn n < m.
    Hypothesis Hfollow : forall n, follow (L (jn n)) (pi n) (pi (S n)).
    (** The goal does not change as long as it is not satisfied. *)
    Hypothesis goal_stays : forall n, G (jn n) (pi n) (pi (S n)) = false -> jn (S n) = jn n.
    Hypothesis Hlive : forall A, In A (g_liveA g) -> inf_often A pi.
    Hypothesis HW : W (pi 0).

    Lemma seq_W n : W (pi n).
    Proof.
      induction n as [|n IH]; auto.
      destruct (Hfollow n) as (pre & F & A & post & E & HF & _).
      destruct (HL (jn n) (Hj n)) as (R & _ & _).
      destruct (R pre F A post E _ _ HF) as (_ & H & _). exact H.
    Qed.

    (** From a position covered by the first k sets, the goal is reached. *)
    Lemma reach_goal_rank k : forall n, cov (map fst (firstn k (L (jn n)))) (pi n) ->
      exists n', n <= n' /\ jn n' = jn n /\ G (jn n) (pi n') (pi (S n')) = true.
    Proof.
      induction k as [k IH] using lt_wf_ind. intros n C.
      destruct (HL (jn n) (Hj n)) as (R & _ & RA).
      (* the assumption that belongs to the last of the k sets *)
      assert (Hstep : forall i, jn i = jn n -> cov (map fst (firstn k (L (jn n)))) (pi i) ->
        (exists n', i <= n' /\ jn n' = jn n /\ G (jn n) (pi n') (pi (S n')) = true) \/
        (jn (S i) = jn n /\ cov (map fst (firstn k (L (jn n)))) (pi (S i)) /\
         exists k' F A post, k = S k' /\ L (jn n) = firstn k' (L (jn n)) ++ (F, A) :: post /\
           A (pi i) (pi (S i)) = false)).
      { intros i Ei Ci. destruct (Hfollow i) as (pre & F & A & post & E & HF & Hn).
        rewrite Ei in E. destruct (R pre F A post E _ _ HF) as (_ & _ & H).
        assert (Hpre : firstn (length pre) (L (jn n)) = pre).
        { rewrite E, firstn_app, Nat.sub_diag, firstn_all. cbn. apply app_nil_r. }
        assert (Hk : length pre < k).
        { destruct (Nat.lt_ge_cases (length pre) k) as [|Hge]; auto. exfalso. apply Hn.
          eapply cov_incl; [|exact Ci]. apply incl_map. rewrite <- Hpre.
          now apply firstn_incl. }
        destruct (G (jn n) (pi i) (pi (S i))) eqn:EG.
        - left. exists i. repeat split; auto.
        - assert (EjS : jn (S i) = jn n) by (rewrite goal_stays; [auto|rewrite Ei; auto]).
          destruct H as [H|[H|[HA H]]]; [discriminate| |].
          + left. destruct (IH (length pre) Hk (S i)) as (n' & L1 & L2 & L3).
            * rewrite EjS, Hpre. exact H.
            * exists n'. rewrite EjS in L2, L3. repeat split; auto. lia.
          + assert (Hpre1 : firstn (S (length pre)) (L (jn n)) = pre ++ [(F, A)]).
            { rewrite E. replace (S (length pre)) with (length pre + 1) by lia.
              rewrite firstn_app_2. reflexivity. }
            destruct (Nat.eq_dec (S (length pre)) k) as [Ek|Hne].
            * right. split; [auto|]. split.
              -- rewrite <- Ek, Hpre1. exact H.
              -- exists (length pre), F, A, post. rewrite Hpre. auto.
            * left. destruct (IH (S (length pre)) ltac:(lia) (S i)) as (n' & L1 & L2 & L3).
              -- rewrite EjS, Hpre1. exact H.
              -- exists n'. rewrite EjS in L2, L3. repeat split; auto. lia. }
      destruct (Hstep n eq_refl C) as [H|(E1 & C1 & k' & F & A & post & -> & EL & HA)]; [exact H|].
      assert (HinA : In A (g_liveA g)).
      { destruct (RA F A) as [HA' _]; auto. rewrite EL. apply in_or_app. right. now left. }
      destruct (Hlive A HinA n) as (nA & Hle & HnA).
      (* walk from n to nA *)
      assert (Walk : forall d, n + d <= nA ->
        (exists n', n <= n' /\ jn n' = jn n /\ G (jn n) (pi n') (pi (S n')) = true) \/
        (jn (n + d) = jn n /\ cov (map fst (firstn (S k') (L (jn n)))) (pi (n + d)))).
      { induction d as [|d IHd]; intros Hd.
        - right. rewrite Nat.add_0_r. auto.
        - destruct IHd as [H|[E C']]; [lia|now left|].
          destruct (Hstep (n + d) E C') as [(n' & L1 & L2 & L3)|(E' & C'' & _)].
          + left. exists n'. repeat split; auto. lia.
          + right. rewrite Nat.add_succ_r. auto. }
      destruct (Walk (nA - n) ltac:(lia)) as [H|[E C']]; [exact H|].
      replace (n + (nA - n)) with nA in * by lia.
      destruct (Hstep nA E C') as [(n' & L1 & L2 & L3)|(_ & _ & k'' & F' & A' & post' & Ek & EL' & HA')].
      - exists n'. repeat split; auto. lia.
      - injection Ek as <-. rewrite EL in EL' at 1. apply app_inv_head in EL'.
        injection EL' as -> -> ->. congruence.
    Qed.

    Lemma reach_goal n : exists n', n <= n' /\ jn n' = jn n /\ G (jn n) (pi n') (pi (S n')) = true.
    Proof.
      apply (reach_goal_rank (length (L (jn n)))). rewrite firstn_all.
      destruct (HL (jn n) (Hj n)) as (_ & C & _). apply C. apply seq_W.
    Qed.

  End SEQ.

  Section ROUND.
    Variable W : state -> Prop.
    Variable m : nat.
    Variable G : nat -> tset.
    Variable L : nat -> list (tset * tset).
    Hypothesis HL : forall j, j < m -> ranked W (G j) (L j).
    Variable pi : nat -> state.
    Variable jn : nat -> nat.
    Hypothesis Hj : forall n, jn n < m.
    Hypothesis Hfollow : forall n, follow (L (jn n)) (pi n) (pi (S n)).
    (** The goal counter advances over satisfied goals, by at least one if the
        current one is satisfied. *)
    Hypothesis Hnext : forall n, exists d, d <= m /\ jn (S n) = (jn n + d) mod m /\
      (forall e, e < d -> G ((jn n + e) mod m) (pi n) (pi (S n)) = true) /\
      (G (jn n) (pi n) (pi (S n)) = true -> 1 <= d).
    Hypothesis Hlive : forall A, In A (g_liveA g) -> inf_often A pi.
    Hypothesis HW : W (pi 0).

    Lemma goal_stays n : G (jn n) (pi n) (pi (S n)) = false -> jn (S n) = jn n.
    Proof.
      intros H. destruct (Hnext n) as (d & _ & E & Hd & _).
      destruct d as [|d].
      - rewrite E, Nat.add_0_r. apply Nat.mod_small. apply Hj.
      - specialize (Hd 0 ltac:(lia)). rewrite Nat.add_0_r, Nat.mod_small in Hd by apply Hj. congruence.
    Qed.

    Let reach_goal n : exists n', n <= n' /\ jn n' = jn n /\ G (jn n) (pi n') (pi (S n')) = true.
    Proof. apply (reach_goal W m G L HL pi jn Hj Hfollow goal_stays Hlive HW). Qed.

    (** All goals are reached infinitely often. *)
    Lemma all_goals j : j < m -> inf_often (G j) pi.
    Proof.
      intros Hjm.
      assert (Dist : forall d n, (jn n + d) mod m = j -> d < m ->
                exists n', n <= n' /\ G j (pi n') (pi (S n')) = true).
      { induction d as [d IH] using lt_wf_ind. intros n E Hd.
        destruct (reach_goal n) as (n1 & L1 & E1 & G1).
        destruct (Hnext n1) as (d' & Hd' & E' & Hs & Hge). rewrite E1 in *.
        specialize (Hge G1).
        destruct (Nat.lt_ge_cases d d') as [Hlt|Hle].
        - exists n1. split; auto. rewrite <- E. apply Hs. auto.
        - destruct (IH (d - d') ltac:(lia) (S n1)) as (n2 & L2 & G2); [|lia|].
          + rewrite E'. rewrite Nat.add_mod_idemp_l by lia. rewrite <- E. f_equal. lia.
          + exists n2. split; auto. lia. }
      intros n. pose proof (Hj n).
      destruct (Nat.lt_ge_cases j (jn n)) as [Hlt|Hle].
      - apply (Dist (j + m - jn n)); [|lia].
        replace (jn n + (j + m - jn n)) with (j + 1 * m) by lia.
        rewrite Nat.mod_add by lia. apply Nat.mod_small. auto.
      - apply (Dist (j - jn n)); [|lia].
        replace (jn n + (j - jn n)) with j by lia. apply Nat.mod_small. auto.
    Qed.
  End ROUND.

  (** ** The strategy *)
  Section STRAT.
    Variable W : state -> Prop.
    Variable G : list tset.
    Variable L : nat -> list (tset * tset).
    Hypothesis HG : G <> [].
    Hypothesis HGg : g_liveG g = G.
    Hypothesis HL : forall j, j < length G -> ranked W (nth j G (fun _ _ => true)) (L j).
    Hypothesis HsafeE_in : forall s x y y', g_safeE g s (merge g x y) = g_safeE g s (merge g x y').
    (** A solver for the transition sets that occur. *)
    Variable sol : tset -> state -> state -> option state.
    Hypothesis Hsol : forall j F A, j < length G -> In (F, A) (L j) -> forall s x,
      match sol F s x with
      | Some y => F s (merge g x y) = true
      | None => forall y, F s (merge g x y) = false
      end.

    Fixpoint choose (l : list (tset * tset)) (s x : state) : option state :=
      match l with
      | [] => None
      | (F, _) :: l => match sol F s x with Some y => Some y | None => choose l s x end
      end.

    Fixpoint goalOf (h : list state) : nat :=
      match h with
      | t :: h' =>
          match h' with
          | s :: _ => let j := goalOf h' in
                      if nth j G (fun _ _ => true) s t then (j + 1) mod length G else j
          | [] => 0
          end
      | [] => 0
      end.

    Variable start : state -> state.
    Definition strat : strategy := fun h x =>
      match h with
      | [] => start x
      | s :: _ => match choose (L (goalOf h)) s x with Some y => y | None => x end
      end.

    Lemma Gpos : 0 < length G.
    Proof. destruct G; [now elim HG|cbn; lia]. Qed.

    Lemma goalOf_lt h : goalOf h < length G.
    Proof.
      induction h as [|t h IH]; [apply Gpos|]. destruct h as [|s h]; [apply Gpos|].
      cbn [goalOf] in *. destruct (nth _ G _ s t); auto. apply Nat.mod_upper_bound.
      pose proof Gpos. lia.
    Qed.

    Lemma choose_follow j s x : j < length G -> W s -> g_safeE g s (merge g x x) = true ->
      exists y, choose (L j) s x = Some y /\ follow (L j) s (merge g x y).
    Proof.
      intros Hj Hw Hs. destruct (HL j Hj) as (_ & C & _). specialize (C s Hw).
      assert (Aux : forall pre l, L j = pre ++ l ->
                (forall F A y, In (F, A) pre -> F s (merge g x y) = false) ->
                exists y, choose l s x = Some y /\ follow (L j) s (merge g x y)).
      { intros pre l. revert pre. induction l as [|[F A] l IH]; intros pre E Hp.
        - exfalso. destruct (C x Hs) as (F & y & HF & Hy). rewrite E, app_nil_r in HF.
          apply in_map_iff in HF. destruct HF as ([F' A] & <- & HF). cbn in Hy.
          rewrite (Hp F' A y HF) in Hy. discriminate.
        - cbn [choose]. pose proof (Hsol j F A Hj) as HS.
          rewrite E in HS. specialize (HS ltac:(apply in_or_app; right; now left) s x).
          destruct (sol F s x) as [y|].
          + exists y. split; auto. exists pre, F, A, l. repeat split; auto.
            intros Cp. destruct (Cp x Hs) as (F' & y' & HF & Hy).
            apply in_map_iff in HF. destruct HF as ([F'' A'] & <- & HF). cbn in Hy.
            rewrite (Hp F'' A' y' HF) in Hy. discriminate.
          + apply (IH (pre ++ [(F, A)])).
            * now rewrite <- app_assoc.
            * intros F' A' y HF. apply in_app_iff in HF. destruct HF as [HF|[E'|[]]]; eauto.
              injection E' as <- <-. apply HS. }
      apply (Aux []); auto. now intros F A y [].
    Qed.

    Lemma history_from_hd f s x n : exists h, history_from g f s x n = play_from g f s x n :: h.
    Proof. destruct n as [|n]; unfold play_from; cbn; eauto. Qed.

    Lemma strat_wins s0 : W s0 -> forall x, safe_and_live g (play_from g strat s0 x).
    Proof.
      intros Hw x. set (pi := play_from g strat s0 x).
      set (jn := fun n => goalOf (history_from g strat s0 x n)).
      assert (Step : forall n, W (pi n) -> g_safeE g (pi n) (pi (S n)) = true ->
                follow (L (jn n)) (pi n) (pi (S n))).
      { intros n Wn Hs. destruct (history_from_hd strat s0 x n) as (h & Eh).
        assert (EP : pi (S n) = merge g (x (S n)) (strat (pi n :: h) (x (S n)))).
        { unfold pi at 1, play_from at 1. cbn [history_from hd]. now rewrite Eh. }
        rewrite EP in Hs |- *.
        rewrite (HsafeE_in _ _ _ (x (S n))) in Hs.
        destruct (choose_follow (jn n) (pi n) (x (S n)) (goalOf_lt _) Wn Hs) as (y & Ey & Hf).
        unfold strat at 1. unfold jn in Ey. rewrite Eh in Ey. fold pi in Ey. rewrite Ey. exact Hf. }
      assert (Winv : forall n, (forall i, i < n -> g_safeE g (pi i) (pi (S i)) = true) -> W (pi n)).
      { induction n as [|n IH]; intros H; auto.
        assert (Wn : W (pi n)) by (apply IH; intros; apply H; lia).
        destruct (Step n Wn (H n ltac:(lia))) as (pre & F & A & post & E & HF & _).
        destruct (HL (jn n) (goalOf_lt _)) as (R & _). apply (R pre F A post E _ _ HF). }
      split.
      - intros n H.
        assert (Wn : W (pi n)) by (apply Winv; intros; apply H; lia).
        destruct (Step n Wn (H n ltac:(lia))) as (pre & F & A & post & E & HF & _).
        destruct (HL (jn n) (goalOf_lt _)) as (R & _). apply (R pre F A post E _ _ HF).
      - intros HE HA p Hp. rewrite HGg in Hp.
        destruct (In_nth _ _ (fun _ _ => true) Hp) as (j & Hj & <-).
        apply (all_goals W (length G) (fun j => nth j G (fun _ _ => true)) L HL pi jn); auto.
        + intros n. apply goalOf_lt.
        + intros n. assert (EJ : jn (S n) = if nth (jn n) G (fun _ _ => true) (pi n) (pi (S n))
                                     then (jn n + 1) mod length G else jn n).
          { unfold jn at 1. cbn [history_from].
            destruct (history_from_hd strat s0 x n) as (h & Eh).
            change (pi (S n)) with (merge g (x (S n)) (strat (history_from g strat s0 x n) (x (S n)))).
            unfold jn. rewrite Eh. reflexivity. }
          destruct (nth (jn n) G (fun _ _ => true) (pi n) (pi (S n))) eqn:EG.
          * exists 1. pose proof Gpos. repeat split; auto; try lia.
            intros e He. replace e with 0 by lia.
            rewrite Nat.add_0_r, Nat.mod_small by apply goalOf_lt. exact EG.
          * exists 0. repeat split; auto; try lia; try congruence.
            rewrite Nat.add_0_r, Nat.mod_small by apply goalOf_lt. exact EJ.
    Qed.

    Lemma history_history_from f x n :
      history g f x n = history_from g f (merge g (x 0) (f [] (x 0))) x n.
    Proof. induction n as [|n IH]; cbn [history history_from]; auto. now rewrite IH. Qed.

    Lemma strat_realizes :
      (forall x, g_initE g (merge g x (start x)) = true ->
         g_initS g (merge g x (start x)) = true /\ W (merge g x (start x))) ->
      realizable g.
    Proof.
      intros Hs. exists strat. intros x Hi. change (play g strat x 0) with (merge g (x 0) (start (x 0))) in *.
      destruct (Hs _ Hi) as [H1 H2]. split; auto.
      pose proof (strat_wins _ H2 x) as H.
      assert (E : forall n, play g strat x n = play_from g strat (merge g (x 0) (start (x 0))) x n).
      { intros n. unfold play, play_from. now rewrite history_history_from. }
      destruct H as [HS HLv]. split.
      - intros n Hn. rewrite !E. apply HS. intros i Hi'. rewrite <- !E. auto.
      - intros HE HA p Hp n. destruct (HLv) with (p := p) (n := n) as (k & Hk & Ek); auto.
        + intros i. rewrite <- !E. apply HE.
        + intros q Hq i. destruct (HA q Hq i) as (k & Hk & Ek). exists k. rewrite <- !E. auto.
        + exists k. rewrite !E. auto.
    Qed.
  End STRAT.
End RANK.
