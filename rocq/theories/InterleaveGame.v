(** * Ranked transition sets if some outputs are set before the input is read

    As GameSound.v, but a set of transitions has to answer all inputs, with the same values of
    the outputs in [B]. *)

From Coq Require Import Arith List Bool Lia.
From Verif Require Import Spec GameSound InterleaveSpec.
Import ListNotations.

Lemma Gpos' (G : list tset) : G <> [] -> 0 < length G.
Proof. destruct G; [now intros []|cbn; lia]. Qed.
Lemma goalOf_lt' (G : list tset) (HG : G <> []) h : goalOf G h < length G.
Proof.
  pose proof (Gpos' G HG) as P. induction h as [|t h IH]; auto. destruct h as [|s h]; auto.
  cbn [goalOf] in *. destruct (nth _ G _ s t); auto. apply Nat.mod_upper_bound. lia.
Qed.

Section RANK.
  Variable g : game.
  Variable B : nat -> bool.

  Definition agreeB (y b : state) : Prop := forall k, B k = true -> y k = b k.

  (** The values [b] of the outputs in [B] can be completed to an answer for each input permitted. *)
  Definition answers (F : tset) (s b : state) : Prop :=
    forall x, g_safeE g s (merge g x x) = true -> exists y, agreeB y b /\ F s (merge g x y) = true.
  Definition cov (Fs : list tset) (s : state) : Prop :=
    exists F b, In F Fs /\ answers F s b.

  Lemma cov_incl Fs Gs s : incl Fs Gs -> cov Fs s -> cov Gs s.
  Proof. intros H (F & b & HF & Hb). exists F, b. auto. Qed.

  (** The ranking condition for one goal.  Each set is paired with a liveness
      assumption. *)
  Definition ranked (W : state -> Prop) (G : tset) (L : list (tset * tset)) : Prop :=
    (forall pre F A post, L = pre ++ (F, A) :: post -> forall s t, F s t = true ->
       g_safeS g s t = true /\ W t /\
       (G s t = true \/ cov (map fst pre) t \/
        (A s t = false /\ cov (map fst (pre ++ [(F, A)])) t))) /\
    (forall s, W s -> cov (map fst L) s) /\
    (forall F A, In (F, A) L -> In A (g_liveA g) /\ extensional F).

  (** A transition of one of the sets that come first. *)
  Definition follow (L : list (tset * tset)) (s t : state) : Prop :=
    exists pre F A post, L = pre ++ (F, A) :: post /\ F s t = true /\ ~ cov (map fst pre) s.

  Section SEQ.
    Variable W : state -> Prop.
    Variable m : nat.
    Variable G : nat -> tset.
    Variable L : nat -> list (tset * tset).
    Hypothesis HL : forall j, j < m -> ranked W (G j) (L j).
    Variable pi : nat -> state.
    Variable jn : nat -> nat.
    Hypothesis Hj : forall n, jn n < m.
    Hypothesis Hfollow : forall n, follow (L (jn n)) (pi n) (pi (S n)).
    (** The goal does not change as long as it is not satisfied. *)
    Hypothesis goal_stays : forall n, G (jn n) (pi n) (pi (S n)) = false -> jn (S n) = jn n.
    Hypothesis Hlive : forall A, In A (g_liveA g) -> inf_often A pi.
    Hypothesis HW : W (pi 0).

    Lemma seq_W n : W (pi n).
    Proof.
      induction n as [|n IH]; auto.
      destruct (Hfollow n) as (pre & F & A & post & E & HF & _).
      destruct (HL (jn n) (Hj n)) as (R & _ & _).
      destruct (R pre F A post E _ _ HF) as (_ & H & _). exact H.
    Qed.

    (** From a position covered by the first k sets, the goal is reached. *)
    Lemma reach_goal_rank k : forall n, cov (map fst (firstn k (L (jn n)))) (pi n) ->
      exists n', n <= n' /\ jn n' = jn n /\ G (jn n) (pi n') (pi (S n')) = true.
    Proof.
      induction k as [k IH] using lt_wf_ind. intros n C.
      destruct (HL (jn n) (Hj n)) as (R & _ & RA).
      (* the assumption that belongs to the last of the k sets *)
      assert (Hstep : forall i, jn i = jn n -> cov (map fst (firstn k (L (jn n)))) (pi i) ->
        (exists n', i <= n' /\ jn n' = jn n /\ G (jn n) (pi n') (pi (S n')) = true) \/
        (jn (S i) = jn n /\ cov (map fst (firstn k (L (jn n)))) (pi (S i)) /\
         exists k' F A post, k = S k' /\ L (jn n) = firstn k' (L (jn n)) ++ (F, A) :: post /\
           A (pi i) (pi (S i)) = false)).
      { intros i Ei Ci. destruct (Hfollow i) as (pre & F & A & post & E & HF & Hn).
        rewrite Ei in E. destruct (R pre F A post E _ _ HF) as (_ & _ & H).
        assert (Hpre : firstn (length pre) (L (jn n)) = pre).
        { rewrite E, firstn_app, Nat.sub_diag, firstn_all. cbn. apply app_nil_r. }
        assert (Hk : length pre < k).
        { destruct (Nat.lt_ge_cases (length pre) k) as [|Hge]; auto. exfalso. apply Hn.
          eapply cov_incl; [|exact Ci]. apply incl_map. rewrite <- Hpre.
          now apply firstn_incl. }
        destruct (G (jn n) (pi i) (pi (S i))) eqn:EG.
        - left. exists i. repeat split; auto.
        - assert (EjS : jn (S i) = jn n) by (rewrite goal_stays; [auto|rewrite Ei; auto]).
          destruct H as [H|[H|[HA H]]]; [discriminate| |].
          + left. destruct (IH (length pre) Hk (S i)) as (n' & L1 & L2 & L3).
            * rewrite EjS, Hpre. exact H.
            * exists n'. rewrite EjS in L2, L3. repeat split; auto. lia.
          + assert (Hpre1 : firstn (S (length pre)) (L (jn n)) = pre ++ [(F, A)]).
            { rewrite E. replace (S (length pre)) with (length pre + 1) by lia.
              rewrite firstn_app_2. reflexivity. }
            destruct (Nat.eq_dec (S (length pre)) k) as [Ek|Hne].
            * right. split; [auto|]. split.
              -- rewrite <- Ek, Hpre1. exact H.
              -- exists (length pre), F, A, post. rewrite Hpre. auto.
            * left. destruct (IH (S (length pre)) ltac:(lia) (S i)) as (n' & L1 & L2 & L3).
              -- rewrite EjS, Hpre1. exact H.
              -- exists n'. rewrite EjS in L2, L3. repeat split; auto. lia. }
      destruct (Hstep n eq_refl C) as [H|(E1 & C1 & k' & F & A & post & -> & EL & HA)]; [exact H|].
      assert (HinA : In A (g_liveA g)).
      { destruct (RA F A) as [HA' _]; auto. rewrite EL. apply in_or_app. right. now left. }
      destruct (Hlive A HinA n) as (nA & Hle & HnA).
      (* walk from n to nA *)
      assert (Walk : forall d, n + d <= nA ->
        (exists n', n <= n' /\ jn n' = jn n /\ G (jn n) (pi n') (pi (S n')) = true) \/
        (jn (n + d) = jn n /\ cov (map fst (firstn (S k') (L (jn n)))) (pi (n + d)))).
      { induction d as [|d IHd]; intros Hd.
        - right. rewrite Nat.add_0_r. auto.
        - destruct IHd as [H|[E C']]; [lia|now left|].
          destruct (Hstep (n + d) E C') as [(n' & L1 & L2 & L3)|(E' & C'' & _)].
          + left. exists n'. repeat split; auto. lia.
          + right. rewrite Nat.add_succ_r. auto. }
      destruct (Walk (nA - n) ltac:(lia)) as [H|[E C']]; [exact H|].
      replace (n + (nA - n)) with nA in * by lia.
      destruct (Hstep nA E C') as [(n' & L1 & L2 & L3)|(_ & _ & k'' & F' & A' & post' & Ek & EL' & HA')].
      - exists n'. repeat split; auto. lia.
      - injection Ek as <-. rewrite EL in EL' at 1. apply app_inv_head in EL'.
        injection EL' as -> -> ->. congruence.
    Qed.

    Lemma reach_goal n : exists n', n <= n' /\ jn n' = jn n /\ G (jn n) (pi n') (pi (S n')) = true.
    Proof.
      apply (reach_goal_rank (length (L (jn n)))). rewrite firstn_all.
      destruct (HL (jn n) (Hj n)) as (_ & C & _). apply C. apply seq_W.
    Qed.

  End SEQ.

  Section ROUND.
    Variable W : state -> Prop.
    Variable m : nat.
    Variable G : nat -> tset.
    Variable L : nat -> list (tset * tset).
    Hypothesis HL : forall j, j < m -> ranked W (G j) (L j).
    Variable pi : nat -> state.
    Variable jn : nat -> nat.
    Hypothesis Hj : forall n, jn n < m.
    Hypothesis Hfollow : forall n, follow (L (jn n)) (pi n) (pi (S n)).
    (** The goal counter advances over satisfied goals, by at least one if the
        current one is satisfied. *)
    Hypothesis Hnext : forall n, exists d, d <= m /\ jn (S n) = (jn n + d) mod m /\
      (forall e, e < d -> G ((jn n + e) mod m) (pi n) (pi (S n)) = true) /\
      (G (jn n) (pi n) (pi (S n)) = true -> 1 <= d).
    Hypothesis Hlive : forall A, In A (g_liveA g) -> inf_often A pi.
    Hypothesis HW : W (pi 0).

    Lemma goal_stays n : G (jn n) (pi n) (pi (S n)) = false -> jn (S n) = jn n.
    Proof.
      intros H. destruct (Hnext n) as (d & _ & E & Hd & _).
      destruct d as [|d].
      - rewrite E, Nat.add_0_r. apply Nat.mod_small. apply Hj.
      - specialize (Hd 0 ltac:(lia)). rewrite Nat.add_0_r, Nat.mod_small in Hd by apply Hj. congruence.
    Qed.

    Let reach_goal n : exists n', n <= n' /\ jn n' = jn n /\ G (jn n) (pi n') (pi (S n')) = true.
    Proof. apply (reach_goal W m G L HL pi jn Hj Hfollow goal_stays Hlive HW). Qed.

    (** All goals are reached infinitely often. *)
    Lemma all_goals j : j < m -> inf_often (G j) pi.
    Proof.
      intros Hjm.
      assert (Dist : forall d n, (jn n + d) mod m = j -> d < m ->
                exists n', n <= n' /\ G j (pi n') (pi (S n')) = true).
      { induction d as [d IH] using lt_wf_ind. intros n E Hd.
        destruct (reach_goal n) as (n1 & L1 & E1 & G1).
        destruct (Hnext n1) as (d' & Hd' & E' & Hs & Hge). rewrite E1 in *.
        specialize (Hge G1).
        destruct (Nat.lt_ge_cases d d') as [Hlt|Hle].
        - exists n1. split; auto. rewrite <- E. apply Hs. auto.
        - destruct (IH (d - d') ltac:(lia) (S n1)) as (n2 & L2 & G2); [|lia|].
          + rewrite E'. rewrite Nat.add_mod_idemp_l by lia. rewrite <- E. f_equal. lia.
          + exists n2. split; auto. lia. }
      intros n. pose proof (Hj n).
      destruct (Nat.lt_ge_cases j (jn n)) as [Hlt|Hle].
      - apply (Dist (j + m - jn n)); [|lia].
        replace (jn n + (j + m - jn n)) with (j + 1 * m) by lia.
        rewrite Nat.mod_add by lia. apply Nat.mod_small. auto.
      - apply (Dist (j - jn n)); [|lia].
        replace (jn n + (j - jn n)) with j by lia. apply Nat.mod_small. auto.
    Qed.
  End ROUND.

  (** ** The strategy *)
  Section STRAT.
    Variable W : state -> Prop.
    Variable G : list tset.
    Variable L : nat -> list (tset * tset).
    Hypothesis HG : G <> [].
    Hypothesis HGg : g_liveG g = G.
    Hypothesis HL : forall j, j < length G -> ranked W (nth j G (fun _ _ => true)) (L j).
    Hypothesis HsafeE_in : forall s x y y', g_safeE g s (merge g x y) = g_safeE g s (merge g x y').
    (** Solvers for the transition sets that occur: first the values of the outputs in [B]. *)
    Variable solB : tset -> state -> option state.
    Variable solY : tset -> state -> state -> state -> state.
    Hypothesis HsolB : forall j F A, j < length G -> In (F, A) (L j) -> forall s,
      match solB F s with
      | Some b => answers F s b
      | None => forall b, ~ answers F s b
      end.
    Hypothesis HsolY : forall j F A, j < length G -> In (F, A) (L j) -> forall s b x, answers F s b ->
      g_safeE g s (merge g x x) = true -> agreeB (solY F s b x) b /\ F s (merge g x (solY F s b x)) = true.

    Fixpoint chooseB (l : list (tset * tset)) (s : state) : option (tset * state) :=
      match l with
      | [] => None
      | (F, _) :: l => match solB F s with Some b => Some (F, b) | None => chooseB l s end
      end.

    Variable start : state -> state.
    Definition stratB : strategy := fun h x =>
      match h with
      | [] => start x
      | s :: _ =>
          match chooseB (L (goalOf G h)) s with
          | Some (F, b) => fun k => if B k then b k else solY F s b x k
          | None => fun _ => false
          end
      end.

    Lemma stratB_before : before B stratB.
    Proof.
      intros [|s h] x x' k Hh Hk; [now elim Hh|]. cbn [stratB]. destruct (chooseB _ s) as [[F b]|]; auto. now rewrite Hk.
    Qed.

    Lemma chooseB_follow j s : j < length G -> W s ->
      exists F b, chooseB (L j) s = Some (F, b) /\ forall x, g_safeE g s (merge g x x) = true ->
        follow (L j) s (merge g x (fun k => if B k then b k else solY F s b x k)).
    Proof.
      intros Hj Hw. destruct (HL j Hj) as (_ & C & HX). specialize (C s Hw).
      assert (Aux : forall pre l, L j = pre ++ l -> (forall F A b, In (F, A) pre -> ~ answers F s b) ->
                exists F b, chooseB l s = Some (F, b) /\ forall x, g_safeE g s (merge g x x) = true ->
                  follow (L j) s (merge g x (fun k => if B k then b k else solY F s b x k))).
      { intros pre l. revert pre. induction l as [|[F A] l IH]; intros pre E Hp.
        - exfalso. destruct C as (F & b & HF & Hb). rewrite E, app_nil_r in HF.
          apply in_map_iff in HF. destruct HF as ([F' A] & <- & HF). exact (Hp F' A b HF Hb).
        - cbn [chooseB]. assert (Hin : In (F, A) (L j)) by (rewrite E; apply in_or_app; right; now left).
          pose proof (HsolB j F A Hj Hin s) as HS. destruct (solB F s) as [b|].
          + exists F, b. split; auto. intros x Hx. exists pre, F, A, l. split; auto. split.
            * destruct (HsolY j F A Hj Hin s b x HS Hx) as [H1 H2]. rewrite <- H2. apply (HX F A Hin); auto.
              intros k. unfold merge. destruct (g_out g k); auto. destruct (B k) eqn:Bk; auto. symmetry. now apply H1.
            * intros (F' & b' & HF & Hb). apply in_map_iff in HF. destruct HF as ([F'' A'] & <- & HF). exact (Hp F'' A' b' HF Hb).
          + apply (IH (pre ++ [(F, A)])).
            * now rewrite <- app_assoc.
            * intros F' A' b HF. apply in_app_iff in HF. destruct HF as [HF|[E'|[]]]; [eapply Hp; eauto|].
              injection E' as <- <-. apply HS. }
      apply (Aux []); auto.
    Qed.

    Lemma stratB_wins s0 : W s0 -> forall x, safe_and_live g (play_from g stratB s0 x).
    Proof.
      intros Hw x. set (pi := play_from g stratB s0 x).
      set (jn := fun n => goalOf G (history_from g stratB s0 x n)).
      assert (Step : forall n, W (pi n) -> g_safeE g (pi n) (pi (S n)) = true ->
                follow (L (jn n)) (pi n) (pi (S n))).
      { intros n Wn Hs. destruct (history_from_hd g stratB s0 x n) as (h & Eh).
        assert (EP : pi (S n) = merge g (x (S n)) (stratB (pi n :: h) (x (S n)))).
        { unfold pi at 1, play_from at 1. cbn [history_from hd]. now rewrite Eh. }
        rewrite EP in Hs |- *.
        rewrite (HsafeE_in _ _ _ (x (S n))) in Hs.
        destruct (chooseB_follow (jn n) (pi n) (goalOf_lt' G HG _) Wn) as (F & b & Ey & Hf). specialize (Hf _ Hs).
        unfold stratB at 1. unfold jn in Ey. rewrite Eh in Ey. fold pi in Ey. rewrite Ey. exact Hf. }
      assert (Winv : forall n, (forall i, i < n -> g_safeE g (pi i) (pi (S i)) = true) -> W (pi n)).
      { induction n as [|n IH]; intros H; auto.
        assert (Wn : W (pi n)) by (apply IH; intros; apply H; lia).
        destruct (Step n Wn (H n ltac:(lia))) as (pre & F & A & post & E & HF & _).
        destruct (HL (jn n) (goalOf_lt' G HG _)) as (R & _). apply (R pre F A post E _ _ HF). }
      split.
      - intros n H.
        assert (Wn : W (pi n)) by (apply Winv; intros; apply H; lia).
        destruct (Step n Wn (H n ltac:(lia))) as (pre & F & A & post & E & HF & _).
        destruct (HL (jn n) (goalOf_lt' G HG _)) as (R & _). apply (R pre F A post E _ _ HF).
      - intros HE HA p Hp. rewrite HGg in Hp.
        destruct (In_nth _ _ (fun _ _ => true) Hp) as (j & Hj & <-).
        pose proof (Gpos' G HG) as GP.
        apply (all_goals W (length G) (fun j => nth j G (fun _ _ => true)) L HL pi jn); auto.
        + intros n. apply (goalOf_lt' G HG).
        + intros n. assert (EJ : jn (S n) = if nth (jn n) G (fun _ _ => true) (pi n) (pi (S n))
                                     then (jn n + 1) mod length G else jn n).
          { unfold jn at 1. cbn [history_from].
            destruct (history_from_hd g stratB s0 x n) as (h & Eh).
            change (pi (S n)) with (merge g (x (S n)) (stratB (history_from g stratB s0 x n) (x (S n)))).
            unfold jn. rewrite Eh. reflexivity. }
          destruct (nth (jn n) G (fun _ _ => true) (pi n) (pi (S n))) eqn:EG.
          * exists 1. repeat split; auto; try lia.
            intros e He. replace e with 0 by lia.
            rewrite Nat.add_0_r, Nat.mod_small by apply (goalOf_lt' G HG). exact EG.
          * exists 0. repeat split; auto; try lia; try congruence.
            rewrite Nat.add_0_r, Nat.mod_small by apply (goalOf_lt' G HG). exact EJ.
    Qed.
  End STRAT.
End RANK.
