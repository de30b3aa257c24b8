(** * Ranked transition sets and spoiling for games with arbitrary moves of the environment

    As GameSound.v and GameComplete.v.  Here a move of the environment is an element of any type
    [Mv], and [nxt mv rho] is the position reached if the system replies according to [rho]. *)

From Coq Require Import Arith List Bool Lia.
From Verif Require Import Spec GameSound InterleaveGame.
Import ListNotations.

Section MOVES.
  Variable Mv : Type.
  Variable nxt : Mv -> (state -> state) -> state.

  Fixpoint ghist (f : strategy) (s : state) (mv : nat -> Mv) (n : nat) : list state :=
    match n with
    | O => [s]
    | S n' => let h := ghist f s mv n' in nxt (mv n) (f h) :: h
    end.
  Definition gplay (f : strategy) (s : state) (mv : nat -> Mv) (n : nat) : state := hd (fun _ => false) (ghist f s mv n).

  Lemma ghist_hd f s mv n : exists h, ghist f s mv n = gplay f s mv n :: h.
  Proof. unfold gplay. destruct n; cbn [ghist hd]; eauto. Qed.

  Variables sE sS : tset.
  Variables lA lG : list tset.

  Definition gsl (pi : nat -> state) : Prop :=
    (forall n, (forall m, m <= n -> sE (pi m) (pi (S m)) = true) -> sS (pi n) (pi (S n)) = true) /\
    ((forall n, sE (pi n) (pi (S n)) = true) -> (forall p, In p lA -> inf_often p pi) -> forall p, In p lG -> inf_often p pi).

  (** Whether the system can answer all moves by transitions of a set. *)
  Variable D : Type.
  Variable den : D -> tset.
  Variable ans : D -> state -> Prop.
  Definition cov (Fs : list D) (s : state) : Prop := exists F, In F Fs /\ ans F s.
  Lemma cov_incl Fs Gs s : incl Fs Gs -> cov Fs s -> cov Gs s.
  Proof. intros H (F & HF & Hb). exists F. auto. Qed.

  (** The ranking condition for one goal.  Each set is paired with a liveness
      assumption. *)
  Definition ranked (W : state -> Prop) (G : tset) (L : list (D * tset)) : Prop :=
    (forall pre F A post, L = pre ++ (F, A) :: post -> forall s t, den F s t = true ->
       sS s t = true /\ W t /\
       (G s t = true \/ cov (map fst pre) t \/
        (A s t = false /\ cov (map fst (pre ++ [(F, A)])) t))) /\
    (forall s, W s -> cov (map fst L) s) /\
    (forall F A, In (F, A) L -> In A lA).

  (** A transition of one of the sets that come first. *)
  Definition follow (L : list (D * tset)) (s t : state) : Prop :=
    exists pre F A post, L = pre ++ (F, A) :: post /\ den F s t = true /\ ~ cov (map fst pre) s.

  Section SEQ.
    Variable W : state -> Prop.
    Variable m : nat.
    Variable G : nat -> tset.
    Variable L : nat -> list (D * tset).
    Hypothesis HL : forall j, j < m -> ranked W (G j) (L j).
    Variable pi : nat -> state.
    Variable jn : nat -> nat.
    Hypothesis Hj : forall n, jn n < m.
    Hypothesis Hfollow : forall n, follow (L (jn n)) (pi n) (pi (S n)).
    (** The goal does not change as long as it is not satisfied. *)
    Hypothesis goal_stays : forall n, G (jn n) (pi n) (pi (S n)) = false -> jn (S n) = jn n.
    Hypothesis Hlive : forall A, In A lA -> inf_often A pi.
    Hypothesis HW : W (pi 0).

    Lemma seq_W n : W (pi n).
    Proof.
      induction n as [|n IH]; auto.
      destruct (Hfollow n) as (pre & F & A & post & E & HF & _).
      destruct (HL (jn n) (Hj n)) as (R & _ & _).
      destruct (R pre F A post E _ _ HF) as (_ & H & _). exact H.
    Qed.

    (** From a position covered by the first k sets, the goal is reached. *)
    Lemma reach_goal_rank k : forall n, cov (map fst (firstn k (L (jn n)))) (pi n) ->
      exists n', n <= n' /\ jn n' = jn n /\ G (jn n) (pi n') (pi (S n')) = true.
    Proof.
      induction k as [k IH] using lt_wf_ind. intros n C.
      destruct (HL (jn n) (Hj n)) as (R & _ & RA).
      (* the assumption that belongs to the last of the k sets *)
      assert (Hstep : forall i, jn i = jn n -> cov (map fst (firstn k (L (jn n)))) (pi i) ->
        (exists n', i <= n' /\ jn n' = jn n /\ G (jn n) (pi n') (pi (S n')) = true) \/
        (jn (S i) = jn n /\ cov (map fst (firstn k (L (jn n)))) (pi (S i)) /\
         exists k' F A post, k = S k' /\ L (jn n) = firstn k' (L (jn n)) ++ (F, A) :: post /\
           A (pi i) (pi (S i)) = false)).
      { intros i Ei Ci. destruct (Hfollow i) as (pre & F & A & post & E & HF & Hn).
        rewrite Ei in E. destruct (R pre F A post E _ _ HF) as (_ & _ & H).
        assert (Hpre : firstn (length pre) (L (jn n)) = pre).
        { rewrite E, firstn_app, Nat.sub_diag, firstn_all. cbn. apply app_nil_r. }
        assert (Hk : length pre < k).
        { destruct (Nat.lt_ge_cases (length pre) k) as [|Hge]; auto. exfalso. apply Hn.
          eapply cov_incl; [|exact Ci]. apply incl_map. rewrite <- Hpre.
          now apply firstn_incl. }
        destruct (G (jn n) (pi i) (pi (S i))) eqn:EG.
        - left. exists i. repeat split; auto.
        - assert (EjS : jn (S i) = jn n) by (rewrite goal_stays; [auto|rewrite Ei; auto]).
          destruct H as [H|[H|[HA H]]]; [discriminate| |].
          + left. destruct (IH (length pre) Hk (S i)) as (n' & L1 & L2 & L3).
            * rewrite EjS, Hpre. exact H.
            * exists n'. rewrite EjS in L2, L3. repeat split; auto. lia.
          + assert (Hpre1 : firstn (S (length pre)) (L (jn n)) = pre ++ [(F, A)]).
            { rewrite E. replace (S (length pre)) with (length pre + 1) by lia.
              rewrite firstn_app_2. reflexivity. }
            destruct (Nat.eq_dec (S (length pre)) k) as [Ek|Hne].
            * right. split; [auto|]. split.
              -- rewrite <- Ek, Hpre1. exact H.
              -- exists (length pre), F, A, post. rewrite Hpre. auto.
            * left. destruct (IH (S (length pre)) ltac:(lia) (S i)) as (n' & L1 & L2 & L3).
              -- rewrite EjS, Hpre1. exact H.
              -- exists n'. rewrite EjS in L2, L3. repeat split; auto. lia. }
      destruct (Hstep n eq_refl C) as [H|(E1 & C1 & k' & F & A & post & -> & EL & HA)]; [exact H|].
      assert (HinA : In A lA).
      { apply (RA F A). rewrite EL. apply in_or_app. right. now left. }
      destruct (Hlive A HinA n) as (nA & Hle & HnA).
      (* walk from n to nA *)
      assert (Walk : forall d, n + d <= nA ->
        (exists n', n <= n' /\ jn n' = jn n /\ G (jn n) (pi n') (pi (S n')) = true) \/
        (jn (n + d) = jn n /\ cov (map fst (firstn (S k') (L (jn n)))) (pi (n + d)))).
      { induction d as [|d IHd]; intros Hd.
        - right. rewrite Nat.add_0_r. auto.
        - destruct IHd as [H|[E C']]; [lia|now left|].
          destruct (Hstep (n + d) E C') as [(n' & L1 & L2 & L3)|(E' & C'' & _)].
          + left. exists n'. repeat split; auto. lia.
          + right. rewrite Nat.add_succ_r. auto. }
      destruct (Walk (nA - n) ltac:(lia)) as [H|[E C']]; [exact H|].
      replace (n + (nA - n)) with nA in * by lia.
      destruct (Hstep nA E C') as [(n' & L1 & L2 & L3)|(_ & _ & k'' & F' & A' & post' & Ek & EL' & HA')].
      - exists n'. repeat split; auto. lia.
      - injection Ek as <-. rewrite EL in EL' at 1. apply app_inv_head in EL'.
        injection EL' as -> -> ->. congruence.
    Qed.

    Lemma reach_goal n : exists n', n <= n' /\ jn n' = jn n /\ G (jn n) (pi n') (pi (S n')) = true.
    Proof.
      apply (reach_goal_rank (length (L (jn n)))). rewrite firstn_all.
      destruct (HL (jn n) (Hj n)) as (_ & C & _). apply C. apply seq_W.
    Qed.

  End SEQ.

  Section ROUND.
    Variable W : state -> Prop.
    Variable m : nat.
    Variable G : nat -> tset.
    Variable L : nat -> list (D * tset).
    Hypothesis HL : forall j, j < m -> ranked W (G j) (L j).
    Variable pi : nat -> state.
    Variable jn : nat -> nat.
    Hypothesis Hj : forall n, jn n < m.
    Hypothesis Hfollow : forall n, follow (L (jn n)) (pi n) (pi (S n)).
    (** The goal counter advances over satisfied goals, by at least one if the
        current one is satisfied. *)
    Hypothesis Hnext : forall n, exists d, d <= m /\ jn (S n) = (jn n + d) mod m /\
      (forall e, e < d -> G ((jn n + e) mod m) (pi n) (pi (S n)) = true) /\
      (G (jn n) (pi n) (pi (S n)) = true -> 1 <= d).
    Hypothesis Hlive : forall A, In A lA -> inf_often A pi.
    Hypothesis HW : W (pi 0).

    Lemma goal_stays n : G (jn n) (pi n) (pi (S n)) = false -> jn (S n) = jn n.
    Proof.
      intros H. destruct (Hnext n) as (d & _ & E & Hd & _).
      destruct d as [|d].
      - rewrite E, Nat.add_0_r. apply Nat.mod_small. apply Hj.
      - specialize (Hd 0 ltac:(lia)). rewrite Nat.add_0_r, Nat.mod_small in Hd by apply Hj. congruence.
    Qed.

    Let reach_goal n : exists n', n <= n' /\ jn n' = jn n /\ G (jn n) (pi n') (pi (S n')) = true.
    Proof. apply (reach_goal W m G L HL pi jn Hj Hfollow goal_stays Hlive HW). Qed.

    (** All goals are reached infinitely often. *)
    Lemma all_goals j : j < m -> inf_often (G j) pi.
    Proof.
      intros Hjm.
      assert (Dist : forall d n, (jn n + d) mod m = j -> d < m ->
                exists n', n <= n' /\ G j (pi n') (pi (S n')) = true).
      { induction d as [d IH] using lt_wf_ind. intros n E Hd.
        destruct (reach_goal n) as (n1 & L1 & E1 & G1).
        destruct (Hnext n1) as (d' & Hd' & E' & Hs & Hge). rewrite E1 in *.
        specialize (Hge G1).
        destruct (Nat.lt_ge_cases d d') as [Hlt|Hle].
        - exists n1. split; auto. rewrite <- E. apply Hs. auto.
        - destruct (IH (d - d') ltac:(lia) (S n1)) as (n2 & L2 & G2); [|lia|].
          + rewrite E'. rewrite Nat.add_mod_idemp_l by lia. rewrite <- E. f_equal. lia.
          + exists n2. split; auto. lia. }
      intros n. pose proof (Hj n).
      destruct (Nat.lt_ge_cases j (jn n)) as [Hlt|Hle].
      - apply (Dist (j + m - jn n)); [|lia].
        replace (jn n + (j + m - jn n)) with (j + 1 * m) by lia.
        rewrite Nat.mod_add by lia. apply Nat.mod_small. auto.
      - apply (Dist (j - jn n)); [|lia].
        replace (jn n + (j - jn n)) with j by lia. apply Nat.mod_small. auto.
    Qed.
  End ROUND.

  (** ** The strategy *)
  Section STRAT.
    Variable W : state -> Prop.
    Variable G : list tset.
    Variable L : nat -> list (D * tset).
    Hypothesis HG : G <> [].
    Hypothesis HGg : lG = G.
    Hypothesis HL : forall j, j < length G -> ranked W (nth j G (fun _ _ => true)) (L j).
    Variable sol : D -> state -> option (state -> state).
    Hypothesis Hsol : forall j F A, j < length G -> In (F, A) (L j) -> forall s,
      match sol F s with
      | Some rho => forall mv, sE s (nxt mv rho) = true -> den F s (nxt mv rho) = true
      | None => ~ ans F s
      end.

    Fixpoint chooseR (l : list (D * tset)) (s : state) : option (state -> state) :=
      match l with
      | [] => None
      | (F, _) :: l => match sol F s with Some rho => Some rho | None => chooseR l s end
      end.

    Variable start : state -> state.
    Definition stratR : strategy := fun h =>
      match h with
      | [] => start
      | s :: _ => match chooseR (L (goalOf G h)) s with Some rho => rho | None => fun x => x end
      end.

    Lemma chooseR_follow j s : j < length G -> W s ->
      exists rho, chooseR (L j) s = Some rho /\ forall mv, sE s (nxt mv rho) = true -> follow (L j) s (nxt mv rho).
    Proof.
      intros Hj Hw. destruct (HL j Hj) as (_ & C & _). specialize (C s Hw).
      assert (Aux : forall pre l, L j = pre ++ l -> (forall F A, In (F, A) pre -> ~ ans F s) ->
                exists rho, chooseR l s = Some rho /\ forall mv, sE s (nxt mv rho) = true -> follow (L j) s (nxt mv rho)).
      { intros pre l. revert pre. induction l as [|[F A] l IH]; intros pre E Hp.
        - exfalso. destruct C as (F & HF & Hb). rewrite E, app_nil_r in HF.
          apply in_map_iff in HF. destruct HF as ([F' A] & <- & HF). exact (Hp F' A HF Hb).
        - cbn [chooseR]. assert (Hin : In (F, A) (L j)) by (rewrite E; apply in_or_app; right; now left).
          pose proof (Hsol j F A Hj Hin s) as HS. destruct (sol F s) as [rho|].
          + exists rho. split; auto. intros mv Hx. exists pre, F, A, l. split; auto. split; auto.
            intros (F' & HF & Hb). apply in_map_iff in HF. destruct HF as ([F'' A'] & <- & HF). exact (Hp F'' A' HF Hb).
          + apply (IH (pre ++ [(F, A)])).
            * now rewrite <- app_assoc.
            * intros F' A' HF. apply in_app_iff in HF. destruct HF as [HF|[E'|[]]]; [eapply Hp; eauto|].
              injection E' as <- <-. apply HS. }
      apply (Aux []); auto.
    Qed.

    Lemma stratR_wins s0 : W s0 -> forall mv, gsl (gplay stratR s0 mv).
    Proof.
      intros Hw mv. set (pi := gplay stratR s0 mv).
      set (jn := fun n => goalOf G (ghist stratR s0 mv n)).
      assert (Step : forall n, W (pi n) -> sE (pi n) (pi (S n)) = true -> follow (L (jn n)) (pi n) (pi (S n))).
      { intros n Wn Hs. destruct (ghist_hd stratR s0 mv n) as (h & Eh).
        assert (EP : pi (S n) = nxt (mv (S n)) (stratR (pi n :: h))).
        { unfold pi at 1, gplay at 1. cbn [ghist hd]. now rewrite Eh. }
        rewrite EP in Hs |- *.
        destruct (chooseR_follow (jn n) (pi n) (goalOf_lt' G HG _) Wn) as (rho & Ey & Hf).
        unfold jn in Ey. rewrite Eh in Ey. fold pi in Ey. cbn [stratR] in *. rewrite Ey in *. now apply Hf. }
      assert (Winv : forall n, (forall i, i < n -> sE (pi i) (pi (S i)) = true) -> W (pi n)).
      { induction n as [|n IH]; intros H; auto.
        assert (Wn : W (pi n)) by (apply IH; intros; apply H; lia).
        destruct (Step n Wn (H n ltac:(lia))) as (pre & F & A & post & E & HF & _).
        destruct (HL (jn n) (goalOf_lt' G HG _)) as (R & _). apply (R pre F A post E _ _ HF). }
      split.
      - intros n H.
        assert (Wn : W (pi n)) by (apply Winv; intros; apply H; lia).
        destruct (Step n Wn (H n ltac:(lia))) as (pre & F & A & post & E & HF & _).
        destruct (HL (jn n) (goalOf_lt' G HG _)) as (R & _). apply (R pre F A post E _ _ HF).
      - intros HE HA p Hp. rewrite HGg in Hp.
        destruct (In_nth _ _ (fun _ _ => true) Hp) as (j & Hj & <-).
        pose proof (Gpos' G HG) as GP.
        apply (all_goals W (length G) (fun j => nth j G (fun _ _ => true)) L HL pi jn); auto.
        + intros n. apply (goalOf_lt' G HG).
        + intros n. assert (EJ : jn (S n) = if nth (jn n) G (fun _ _ => true) (pi n) (pi (S n))
                                     then (jn n + 1) mod length G else jn n).
          { unfold jn at 1. cbn [ghist].
            destruct (ghist_hd stratR s0 mv n) as (h & Eh).
            change (pi (S n)) with (nxt (mv (S n)) (stratR (ghist stratR s0 mv n))).
            unfold jn. rewrite Eh. reflexivity. }
          destruct (nth (jn n) G (fun _ _ => true) (pi n) (pi (S n))) eqn:EG.
          * exists 1. repeat split; auto; try lia.
            intros e He. replace e with 0 by lia.
            rewrite Nat.add_0_r, Nat.mod_small by apply (goalOf_lt' G HG). exact EG.
          * exists 0. repeat split; auto; try lia; try congruence.
            rewrite Nat.add_0_r, Nat.mod_small by apply (goalOf_lt' G HG). exact EJ.
    Qed.
  End STRAT.

Section SPOIL.
  Variables nA nG : nat.
  Variable A : nat -> state -> state -> bool.
  Variable G : nat -> state -> state -> bool.
  Hypothesis HA : forall p, In p lA -> exists i, i < nA /\ forall s t, p s t = A i s t.
  Hypothesis HG : forall j, j < nG -> exists p, In p lG /\ forall s t, p s t = G j s t.
  Hypothesis nA_pos : 0 < nA.

  (** Outer iterates, middle fixed points and inner iterates. *)
  Variable Z : nat -> state -> bool.
  Variable Y : nat -> nat -> state -> bool.
  Variable X : nat -> nat -> nat -> nat -> state -> bool.
  Variable M : nat -> nat -> nat -> nat.
  Variable pick : nat -> nat -> nat -> nat -> state -> (state -> state) -> Mv.

  Hypothesis HZ0 : forall s, Z 0 s = true.
  Hypothesis HX0 : forall k j i s, X k j i 0 s = true.
  Hypothesis HZ : forall k s, Z (S k) s = false -> exists j, j < nG /\ Y k j s = false.
  Hypothesis HY : forall k j i s, j < nG -> i < nA -> Y k j s = false -> X k j i (M k j i) s = false.
  Hypothesis Hpick : forall k j i m s, j < nG -> i < nA -> X k j i (S m) s = false ->
    forall rho, let t := nxt (pick k j i m s rho) rho in
      sE s t = true /\
      (sS s t = true ->
        (G j s t = true -> Z k t = false) /\ Y k j t = false /\
        (A i s t = true \/ X k j i m t = false)).

  (** The memory of the spoiling environment: outer index, goal, assumption,
      inner index. *)
  Record mem := mkMem { mk : nat; mj : nat; mi : nat; mm : nat }.

  Definition findGoal (k : nat) (s : state) : nat :=
    match find (fun j => negb (Y k j s)) (seq 0 nG) with Some j => j | None => 0 end.

  Definition startMem (k : nat) (s : state) : mem :=
    let j := findGoal k s in mkMem k j 0 (pred (M k j 0)).

  Definition nextMem (e : mem) (s t : state) : mem :=
    if negb (Z (mk e) t) then startMem (pred (mk e)) t
    else if A (mi e) s t then
      let i := (mi e + 1) mod nA in mkMem (mk e) (mj e) i (pred (M (mk e) (mj e) i))
    else mkMem (mk e) (mj e) (mi e) (pred (mm e)).

  Definition inv (e : mem) (s : state) : Prop :=
    mj e < nG /\ mi e < nA /\ Y (mk e) (mj e) s = false /\ X (mk e) (mj e) (mi e) (S (mm e)) s = false.

  Lemma Msucc k j i s : j < nG -> i < nA -> Y k j s = false ->
    X k j i (S (pred (M k j i))) s = false.
  Proof.
    intros Hj Hi H. pose proof (HY k j i s Hj Hi H) as E.
    destruct (M k j i); [rewrite HX0 in E; discriminate|exact E].
  Qed.

  Lemma startMem_inv k s : Z (S k) s = false -> inv (startMem k s) s.
  Proof.
    intros H. destruct (HZ k s H) as (j & Hj & Ej). unfold startMem, findGoal.
    destruct (find _ _) as [j'|] eqn:F.
    - apply find_some in F. destruct F as [F1 F2]. apply in_seq in F1. apply negb_true_iff in F2.
      unfold inv; cbn. repeat split; auto; try lia. apply Msucc; auto; lia.
    - exfalso. pose proof (find_none _ _ F j) as N. cbv beta in N. rewrite Ej in N.
      assert (negb false = false) by (apply N; apply in_seq; lia). discriminate.
  Qed.

  Section STRATEGY.
    Variable f : strategy.
    Variable s0 : state.
    Variable K : nat.
    Hypothesis Hs0 : Z (S K) s0 = false.

    Definition hd' (h : list state) : state := hd (fun _ => false) h.

    Fixpoint hm (n : nat) : list state * mem :=
      match n with
      | O => ([s0], startMem K s0)
      | S n => let '(h, e) := hm n in
               let t := nxt (pick (mk e) (mj e) (mi e) (mm e) (hd' h) (f h)) (f h) in
               (t :: h, nextMem e (hd' h) t)
      end.

    Definition xs (n : nat) : Mv :=
      let e := snd (hm (pred n)) in pick (mk e) (mj e) (mi e) (mm e) (hd' (fst (hm (pred n)))) (f (fst (hm (pred n)))).

    Lemma history_hm n : ghist f s0 xs n = fst (hm n).
    Proof.
      induction n as [|n IH]; auto. cbn [ghist]. rewrite IH. unfold xs. cbn [pred].
      cbn [hm]. destruct (hm n) as [h e]. reflexivity.
    Qed.

    Definition pi (n : nat) : state := gplay f s0 xs n.
    Definition me (n : nat) : mem := snd (hm n).

    Lemma pi_S n : exists rho, pi (S n) = nxt (pick (mk (me n)) (mj (me n)) (mi (me n)) (mm (me n)) (pi n) rho) rho.
    Proof.
      unfold pi, gplay. cbn [ghist hd]. rewrite history_hm. exists (f (fst (hm n))). reflexivity.
    Qed.
    Lemma me_S n : me (S n) = nextMem (me n) (pi n) (pi (S n)).
    Proof.
      unfold me, pi, gplay. rewrite !history_hm. cbn [hm]. destruct (hm n) as [h e]. reflexivity.
    Qed.

    Hypothesis Hwin : gsl (gplay f s0 xs).

    Lemma all_inv n : inv (me n) (pi n) /\ (forall i, i < n -> sE (pi i) (pi (S i)) = true).
    Proof.
      induction n as [|n [I E]].
      - split; [apply startMem_inv; auto|]. lia.
      - destruct (pi_S n) as (rho & Ey).
        destruct I as (I1 & I2 & I3 & I4).
        pose proof (Hpick _ _ _ _ _ I1 I2 I4 rho) as P. cbv zeta in P. rewrite <- Ey in P.
        destruct P as [P1 P2].
        assert (E' : forall i, i < S n -> sE (pi i) (pi (S i)) = true).
        { intros i Hi. destruct (Nat.eq_dec i n) as [->|]; auto. apply E. lia. }
        split; auto.
        assert (Hs : sS (pi n) (pi (S n)) = true).
        { destruct Hwin as [H _]. apply H. intros i Hi. apply E'. lia. }
        destruct (P2 Hs) as (Q1 & Q2 & Q3).
        rewrite me_S. unfold nextMem.
        destruct (Z (mk (me n)) (pi (S n))) eqn:EZ; cbn [negb].
        + destruct (A (mi (me n)) (pi n) (pi (S n))) eqn:EA.
          * unfold inv; cbn. assert ((mi (me n) + 1) mod nA < nA) by (apply Nat.mod_upper_bound; lia).
            repeat split; auto. now apply Msucc.
          * destruct Q3 as [Q3|Q3]; [discriminate|].
            unfold inv; cbn. repeat split; auto.
            destruct (mm (me n)); [rewrite HX0 in Q3; discriminate|exact Q3].
        + destruct (mk (me n)) as [|k] eqn:Ek; [rewrite HZ0 in EZ; discriminate|].
          cbn [pred]. now apply startMem_inv.
    Qed.

    Lemma safeE_all n : sE (pi n) (pi (S n)) = true.
    Proof. apply (proj2 (all_inv (S n))). lia. Qed.

    Lemma safeS_all n : sS (pi n) (pi (S n)) = true.
    Proof. destruct Hwin as [H _]. apply H. intros i _. apply safeE_all. Qed.

    (** One step: the outer index drops, or the assumption pursued holds, or the
        inner index drops. *)
    Lemma one_step n :
      (G (mj (me n)) (pi n) (pi (S n)) = true -> mk (me (S n)) < mk (me n)) /\
      (mk (me (S n)) < mk (me n) \/
       (mk (me (S n)) = mk (me n) /\ mj (me (S n)) = mj (me n) /\
        ((A (mi (me n)) (pi n) (pi (S n)) = true /\ mi (me (S n)) = (mi (me n) + 1) mod nA) \/
         (mi (me (S n)) = mi (me n) /\ mm (me (S n)) < mm (me n))))).
    Proof.
      destruct (all_inv n) as [(I1 & I2 & I3 & I4) _].
      destruct (pi_S n) as (rho & Ey).
      pose proof (Hpick _ _ _ _ _ I1 I2 I4 rho) as P. cbv zeta in P. rewrite <- Ey in P.
      destruct P as [_ P2]. destruct (P2 (safeS_all n)) as (Q1 & Q2 & Q3).
      rewrite me_S. unfold nextMem.
      destruct (Z (mk (me n)) (pi (S n))) eqn:EZ; cbn [negb].
      - split; [intros H; specialize (Q1 H); congruence|]. right.
        destruct (A (mi (me n)) (pi n) (pi (S n))) eqn:EA; cbn; repeat split; auto.
        right. split; auto. destruct Q3 as [Q3|Q3]; [discriminate|].
        destruct (mm (me n)); [rewrite HX0 in Q3; discriminate|cbn; lia].
      - assert (mk (startMem (pred (mk (me n))) (pi (S n))) < mk (me n)); [|auto].
        unfold startMem; cbn. destruct (mk (me n)); [rewrite HZ0 in EZ; discriminate|cbn; lia].
    Qed.

    Lemma asm_often q : q < nA -> forall n, exists n', n <= n' /\ A q (pi n') (pi (S n')) = true.
    Proof.
      intros Hq.
      assert (Ind : forall k d m n, mk (me n) = k -> (mi (me n) + d) mod nA = q -> d < nA ->
                mm (me n) = m -> exists n', n <= n' /\ A q (pi n') (pi (S n')) = true).
      { induction k as [k IHk] using lt_wf_ind.
        assert (Any : forall n, mk (me n) < k -> exists n', n <= n' /\ A q (pi n') (pi (S n')) = true).
        { intros n Hn. destruct (all_inv n) as [(_ & I2 & _) _].
          destruct (Nat.lt_ge_cases q (mi (me n))) as [Hlt|Hle].
          - apply (IHk _ Hn (q + nA - mi (me n)) (mm (me n))); auto; [|lia].
            replace (mi (me n) + (q + nA - mi (me n))) with (q + 1 * nA) by lia.
            rewrite Nat.mod_add by lia. now apply Nat.mod_small.
          - apply (IHk _ Hn (q - mi (me n)) (mm (me n))); auto; [|lia].
            replace (mi (me n) + (q - mi (me n))) with q by lia. now apply Nat.mod_small. }
        induction d as [d IHd] using lt_wf_ind.
        induction m as [m IHm] using lt_wf_ind.
        intros n Ek Ed Hd Em.
        destruct (one_step n) as [_ [H|(E1 & E2 & [[HA1 E3]|[E3 H]])]].
        - destruct (Any (S n)) as (n' & L & H'); [lia|]. exists n'. split; auto. lia.
        - destruct d as [|d].
          + exists n. split; auto. destruct (all_inv n) as [(_ & I2 & _) _].
            rewrite Nat.add_0_r, Nat.mod_small in Ed by auto. now rewrite <- Ed.
          + destruct (IHd d ltac:(lia) (mm (me (S n))) (S n)) as (n' & L & H'); try lia.
            * rewrite E3, Nat.add_mod_idemp_l by lia. rewrite <- Ed. f_equal. lia.
            * exists n'. split; auto. lia.
        - destruct (IHm (mm (me (S n))) ltac:(lia) (S n)) as (n' & L & H'); try lia.
          + now rewrite E3.
          + exists n'. split; auto. lia. }
      intros n. destruct (all_inv n) as [(_ & I2 & _) _].
      destruct (Nat.lt_ge_cases q (mi (me n))) as [Hlt|Hle].
      - apply (Ind (mk (me n)) (q + nA - mi (me n)) (mm (me n)) n); auto; [|lia].
        replace (mi (me n) + (q + nA - mi (me n))) with (q + 1 * nA) by lia.
        rewrite Nat.mod_add by lia. now apply Nat.mod_small.
      - apply (Ind (mk (me n)) (q - mi (me n)) (mm (me n)) n); auto; [|lia].
        replace (mi (me n) + (q - mi (me n))) with q by lia. now apply Nat.mod_small.
    Qed.

    Lemma goal_often j : j < nG -> forall n, exists n', n <= n' /\ G j (pi n') (pi (S n')) = true.
    Proof.
      intros Hj n. destruct (HG j Hj) as (p & Hp & Ep).
      destruct Hwin as [_ H]. destruct (H safeE_all) with (p := p) (n := n) as (n' & L & H'); auto.
      - intros q Hq i. destruct (HA q Hq) as (a & Ha & Ea). destruct (asm_often a Ha i) as (i' & L & H').
        exists i'. split; auto. rewrite Ea. exact H'.
      - exists n'. split; auto. rewrite <- Ep. exact H'.
    Qed.

    Lemma contradiction_at : False.
    Proof.
      assert (Ind : forall k n, mk (me n) = k -> False).
      { induction k as [k IH] using lt_wf_ind. intros n Ek.
        destruct (all_inv n) as [(I1 & _) _].
        destruct (goal_often (mj (me n)) I1 n) as (n' & L & H).
        assert (Walk : forall d, n + d <= n' -> mk (me (n + d)) = k /\ mj (me (n + d)) = mj (me n)).
        { induction d as [|d IHd]; intros Hd; [now rewrite Nat.add_0_r|].
          destruct IHd as [W1 W2]; [lia|]. rewrite Nat.add_succ_r.
          destruct (one_step (n + d)) as [_ [Hlt|(E1 & E2 & _)]].
          - exfalso. eapply (IH (mk (me (S (n + d))))); [lia|reflexivity].
          - split; congruence. }
        destruct (Walk (n' - n) ltac:(lia)) as [W1 W2].
        replace (n + (n' - n)) with n' in * by lia.
        destruct (one_step n') as [Hg _]. rewrite W2 in Hg. specialize (Hg H).
        eapply (IH (mk (me (S n')))); [lia|reflexivity]. }
      exact (Ind _ 0 eq_refl).
    Qed.
  End STRATEGY.

  Theorem spoil (f : strategy) (s0 : state) (K : nat) :
    Z K s0 = false -> exists mv, ~ gsl (gplay f s0 mv).
  Proof.
    destruct K as [|K]; [rewrite HZ0; discriminate|].
    intros H. exists (xs f s0 K). intros Hw. eapply contradiction_at; eauto.
  Qed.
End SPOIL.
End MOVES.
