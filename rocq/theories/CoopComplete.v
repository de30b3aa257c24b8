(** * Positions from which a winning strategy is cooperative are found *)

From Coq Require Import Arith List Bool Lia ConstructiveEpsilon.
From Verif Require Import BDD Loop Spec CoopSpec VarTypes Synth Sem FixBase GameSound SynthProofs Explicit Coop CoopProofs.
Import ListNotations.

Lemma history_from_ext g f s x y n : (forall m, m <= n -> x m = y m) ->
  history_from g f s x n = history_from g f s y n.
Proof.
  induction n as [|n IH]; intros H; cbn [history_from]; auto.
  rewrite IH by (intros; apply H; lia). now rewrite (H (S n)).
Qed.

Lemma play_from_ext g f s x y n : (forall m, m <= n -> x m = y m) -> play_from g f s x n = play_from g f s y n.
Proof. intros H. unfold play_from. now rewrite (history_from_ext g f s x y n H). Qed.

Section COMPLETE.
  Variable c : ctx.
  Hypothesis Hwf : wf c.
  Let Hk := wf_kinds c Hwf.
  Let HSe := wf_safetyEnv c Hwf.
  Local Notation pre := (dep (isPreV c)).
  Local Notation any := (dep (isAnyV c)).
  Local Notation g := (game_of c).

  Variable f : strategy.
  Variable s0 : state.
  Local Notation pi := (play_from g f s0).
  Hypothesis Hwin : forall x, safe_and_live g (pi x).
  Variable way : (nat -> state) -> nat -> nat -> state.
  Hypothesis Hway : forall x n, safe_until g (pi x) n ->
    (forall m, m <= n -> way x n m = x m) /\ env_satisfied g (pi (way x n)).

  Local Notation att x n := (safe_until g (pi x) n).

  Lemma att_le x n m : m <= n -> att x n -> att x m.
  Proof. intros L H i Hi. apply H. lia. Qed.
  Lemma att_ext x y n : (forall m, m <= n -> x m = y m) -> att x n -> att y n.
  Proof.
    intros E H m Hm. rewrite <- (play_from_ext g f s0 x y m), <- (play_from_ext g f s0 x y (S m)); [auto| |]; intros; apply E; lia.
  Qed.
  Lemma att_free x n : att x n -> free c (pi x n).
  Proof.
    intros H. destruct (Hway x n H) as [E [HS _]]. exists (pi (way x n) (S n)).
    rewrite <- (play_from_ext g f s0 (way x n) x n) by (intros; apply E; auto). apply HS.
  Qed.
  Lemma att_safe x n : att x (S n) -> trans (safetySys c) (pi x n) (pi x (S n)) = true /\
    trans (safetyEnv c) (pi x n) (pi x (S n)) = true /\ free c (pi x (S n)).
  Proof.
    intros H. split; [|split].
    - apply (proj1 (Hwin x) n). intros m Hm. apply H. lia.
    - apply (H n). lia.
    - now apply att_free.
  Qed.

  Section ROUND.
    Variable z : BF.
    Hypothesis Hz : pre z.
    Hypothesis HZ : forall x n, att x n -> pos z (pi x n) = true.

    (** *** A liveness assumption can be satisfied *)
    Lemma round_asm a next : In a (livenessAssumptions c) -> pre next ->
      (forall x n, att x n -> pos next (pi x n) = true) ->
      forall x n, att x n -> pos (goodM c a next) (pi x n) = true.
    Proof.
      intros Ha Hn HN x n Hx. pose proof (any_asm c Hwf a Ha) as Aa.
      destruct (Hway x n Hx) as [E [HS HA]].
      set (y := way x n) in *.
      destruct (HA (trans a) (in_map trans _ _ Ha) n) as (nA & HnA & HtA).
      assert (At : forall k, att y k) by (intros k m _; apply HS).
      assert (HE : forall k, edgeG c next (pi y k) (pi y (S k))).
      { intros k. destruct (att_safe y k (At _)) as (H1 & H2 & H3). split; [auto|]. auto. }
      assert (G : forall d k, k + d = nA -> pos (goodM c a next) (pi y k) = true).
      { induction d as [|d IH]; intros k Ek.
        - rewrite Nat.add_0_r in Ek. subst k. apply (goodM_base c Hwf a next _ (pi y (S nA))); auto.
        - apply (goodM_closed c Hwf a next _ (pi y (S k))); auto. apply IH. lia. }
      rewrite <- (play_from_ext g f s0 y x n) by (intros; apply E; auto). apply (G (nA - n)). lia.
    Qed.

    Lemma round_nextA asms : incl asms (livenessAssumptions c) -> forall next, pre next ->
      (forall x n, att x n -> pos next (pi x n) = true) ->
      forall x n, att x n -> pos (nextA c asms next) (pi x n) = true.
    Proof.
      unfold nextA. induction asms as [|a asms IH]; intros Hi next Hn HN x n Hx; cbn [fold_left]; auto.
      assert (Ha : In a (livenessAssumptions c)) by (apply Hi; now left).
      apply IH; auto.
      - intros b Hb. apply Hi. now right.
      - apply dep_and; auto. apply (pre_goodM c Hwf); auto. now apply (any_asm c Hwf).
      - intros x' n' Hx'. rewrite pos_and, HN by auto. cbn. now apply round_asm.
    Qed.

    (** *** A liveness guarantee *)
    Section GOAL.
      Variable gl : BF.
      Hypothesis Hgl : In gl (livenessGuarantees c).
      Let Agl : any gl := any_gua c Hwf gl Hgl.
      Local Notation Y := (muYC c z gl).
      Local Notation live := (liveOf c z gl Y).
      Let PY : pre Y := pre_muYC c Hwf z gl Hz Agl.
      Let Alive : any live.
      Proof. apply (any_liveOf c Hwf); auto; now apply isPre_isAny. Qed.

      Definition noGoal (x : nat -> state) (n n' : nat) : Prop :=
        forall i, n <= i < n' -> trans gl (pi x i) (pi x (S i)) = false.

      Definition reached (a : BF) (x : nat -> state) (n : nat) (x' : nat -> state) (n' : nat) : Prop :=
        n < n' /\ att x' n' /\ (forall i, i <= n -> x' i = x i) /\ pos Y (pi x' n') = false /\ noGoal x' n n' /\
        exists i, n <= i < n' /\ trans a (pi x' i) (pi x' (S i)) = true.

      (** A step that is not among the found transitions. *)
      Lemma not_found a X x n : In a (livenessAssumptions c) -> pre X -> att x (S n) ->
        trans (foundC c live a X) (pi x n) (pi x (S n)) = false ->
        trans gl (pi x n) (pi x (S n)) = false /\ pos Y (pi x (S n)) = false /\
        (trans a (pi x n) (pi x (S n)) = false -> pos X (pi x (S n)) = true ->
         pos (muC c live a X) (pi x (S n)) = false).
      Proof.
        intros Ha HX Hx HF. pose proof (any_asm c Hwf a Ha) as Aa.
        destruct (att_safe x n Hx) as (H1 & H2 & H3).
        assert (NL : trans live (pi x n) (pi x (S n)) = false).
        { destruct (trans live (pi x n) (pi x (S n))) eqn:E; auto. rewrite <- HF. symmetry.
          apply (foundC_spec c Hwf); auto. }
        split; [|split].
        - destruct (trans gl (pi x n) (pi x (S n))) eqn:E; auto. rewrite <- NL. symmetry.
          apply (liveOf_spec c Hwf); auto.
        - destruct (pos Y (pi x (S n))) eqn:E; auto. rewrite <- NL. symmetry.
          apply (liveOf_spec c Hwf); auto.
        - intros E1 E2. destruct (pos (muC c live a X) (pi x (S n))) eqn:E; auto. rewrite <- HF. symmetry.
          apply (foundC_spec c Hwf); auto.
      Qed.

      Lemma macro a m : In a (livenessAssumptions c) -> forall x n, att x n ->
        pos (iterXC c live a m) (pi x n) = false ->
        { xn : (nat -> state) * nat | reached a x n (fst xn) (snd xn) }.
      Proof.
        intros Ha. pose proof (any_asm c Hwf a Ha) as Aa.
        induction m as [|m IH]; intros x n Hx Hm; [cbn in Hm; discriminate|].
        set (X := iterXC c live a m) in *.
        assert (PX : pre X) by (apply (pre_iterXC c Hwf); auto).
        assert (AF : any (foundC c live a X)) by (apply (any_foundC c Hwf); auto).
        change (pos (cox c (foundC c live a X)) (pi x n) = false) in Hm.
        pose proof (envPick_spec c Hk HSe (foundC c live a X) (pi x n) AF Hm) as HP.
        set (x1 := fun i => if Nat.eqb i (S n) then envPick c (foundC c live a X) (pi x n) else x i).
        assert (E1 : forall i, i <= n -> x1 i = x i).
        { intros i Hi. unfold x1. destruct (Nat.eqb_spec i (S n)); auto. lia. }
        assert (EP : pi x1 (S n) = merge g (envPick c (foundC c live a X) (pi x n))
                       (f (history_from g f s0 x n) (envPick c (foundC c live a X) (pi x n)))).
        { unfold play_from at 1. cbn [history_from hd]. unfold x1 at 1. rewrite Nat.eqb_refl.
          rewrite (history_from_ext g f s0 x1 x n E1). unfold x1. now rewrite Nat.eqb_refl. }
        assert (En : pi x1 n = pi x n) by (apply play_from_ext; auto).
        destruct (HP (f (history_from g f s0 x n) (envPick c (foundC c live a X) (pi x n)))) as [HP1 HP2].
        rewrite mrg_merge in HP1, HP2. rewrite <- EP in HP1, HP2. rewrite <- En in HP1, HP2.
        assert (A1 : att x1 (S n)).
        { intros i Hi. destruct (Nat.eq_dec i n) as [->|]; [exact HP1|].
          apply (att_ext x x1 n); auto; [intros; symmetry; auto|lia]. }
        destruct (not_found a X x1 n Ha PX A1 HP2) as (N1 & N2 & N3).
        destruct (trans a (pi x1 n) (pi x1 (S n))) eqn:EA.
        { exists (x1, S n). cbn [fst snd]. split; [lia|]. split; [auto|]. split; [auto|]. split; [auto|]. split.
          - intros i Hi. replace i with n by lia. auto.
          - exists n. split; [lia|auto]. }
        destruct (pos X (pi x1 (S n))) eqn:EX.
        2: { destruct (IH x1 (S n) A1 EX) as ([x' n'] & R1 & R2 & R3 & R4 & R5 & R6). cbn [fst snd] in *.
          exists (x', n'). cbn [fst snd]. split; [lia|]. split; [auto|]. split; [|split; [auto|split]].
          - intros i Hi. rewrite R3 by lia. auto.
          - intros i Hi. destruct (Nat.eq_dec i n) as [->|]; [|apply R5; lia].
            rewrite (play_from_ext g f s0 x' x1 n), (play_from_ext g f s0 x' x1 (S n)); auto; intros; apply R3; lia.
          - destruct R6 as (i & Hi & R6). exists i. split; [lia|auto]. }
        specialize (N3 eq_refl eq_refl).
        (* the environment now satisfies its assumptions *)
        destruct (Hway x1 (S n) A1) as [Ey [Sy Ly]]. set (y := way x1 (S n)) in *.
        assert (Ay : forall k, att y k) by (intros k i _; apply Sy).
        destruct (constructive_indefinite_ground_description_nat
          (fun k => S n <= k /\ trans a (pi y k) (pi y (S k)) = true)) as (nA & HnA & HtA).
        { intros k. destruct (le_dec (S n) k); [|right; tauto].
          destruct (trans a (pi y k) (pi y (S k))); [left; auto|right; intros [_ H]; discriminate]. }
        { apply (Ly (trans a)). now apply in_map. }
        assert (Ey0 : forall i, i <= S n -> pi y i = pi x1 i).
        { intros i Hi. apply play_from_ext. intros m' Hm'. apply Ey. lia. }
        assert (Walk : forall d k, k + d = nA -> S n <= k -> pos (muC c live a X) (pi y k) = false -> noGoal y n k ->
          { xn : (nat -> state) * nat | reached a x n (fst xn) (snd xn) }).
        { induction d as [|d IHd]; intros k Ek Lk HC HG.
          - rewrite Nat.add_0_r in Ek. subst k.
            assert (HF : trans (foundC c live a X) (pi y nA) (pi y (S nA)) = false).
            { destruct (trans (foundC c live a X) (pi y nA) (pi y (S nA))) eqn:E; auto. rewrite <- HC. symmetry.
              destruct (muC_spec c Hwf live a X Alive Aa PX) as (PM & EM & _). rewrite <- EM.
              apply (stepC_spec c Hwf); auto. exists (pi y (S nA)). exact E. }
            destruct (not_found a X y nA Ha PX (Ay _) HF) as (M1 & M2 & _).
            exists (y, S nA). cbn [fst snd]. split; [lia|]. split; [auto|]. split; [|split; [auto|split]].
            + intros i Hi. unfold y. rewrite Ey by lia. auto.
            + intros i Hi. destruct (Nat.eq_dec i nA) as [->|]; auto. apply HG. lia.
            + exists nA. split; [lia|auto].
          - assert (HF : trans (foundC c live a X) (pi y k) (pi y (S k)) = false).
            { destruct (trans (foundC c live a X) (pi y k) (pi y (S k))) eqn:E; auto. rewrite <- HC. symmetry.
              destruct (muC_spec c Hwf live a X Alive Aa PX) as (PM & EM & _). rewrite <- EM.
              apply (stepC_spec c Hwf); auto. exists (pi y (S k)). exact E. }
            destruct (not_found a X y k Ha PX (Ay _) HF) as (M1 & M2 & M3).
            destruct (trans a (pi y k) (pi y (S k))) eqn:EA'.
            { exists (y, S k). cbn [fst snd]. split; [lia|]. split; [auto|]. split; [|split; [auto|split]].
              - intros i Hi. unfold y. rewrite Ey by lia. auto.
              - intros i Hi. destruct (Nat.eq_dec i k) as [->|]; auto. apply HG. lia.
              - exists k. split; [lia|auto]. }
            destruct (pos X (pi y (S k))) eqn:EX'.
            + apply (IHd (S k)); [lia|lia|now apply M3|]. intros i Hi. destruct (Nat.eq_dec i k) as [->|]; auto. apply HG. lia.
            + destruct (IH y (S k) (Ay _) EX') as ([x' n'] & R1 & R2 & R3 & R4 & R5 & R6). cbn [fst snd] in *.
              exists (x', n'). cbn [fst snd]. split; [lia|]. split; [auto|]. split; [|split; [auto|split]].
              * intros i Hi. rewrite R3 by lia. unfold y. rewrite Ey by lia. auto.
              * intros i Hi. destruct (le_lt_dec (S k) i) as [L|L]; [apply R5; lia|].
                rewrite (play_from_ext g f s0 x' y i), (play_from_ext g f s0 x' y (S i)) by (intros; apply R3; lia).
                destruct (Nat.eq_dec i k) as [->|]; auto. apply HG. lia.
              * destruct R6 as (i & Hi & R6). exists i. split; [lia|auto]. }
        apply (Walk (nA - S n) (S n)); [lia|lia| |].
        - rewrite Ey0 by lia. exact N3.
        - intros i Hi. replace i with n by lia. rewrite !Ey0 by lia. exact N1.
      Qed.

      (** The infinite play. *)
      Definition conf : Type := { xn : (nat -> state) * nat | att (fst xn) (snd xn) /\ pos Y (pi (fst xn) (snd xn)) = false }.

      Lemma outside a x n : In a (livenessAssumptions c) -> pos Y (pi x n) = false ->
        { m | pos (iterXC c live a m) (pi x n) = false }.
      Proof.
        intros Ha HY. pose proof (any_asm c Hwf a Ha) as Aa.
        apply constructive_indefinite_ground_description_nat.
        { intros m. destruct (pos (iterXC c live a m) (pi x n)); [right; discriminate|left; auto]. }
        destruct (nuXC_props c Hwf live a Alive Aa) as (_ & K & E). exists K. rewrite <- E.
        destruct (pos (nuXC c live a) (pi x n)) eqn:EX; auto. rewrite <- HY. symmetry.
        rewrite <- (muYC_fix c Hwf z gl Hz Agl). apply stepYC_spec. right. exists a. auto.
      Qed.

      Definition asmAt (k : nat) : BF := nth (k mod length (livenessAssumptions c)) (livenessAssumptions c) btrue.
      Lemma asmAt_in k : In (asmAt k) (livenessAssumptions c).
      Proof.
        apply nth_In. apply Nat.mod_upper_bound. intros E. apply length_zero_iff_nil in E. now apply (wf_asm_ne c Hwf).
      Qed.

      Lemma nextConf (k : nat) (cf : conf) :
        { cf' : conf | reached (asmAt k) (fst (proj1_sig cf)) (snd (proj1_sig cf)) (fst (proj1_sig cf')) (snd (proj1_sig cf')) }.
      Proof.
        destruct cf as [[x n] [Hx HY]]. cbn [fst snd proj1_sig] in *.
        destruct (outside (asmAt k) x n (asmAt_in k) HY) as (m & Hm).
        destruct (macro (asmAt k) m (asmAt_in k) x n Hx Hm) as ([x' n'] & R). cbn [fst snd] in R.
        assert (Q : att x' n' /\ pos Y (pi x' n') = false).
        { destruct R as (_ & R2 & _ & R4 & _). auto. }
        exists (exist _ (x', n') Q). exact R.
      Qed.

      Fixpoint confs (c0 : conf) (k : nat) : conf :=
        match k with O => c0 | S k => proj1_sig (nextConf k (confs c0 k)) end.

      Lemma no_escape x0 n0 : att x0 n0 -> pos Y (pi x0 n0) = false -> False.
      Proof.
        intros Hx0 HY0.
        set (c0 := exist (fun xn : (nat -> state) * nat => att (fst xn) (snd xn) /\ pos Y (pi (fst xn) (snd xn)) = false)
                     (x0, n0) (conj Hx0 HY0) : conf).
        set (xs := fun k => fst (proj1_sig (confs c0 k))). set (ns := fun k => snd (proj1_sig (confs c0 k))).
        assert (R : forall k, reached (asmAt k) (xs k) (ns k) (xs (S k)) (ns (S k))).
        { intros k. unfold xs, ns. cbn [confs]. apply (proj2_sig (nextConf k (confs c0 k))). }
        assert (Hn : forall k, ns k < ns (S k)) by (intros k; apply (R k)).
        assert (Hge : forall k, k <= ns k).
        { induction k as [|k IH]; [lia|]. specialize (Hn k). lia. }
        assert (Hle : forall k k', k <= k' -> ns k <= ns k').
        { intros k k' L. induction L as [|k' L IH]; auto. specialize (Hn k'). lia. }
        assert (Hx : forall k k', k <= k' -> forall i, i <= ns k -> xs k' i = xs k i).
        { intros k k' L. induction L as [|k' L IH]; auto. intros i Hi.
          destruct (R k') as (_ & _ & E & _). rewrite E; auto. specialize (Hle k k' L). lia. }
        set (lim := fun i => xs i i).
        assert (Hlim : forall k i, i <= ns k -> lim i = xs k i).
        { intros k i Hi. unfold lim. destruct (Nat.le_ge_cases k i) as [L|L].
          - now apply Hx.
          - symmetry. apply Hx; auto. }
        assert (Hpi : forall k i, i <= ns k -> pi lim i = pi (xs k) i).
        { intros k i Hi. apply play_from_ext. intros m Hm. apply Hlim. lia. }
        assert (Hsafe : forall m, g_safeE g (pi lim m) (pi lim (S m)) = true).
        { intros m. destruct (R m) as (_ & A & _). pose proof (Hge (S m)).
          rewrite (Hpi (S m) m), (Hpi (S m) (S m)) by lia. apply A. lia. }
        assert (HlA : forall p, In p (g_liveA g) -> inf_often p (pi lim)).
        { intros p Hp n. cbn in Hp. apply in_map_iff in Hp. destruct Hp as (a & <- & Ha).
          destruct (In_nth _ _ btrue Ha) as (j & Hj & Ej). set (l := length (livenessAssumptions c)) in *.
          assert (Ek : asmAt (j + n * l) = a).
          { unfold asmAt. fold l. rewrite Nat.mod_add by lia. rewrite Nat.mod_small by auto. exact Ej. }
          destruct (R (j + n * l)) as (_ & _ & _ & _ & _ & i & Hi & Ht). rewrite Ek in Ht.
          exists i. split.
          - pose proof (Hge (j + n * l)). nia.
          - rewrite (Hpi (S (j + n * l)) i), (Hpi (S (j + n * l)) (S i)) by lia. exact Ht. }
        assert (HnG : forall k, noGoal (xs k) n0 (ns k)).
        { induction k as [|k IH]; intros i Hi.
          - cbn in Hi. lia.
          - destruct (R k) as (_ & _ & E & _ & NG & _). destruct (le_lt_dec (ns k) i) as [L|L].
            + apply NG. lia.
            + rewrite (play_from_ext g f s0 (xs (S k)) (xs k) i), (play_from_ext g f s0 (xs (S k)) (xs k) (S i))
                by (intros; apply E; lia). apply IH. lia. }
        destruct (proj2 (Hwin lim) Hsafe HlA (trans gl) (in_map trans _ _ Hgl) n0) as (i & Hi & Ht).
        pose proof (Hge (S i)). rewrite (Hpi (S i) i), (Hpi (S i) (S i)) in Ht by lia.
        rewrite (HnG (S i)) in Ht; [discriminate|lia].
      Qed.

      Lemma round_goal x n : att x n -> pos Y (pi x n) = true.
      Proof. intros Hx. destruct (pos Y (pi x n)) eqn:E; auto. elim (no_escape x n Hx E). Qed.
    End GOAL.

    Lemma round x n : att x n -> pos (stepZC c z) (pi x n) = true.
    Proof.
      intros Hx. unfold stepZC. revert x n Hx. apply round_nextA.
      - apply incl_refl.
      - apply (pre_goalsC c Hwf); auto; [apply (wf_gua c Hwf)|apply dep_true].
      - intros x n Hx. apply goalsC_spec. split; auto. intros g' Hg'. now apply round_goal.
    Qed.
  End ROUND.

  Lemma all_rounds K : forall x n, att x n -> pos (iterZC c K) (pi x n) = true.
  Proof.
    induction K as [|K IH]; intros x n Hx; auto.
    apply (round (iterZC c K)); auto. apply (pre_iterZC c Hwf).
  Qed.
End COMPLETE.

Lemma coop_complete c K s : wf c -> coop_winning (game_of c) s -> pos (iterZC c K) s = true.
Proof.
  intros Hwf (f & Hf & way & Hw).
  apply (all_rounds c Hwf f s Hf way (fun x n H => Hw x n I H) K (fun _ => s) 0). intros m Hm. lia.
Qed.
