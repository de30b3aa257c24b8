(** * Properties of cooperative strategies (C38) *)

From Coq Require Import String Arith List Bool Lia.
From Verif Require Import BDD Loop Spec CoopSpec VarTypes Synth Sem FixBase GameSound SynthProofs Verdict PropsSynth AutSpec
  Explicit ExplicitProofs ExplicitGame Coop CoopProofs CoopComplete CoopGame.
Import ListNotations.
Open Scope string_scope.

Local Arguments isOut : simpl never.

(** The automaton that is printed: options --cooperativeGR1Strategy and
    --explicitStrategy with --sysInitRoboticsSemantics ([robotics]) and
    --simpleRecovery ([recovery]). *)
Definition automatonCoop (robotics recovery : bool) (c : ctx) : option (list node) :=
  match computeExplicitCoop robotics recovery c with
  | Some (Realizable, out) => Some (map fst out)
  | _ => None
  end.

(** ** What a run consists of *)
Lemma coop_exact c : wf c -> exists w data gs,
  computeCoop c = Some (w, data, gs) /\ solvedC c w data gs /\ dep (isPreV c) w /\
  (exists (f : (state -> state) -> strategy) (way : (state -> state) -> state -> (nat -> state) -> nat -> nat -> state),
     (forall start x, f start [] x = start x) /\
     forall start s, pos w s = true ->
       (forall x, safe_and_live (game_of c) (play_from (game_of c) (f start) s x)) /\
       (forall x n, safe_until (game_of c) (play_from (game_of c) (f start) s x) n ->
          (forall m, m <= n -> way start s x n m = x m) /\
          env_satisfied (game_of c) (play_from (game_of c) (f start) s (way start s x n)))) /\
  (forall s, coop_winning (game_of c) s -> pos w s = true).
Proof.
  intros Hwf. destruct (computeCoop_spec c Hwf) as (w & data & gs & E & HS). exists w, data, gs.
  split; auto. split; auto. split; [eapply solvedC_pre; eauto|].
  destruct (served_choice c Hwf w data gs HS) as (L & Ps & HLP). split.
  - exists (stratC c data gs). exists (fun start s => react (game_of c) (stratC c data gs start) (helpC c gs Ps) s).
    split; [reflexivity|]. intros start s Hs. split.
    + now apply (stratC_wins c Hwf w data gs HS L Ps HLP).
    + intros x n Hn. now apply (stratC_way c Hwf w data gs HS L Ps HLP).
  - intros s Hs. destruct (sc_iter c w data gs HS) as (K & ->). now apply (coop_complete c).
Qed.

Lemma initialCheck_cases c w : wf c -> dep (isPreV c) w ->
  (verdictOf (initialCheck c w) = Realizable /\
   exists start : state -> state, forall x, pos (initEnv c) (mrg c x (start x)) = true ->
     pos w (mrg c x (start x)) = true /\ pos (initSys c) (mrg c x (start x)) = true) \/
  (verdictOf (initialCheck c w) = Unrealizable /\
   exists x, forall y, pos (initEnv c) (mrg c x y) = true /\
     (pos w (mrg c x y) = true -> pos (initSys c) (mrg c x y) = true -> False)).
Proof.
  intros Hwf Pw. pose proof (wf_kinds c Hwf) as Hk. set (q := band w (initSys c)).
  assert (Pq : dep (isPreV c) q) by (apply dep_and; auto; apply wf_initSys; auto).
  set (g := bimp (initEnv c) (bexists (varCubePreOutput c) q)).
  assert (Dg : dep (isPreInV c) g).
  { apply dep_imp; [now apply wf_initEnv|now apply dep_exPreOut]. }
  destruct (const_cases c Hwf (initialCheck c w) g Dg eq_refl) as [[E H]|[E (s & H)]]; [left|right]; split; auto.
  - exists (fun x => match find (fun l => pos q (mrg c x (ofVec l))) (vectors (nvars c)) with
                     | Some l => ofVec l | None => x end).
    intros x Hx. set (y0 := match find _ _ with Some l => ofVec l | None => x end) in *.
    assert (Q : pos q (mrg c x y0) = true).
    { specialize (H (mrg c x x)). unfold g in H. rewrite pos_imp in H.
      rewrite (preIn_merge c (initEnv c) x x y0), Hx in H by now apply wf_initEnv.
      cbn [implb] in H. apply exPreOut_pos in H; auto. destruct H as (y & Hy).
      unfold y0. destruct (find _ _) as [l|] eqn:F.
      - now apply find_some in F.
      - exfalso. pose proof (find_none _ _ F _ (toVec_in (nvars c) y)) as N.
        cbv beta in N. rewrite <- not_true_iff_false in N. apply N. rewrite <- Hy.
        apply (pos_ext c Hk); auto. intros k Hlt. unfold mrg. destruct (isOut c k); auto. now apply ofVec_toVec. }
    unfold q in Q. rewrite pos_and, andb_true_iff in Q. exact Q.
  - exists s. unfold g in H. rewrite pos_imp in H.
    destruct (pos (initEnv c) s) eqn:E1; [|discriminate]. cbn [implb] in H. intros y. split.
    + rewrite <- E1, (preIn_merge c (initEnv c) s y s) by now apply wf_initEnv.
      apply (pos_ext c Hk); [apply preIn_pre; now apply wf_initEnv|]. intros k _. apply mrg_id.
    + intros H1 H2. assert (pos (bexists (varCubePreOutput c) q) s = true); [|congruence].
      apply exPreOut_pos; auto. exists y. unfold q. now rewrite pos_and, H1, H2.
Qed.

Lemma initialCheckRobotics_cases c w : wf c -> dep (isPreV c) w ->
  (verdictOf (initialCheckRobotics c w) = Realizable /\
   forall s, pos (initEnv c) s = true -> pos (initSys c) s = true -> pos w s = true) \/
  (verdictOf (initialCheckRobotics c w) = Unrealizable /\
   exists s, pos (initEnv c) s = true /\ pos (initSys c) s = true /\ pos w s = false).
Proof.
  intros Hwf Pw. pose proof (wf_kinds c Hwf) as Hk. set (q := bimp (band (initEnv c) (initSys c)) w).
  assert (Pq : dep (isPreV c) q).
  { apply dep_imp; auto. apply dep_and; [apply preIn_pre; now apply wf_initEnv|now apply wf_initSys]. }
  destruct (const_cases c Hwf (initialCheckRobotics c w) _ (dep_faPreOut c Hwf q Pq) eq_refl) as [[E H]|[E (s & H)]]; [left|right]; split; auto.
  - intros s Hi Hs. specialize (H s). rewrite faPreOut_pos in H by auto. specialize (H s).
    assert (M : pos q (mrg c s s) = pos q s) by (apply (pos_ext c Hk); auto; intros k _; apply mrg_id).
    rewrite M in H. unfold q in H. rewrite pos_imp, pos_and, Hi, Hs in H. exact H.
  - destruct (find_pos c Hwf q Pq) as [A|(t & Ht)].
    + assert (pos (bforall (varCubePreOutput c) q) s = true); [|congruence]. apply faPreOut_pos; auto.
    + exists t. unfold q in Ht. rewrite pos_imp, pos_and in Ht.
      destruct (pos (initEnv c) t), (pos (initSys c) t), (pos w t); try discriminate; auto.
Qed.

(** ** The verdict *)

(** The computation ends. *)
Theorem C38_terminates : forall (robotics recovery : bool) c, wf c ->
  (verdictCoop robotics c = Realizable \/ verdictCoop robotics c = Unrealizable) /\
  (verdictCoop robotics c = Realizable -> exists A, automatonCoop robotics recovery c = Some A) /\
  (verdictCoop robotics c = Unrealizable -> computeExplicitCoop robotics recovery c = Some (Unrealizable, [])).
Proof.
  intros robotics recovery c Hwf. destruct (coop_exact c Hwf) as (w & data & gs & E & HS & Pw & _).
  unfold verdictCoop, automatonCoop, computeExplicitCoop. rewrite E.
  pose proof (wf_c' c Hwf w data gs HS) as Hwf'.
  assert (HD : Forall (fun e => fst e < length (livenessGuarantees (withGuarantees c gs)) -> dep (isAnyV c) (snd e)) data).
  { destruct (served_choice c Hwf w data gs HS) as (L & Ps & HLP). apply Forall_forall. intros [j F] Hin Hj. cbn [fst snd] in *.
    pose proof (sv_any _ _ _ _ _ _ _ (HLP j Hj)) as H. rewrite Forall_forall in H. apply H. unfold dataOf.
    apply in_map_iff. exists (j, F). split; auto. apply filter_In. split; auto. cbn. apply Nat.eqb_refl. }
  destruct (extract_spec (withGuarantees c gs) recovery w data Hwf' Pw HD) as (keys & out & E1 & R). rewrite E1.
  split; [|split].
  - destruct robotics.
    + destruct (initialCheckRobotics_cases c w Hwf Pw) as [[-> _]|[-> _]]; auto.
    + destruct (initialCheck_cases c w Hwf Pw) as [[-> _]|[-> _]]; auto.
  - intros ->. eauto.
  - intros ->. reflexivity.
Qed.
Print Assumptions C38_terminates.

(** The set that is computed consists of the positions from which some winning
    strategy is cooperative. *)
Theorem C38_winning_exact : forall c, wf c -> exists w data gs, computeCoop c = Some (w, data, gs) /\
  forall s, pos w s = true <-> coop_winning (game_of c) s.
Proof.
  intros c Hwf. destruct (coop_exact c Hwf) as (w & data & gs & E & HS & Pw & (f & way & Hf0 & Hf) & HC).
  exists w, data, gs. split; auto. intros s. split; auto. intros Hs.
  destruct (Hf (fun x => x) s Hs) as [H1 H2]. exists (f (fun x => x)). split; auto.
  exists (way (fun x => x) s). intros x n _ Hn. now apply H2.
Qed.
Print Assumptions C38_winning_exact.

Lemma play_play_from g f x n : play g f x n = play_from g f (merge g (x 0) (f [] (x 0))) x n.
Proof. unfold play, play_from. now rewrite play_history_from. Qed.

(** The verdict is "realizable" if and only if some strategy satisfies the
    specification and always leaves the environment a way to satisfy its assumptions. *)
Theorem C38_realizable_iff : forall c, wf c ->
  (verdictCoop false c = Realizable <-> coop_realizable (game_of c)) /\
  (verdictCoop false c = Unrealizable <-> ~ coop_realizable (game_of c)).
Proof.
  intros c Hwf. destruct (coop_exact c Hwf) as (w & data & gs & E & HS & Pw & (f & way & Hf0 & Hf) & HC).
  assert (G : (verdictCoop false c = Realizable /\ coop_realizable (game_of c)) \/
              (verdictCoop false c = Unrealizable /\ ~ coop_realizable (game_of c))).
  { unfold verdictCoop. rewrite E.
    destruct (initialCheck_cases c w Hwf Pw) as [[-> (start & H)]|[-> (a & H)]]; [left|right]; split; auto.
    - exists (f start). split.
      + intros x Hi. rewrite play_play_from, Hf0 in Hi. cbn [play_from history_from hd] in Hi.
        destruct (H (x 0) Hi) as [H1 H2]. destruct (Hf start _ H1) as [H3 _]. split.
        * rewrite play_play_from, Hf0. exact H2.
        * apply (safe_and_live_ext _ _ (play_from (game_of c) (f start) (mrg c (x 0) (start (x 0))) x)); auto.
          intros n. rewrite play_play_from, Hf0. reflexivity.
      + exists (fun x => way start (mrg c (x 0) (start (x 0))) x). intros x n Hi Hn.
        rewrite play_play_from, Hf0 in Hi. cbn [play_from history_from hd] in Hi.
        destruct (H (x 0) Hi) as [H1 _]. destruct (Hf start _ H1) as [_ H3].
        destruct (H3 x n) as [H4 H5].
        * intros m Hm. specialize (Hn m Hm). rewrite !play_play_from, Hf0 in Hn. exact Hn.
        * split; auto. set (x' := way start _ x n) in *.
          assert (P : forall m, play (game_of c) (f start) x' m = play_from (game_of c) (f start) (mrg c (x 0) (start (x 0))) x' m).
          { intros m. rewrite play_play_from, Hf0, (H4 0) by lia. reflexivity. }
          destruct H5 as [H5 H6]. split.
          -- intros m. rewrite !P. apply H5.
          -- intros p Hp m. destruct (H6 p Hp m) as (i & Hi1 & Hi2). exists i. now rewrite !P.
    - intros (f' & HO & (way' & HW)). set (s0 := mrg c a (f' [] a)). destruct (H (f' [] a)) as [H1 H2]. fold s0 in H1, H2.
      set (put := fun (x : nat -> state) m => match m with O => a | S _ => x m end).
      assert (P : forall x n, play (game_of c) f' (put x) n = play_from (game_of c) f' s0 x n).
      { intros x n. rewrite play_play_from. cbn [put]. unfold play_from. f_equal.
        change (merge (game_of c) a (f' [] a)) with s0.
        induction n as [|n IH]; cbn [history_from]; auto. now rewrite IH. }
      assert (P' : forall x n, x 0 = a -> play (game_of c) f' x n = play_from (game_of c) f' s0 x n).
      { intros x n Ex. rewrite play_play_from, Ex. reflexivity. }
      assert (I : forall x, g_initE (game_of c) (play (game_of c) f' (put x) 0) = true) by (intros x; exact H1).
      apply H2.
      + apply HC. exists f'. split.
        * intros x. destruct (HO (put x) (I x)) as [_ H3]. revert H3. apply safe_and_live_ext. intros n. now rewrite P.
        * exists (fun x n m => match m with O => x 0 | S _ => way' (put x) n m end). intros x n _ Hn.
          destruct (HW (put x) n (I x)) as [W1 [W2 W3]].
          { intros m Hm. rewrite !P. now apply Hn. }
          split; [intros [|m] Hm; auto; now rewrite W1|].
          assert (W0 : way' (put x) n 0 = a) by (rewrite W1 by lia; reflexivity).
          assert (Q : forall m, play_from (game_of c) f' s0 (fun m => match m with O => x 0 | S _ => way' (put x) n m end) m =
                      play (game_of c) f' (way' (put x) n) m).
          { intros m. rewrite P' by auto. unfold play_from. f_equal. induction m as [|m IH]; cbn [history_from]; auto. now rewrite IH. }
          split.
          -- intros m. rewrite !Q. apply W2.
          -- intros p Hp m. destruct (W3 p Hp m) as (i & Hi1 & Hi2). exists i. now rewrite !Q.
      + destruct (HO (put (fun _ => a)) (I _)) as [H3 _]. exact H3. }
  destruct G as [[-> G]|[-> G]]; split; split; auto; try discriminate; try tauto.
Qed.
Print Assumptions C38_realizable_iff.

(** The same in the robotics semantics: there, all initial positions must be
    positions from which some winning strategy is cooperative. *)
Theorem C38_robotics_iff : forall c, wf c ->
  (verdictCoop true c = Realizable <-> coop_realizable_robotics (game_of c)) /\
  (verdictCoop true c = Unrealizable <-> exists s, g_initE (game_of c) s = true /\ g_initS (game_of c) s = true /\
     ~ coop_winning (game_of c) s).
Proof.
  intros c Hwf. destruct (coop_exact c Hwf) as (w & data & gs & E & HS & Pw & (f & way & Hf0 & Hf) & HC).
  assert (W : forall s, pos w s = true -> coop_winning (game_of c) s).
  { intros s Hs. destruct (Hf (fun x => x) s Hs) as [H1 H2]. exists (f (fun x => x)). split; auto.
    exists (way (fun x => x) s). intros x n _ Hn. now apply H2. }
  unfold verdictCoop. rewrite E.
  destruct (initialCheckRobotics_cases c w Hwf Pw) as [[-> H]|[-> (s & H1 & H2 & H3)]]; split; split; auto; try discriminate.
  - intros _. exists (f (fun x => x)). intros s Hi Hs. destruct (Hf (fun x => x) s (H s Hi Hs)) as [A1 A2]. split; auto.
    exists (way (fun x => x) s). intros x n _ Hn. now apply A2.
  - intros (s & Hi & Hs & N). elim N. apply W. now apply H.
  - intros (f' & HF). exfalso. destruct (HF s H1 H2) as [A1 A2].
    assert (pos w s = true) by (apply HC; exists f'; auto). congruence.
  - intros _. exists s. split; auto. split; auto. intros N. apply HC in N. congruence.
Qed.
Print Assumptions C38_robotics_iff.

(** So "realizable" implies that the specification is realizable. *)
Theorem C38_sound : forall c, wf c ->
  (verdictCoop false c = Realizable -> checkRealizability c = Realizable) /\
  (verdictCoop true c = Realizable -> checkRealizabilityRobotics c = Realizable).
Proof.
  intros c Hwf. split; intros V.
  - apply (C38_realizable_iff c Hwf) in V. destruct V as (f & Hf & _).
    destruct (check_cases c Hwf) as [[-> _]|[_ N]]; auto. destruct (N f) as (x & Hx). now elim Hx.
  - apply (C38_robotics_iff c Hwf) in V. destruct V as (f & Hf).
    destruct (check_robotics_cases c Hwf) as [[-> _]|[_ (s & H1 & H2 & N)]]; auto.
    destruct (N f) as (x & Hx). elim Hx. now apply Hf.
Qed.
Print Assumptions C38_sound.

(** ** When cooperation makes no difference *)

(** The positions if the environment chooses the inputs by [e] from the positions so
    far, and the outputs are those of [y]. *)
Fixpoint env_history (g : game) (e : list state -> state) (s : state) (y : nat -> state) (n : nat) : list state :=
  match n with
  | O => [s]
  | S m => let h := env_history g e s y m in merge g (e h) (y n) :: h
  end.
(** From every position, the environment can satisfy all of its assumptions, whatever
    the system does. *)
Definition env_capable (g : game) : Prop :=
  exists e : list state -> state, forall s y,
    env_satisfied g (fun n => hd (fun _ => false) (env_history g e s y n)).

Lemma capable_way g f s : env_capable g -> exists way : (nat -> state) -> nat -> nat -> state,
  forall x n, safe_until g (play_from g f s x) n ->
    (forall m, m <= n -> way x n m = x m) /\ env_satisfied g (play_from g f s (way x n)).
Proof.
  intros (e & He).
  set (en := fun (n : nat) (h : list state) => e (firstn (length h - n) h)).
  exists (fun x n => react g f (en n) s x n). intros x n Hn. split; [intros; now apply react_before|].
  set (x' := react g f (en n) s x n).
  assert (Hlen : forall i, length (history_from g f s x' i) = S i) by (induction i as [|i IH]; cbn; auto).
  set (s1 := play_from g f s x' n).
  set (y := fun i => f (history_from g f s x' (n + pred i)) (x' (n + i))).
  assert (EH : forall i, firstn (S i) (history_from g f s x' (n + i)) = env_history g e s1 y i).
  { induction i as [|i IH].
    - rewrite Nat.add_0_r. destruct (history_from_hd g f s x' n) as (h & Eh). rewrite Eh. reflexivity.
    - rewrite Nat.add_succ_r. cbn [history_from]. rewrite firstn_cons, IH. cbn [env_history]. f_equal.
      unfold y. cbn [pred]. rewrite Nat.add_succ_r. f_equal.
      unfold x'. rewrite react_after by lia. fold x'. unfold en. rewrite Hlen. replace (S (n + i) - n) with (S i) by lia. now rewrite IH. }
  assert (EP : forall i, play_from g f s x' (n + i) = hd (fun _ => false) (env_history g e s1 y i)).
  { intros i. rewrite <- EH. unfold play_from. destruct (history_from_hd g f s x' (n + i)) as (h & Eh). now rewrite Eh. }
  destruct (He s1 y) as [H1 H2]. split.
  - intros m. destruct (Nat.lt_ge_cases m n) as [Hlt|Hge].
    + rewrite (play_from_ext g f s x' x m), (play_from_ext g f s x' x (S m)); [now apply Hn| |]; intros; apply react_before; lia.
    + replace m with (n + (m - n)) by lia. rewrite <- Nat.add_succ_r, !EP. apply H1.
  - intros p Hp m. destruct (H2 p Hp m) as (i & Hi & Hx). exists (n + i). split; [lia|].
    rewrite <- Nat.add_succ_r, !EP. exact Hx.
Qed.

(** If the environment can always satisfy its assumptions, the verdicts are those of
    the standard synthesis algorithm. *)
Theorem C38_agrees : forall c, wf c -> env_capable (game_of c) ->
  verdictCoop false c = checkRealizability c /\ verdictCoop true c = checkRealizabilityRobotics c /\
  forall s, coop_winning (game_of c) s <-> winning (game_of c) s.
Proof.
  intros c Hwf HE.
  assert (W : forall s, coop_winning (game_of c) s <-> winning (game_of c) s).
  { intros s. split; [intros (f & Hf & _); now exists f|]. intros (f & Hf). exists f. split; auto.
    destruct (capable_way (game_of c) f s HE) as (way & H). exists way. intros x n _ Hn. now apply H. }
  split; [|split; auto].
  - destruct (C38_terminates false false c Hwf) as [[V|V] _]; [rewrite V; symmetry; now apply (C38_sound c Hwf)|].
    rewrite V. symmetry. destruct (check_cases c Hwf) as [[R (f & Hf)]|[R _]]; auto. exfalso.
    destruct (coop_exact c Hwf) as (w & data & gs & E & HS & Pw & _ & HC).
    unfold verdictCoop in V. rewrite E in V. destruct (initialCheck_cases c w Hwf Pw) as [[V' _]|[_ (a & H)]]; [congruence|].
    destruct (H (f [] a)) as [H1 H2]. set (s0 := mrg c a (f [] a)) in *.
    set (put := fun (x : nat -> state) m => match m with O => a | S _ => x m end).
    assert (O : forall x, objective (game_of c) (play (game_of c) f (put x))) by auto.
    apply H2.
    + apply HC, W. exists f. intros x. destruct (O x H1) as [_ H3]. revert H3. apply safe_and_live_ext. intros n.
      rewrite play_play_from. cbn [put]. unfold play_from. f_equal. change (merge (game_of c) a (f [] a)) with s0.
      clear. induction n as [|n IH]; cbn [history_from]; auto. now rewrite IH.
    + destruct (O (fun _ => a) H1) as [H3 _]. exact H3.
  - destruct (C38_terminates true false c Hwf) as [[V|V] _]; [rewrite V; symmetry; now apply (C38_sound c Hwf)|].
    rewrite V. symmetry. apply (C38_robotics_iff c Hwf) in V. destruct V as (s & H1 & H2 & N).
    destruct (check_robotics_cases c Hwf) as [[R (f & Hf)]|[R _]]; auto. elim N. apply W. exists f. intros x. now apply Hf.
Qed.
Print Assumptions C38_agrees.

(** In general they differ: the system can prevent that the liveness assumption is
    satisfied, so the specification is realizable, but not by a cooperative strategy. *)
Definition exPrevent : ctx := mkCtx exNames exTypes
  [bvar 2] [bfalse] btrue btrue btrue btrue.
Theorem C38_same_verdict_refuted : exists c, wf c /\ checkRealizability c = Realizable /\ verdictCoop false c = Unrealizable.
Proof.
  exists exPrevent. split; [|split; vm_compute; reflexivity].
  constructor; cbn [varTypes livenessAssumptions livenessGuarantees initEnv initSys safetyEnv safetySys exPrevent];
    [exists [PreInput; PreOutput]; split; reflexivity|dep_ex|dep_ex|dep_ex|dep_ex|repeat constructor; dep_ex|repeat constructor; dep_ex
    |discriminate|discriminate].
Qed.
Print Assumptions C38_same_verdict_refuted.

(** ** The automaton *)
Lemma automatonCoop_cases robotics recovery c A : wf c -> automatonCoop robotics recovery c = Some A ->
  exists w data gs L Ps keys out, solvedC c w data gs /\ dep (isPreV c) w /\
    (forall s, pos w s = true <-> coop_winning (game_of c) s) /\
    (forall j, j < length gs -> served c w data gs j (L j) (Ps j)) /\
    result (withGuarantees c gs) false recovery (positional (withGuarantees c gs) data)
      (extractInit recovery (withGuarantees c gs) w) keys out /\ A = map fst out /\
    verdictOf (if robotics then initialCheckRobotics c w else initialCheck c w) = Realizable.
Proof.
  intros Hwf. unfold automatonCoop, computeExplicitCoop.
  destruct (C38_winning_exact c Hwf) as (w0 & data0 & gs0 & E0 & HC).
  destruct (coop_exact c Hwf) as (w & data & gs & E & HS & Pw & _). rewrite E in E0. injection E0 as <- <- <-. rewrite E.
  pose proof (wf_c' c Hwf w data gs HS) as Hwf'. destruct (served_choice c Hwf w data gs HS) as (L & Ps & HLP).
  assert (HD : Forall (fun e => fst e < length (livenessGuarantees (withGuarantees c gs)) -> dep (isAnyV c) (snd e)) data).
  { apply Forall_forall. intros [j F] Hin Hj. cbn [fst snd] in *.
    pose proof (sv_any _ _ _ _ _ _ _ (HLP j Hj)) as H. rewrite Forall_forall in H. apply H. unfold dataOf.
    apply in_map_iff. exists (j, F). split; auto. apply filter_In. split; auto. cbn. apply Nat.eqb_refl. }
  destruct (extract_spec (withGuarantees c gs) recovery w data Hwf' Pw HD) as (keys & out & E1 & R). rewrite E1.
  destruct (verdictOf _) eqn:V; try discriminate. intros H. injection H as <-.
  exists w, data, gs, L, Ps, keys, out. auto 10.
Qed.

(** States are numbered from 0 in the order in which they are printed, are pairwise
    different, have one value for each variable, and their successors are printed.
    The goals are the liveness guarantees followed by the liveness assumptions. *)
Theorem C38_numbering : forall robotics recovery c A, wf c -> automatonCoop robotics recovery c = Some A ->
  map n_num A = seq 0 (length A) /\
  (forall v u, In v A -> In u A -> n_vals v = n_vals u -> n_rank v = n_rank u -> v = u) /\
  (forall v, In v A -> length (n_vals v) = nvars c /\
     n_rank v < length (g_liveG (game_of c)) + length (g_liveA (game_of c)) /\
     NoDup (n_succ v) /\ forall n, In n (n_succ v) -> n < length A).
Proof.
  intros robotics recovery c A Hwf H.
  destruct (automatonCoop_cases _ _ _ _ Hwf H) as (w & d & gs & L & Ps & keys & out & HS & Pw & HC & HLP & R & -> & V).
  pose proof (wf_c' c Hwf w d gs HS) as Hwf'.
  pose proof (A_numbers _ Hwf' _ _ _ _ _ _ R) as HN. split; auto. split; [apply (A_distinct _ _ _ _ _ _ _ R)|].
  intros v Hv. destruct (nodeC_rank c w d gs _ _ _ R v Hv) as [S1 S2]. split; auto.
  split; [cbn; rewrite !map_length, <- (sc_len c w d gs HS); exact S2|]. split.
  - now apply (succ_nodup _ _ _ _ _ _ _ R).
  - intros n Hn. destruct (succ_printed _ _ _ _ _ _ _ R v n Hv Hn) as (u & (_ & Hu & _) & <-).
    assert (X : In (n_num u) (map n_num (map fst out))) by now apply in_map.
    rewrite HN in X. apply in_seq in X. lia.
Qed.
Print Assumptions C38_numbering.

(** Every input that ENV_INIT permits is the input of a printed state with goal number 0
    that satisfies SYS_INIT; in the robotics semantics, every initial position is printed. *)
Theorem C38_initial : forall robotics recovery c A, wf c -> automatonCoop robotics recovery c = Some A ->
  forall s, g_initE (game_of c) s = true ->
  (robotics = false -> exists v, In v A /\ n_rank v = 0 /\ same_in (game_of c) (nvars c) (val v) s /\
     g_initE (game_of c) (val v) = true /\ g_initS (game_of c) (val v) = true) /\
  (robotics = true -> g_initS (game_of c) s = true -> exists v, In v A /\ n_rank v = 0 /\ same (nvars c) (val v) s).
Proof.
  intros robotics recovery c A Hwf H s Hs.
  destruct (automatonCoop_cases _ _ _ _ Hwf H) as (w & d & gs & L & Ps & keys & out & HS & Pw & HC & HLP & R & -> & V).
  pose proof (wf_kinds c Hwf) as Hk.
  assert (G : forall t, pos w t = true -> pos (initEnv c) t = true -> pos (initSys c) t = true ->
     exists v, In v (map fst out) /\ n_rank v = 0 /\ same (nvars c) (val v) t).
  { intros t T1 T2 T3.
    assert (HI : pos (extractInit recovery (withGuarantees c gs) w) t = true).
    { unfold extractInit. cbn [initEnv initSys withGuarantees]. destruct recovery; rewrite !pos_and, T1, T3; auto. }
    pose proof (r_init _ _ _ _ _ _ _ R _ HI) as HK. apply In_nth_error in HK. destruct HK as (i & HK).
    destruct (A_key _ _ _ _ _ _ _ R _ _ _ HK) as (v & _ & Hin & _ & Er & Ev).
    exists v. split; auto. split; auto. intros k Hlt. unfold val. rewrite Ev. now apply (ofVec_toVec (nvars c)). }
  split; intros ->.
  - destruct (initialCheck_cases c w Hwf Pw) as [[_ (start & X)]|[X _]]; [|congruence].
    assert (Hi : pos (initEnv c) (mrg c s (start s)) = true).
    { cbn in Hs. rewrite <- Hs, (preIn_merge c (initEnv c) s (start s) s) by now apply wf_initEnv.
      apply (pos_ext c Hk); [apply preIn_pre; now apply wf_initEnv|]. intros k _. apply mrg_id. }
    destruct (X s Hi) as [X1 X2]. destruct (G _ X1 Hi X2) as (v & G1 & G2 & G3). exists v. split; auto. split; auto. split; [|split].
    + intros k Hlt Ho. rewrite G3 by auto. unfold mrg. cbn in Ho. now rewrite Ho.
    + cbn. rewrite <- Hi. apply (pos_ext c Hk); auto. apply preIn_pre. now apply wf_initEnv.
    + cbn. rewrite <- X2. apply (pos_ext c Hk); auto. now apply wf_initSys.
  - intros Hi. destruct (initialCheckRobotics_cases c w Hwf Pw) as [[_ X]|[X _]]; [|congruence]. apply G; auto.
Qed.
Print Assumptions C38_initial.

(** Every permitted next input has exactly one successor; all edges satisfy SYS_TRANS
    and, without --simpleRecovery, ENV_TRANS. *)
Theorem C38_moves : forall robotics recovery c A, wf c -> automatonCoop robotics recovery c = Some A ->
  (forall v x, In v A -> g_safeE (game_of c) (val v) x = true ->
     exists u, edge A v u /\ same_in (game_of c) (nvars c) (val u) x /\
       forall u', edge A v u' -> same_in (game_of c) (nvars c) (val u') x -> u' = u) /\
  (forall v u, edge A v u -> g_safeS (game_of c) (val v) (val u) = true /\
     (recovery = false -> g_safeE (game_of c) (val v) (val u) = true)).
Proof.
  intros robotics recovery c A Hwf H.
  destruct (automatonCoop_cases _ _ _ _ Hwf H) as (w & d & gs & L & Ps & keys & out & HS & Pw & HC & HLP & R & -> & V).
  split.
  - intros v x Hv Hx. destruct (edgeC_total c Hwf w d gs HS L Ps HLP recovery keys out R v x Hv Hx) as (u & Eu & Su).
    exists u. split; auto. split; auto. intros u' Eu' Su'.
    apply (edgeC_unique c Hwf w d gs HS recovery keys out R v); auto.
    intros k Hlt Ho. now rewrite Su', Su.
  - intros v u E. apply (edgeC_safe c Hwf w d gs HS L Ps HLP recovery keys out R v u E).
Qed.
Print Assumptions C38_moves.

(** On every infinite path, if ENV_TRANS is violated only finitely often and all
    liveness assumptions hold infinitely often, then so do all liveness guarantees. *)
Theorem C38_liveness : forall robotics recovery c A, wf c -> automatonCoop robotics recovery c = Some A ->
  forall p, path A p ->
  (exists n0, forall n, n0 <= n -> g_safeE (game_of c) (val (p n)) (val (p (S n))) = true) ->
  (forall q, In q (g_liveA (game_of c)) -> inf_often q (positions p)) ->
  (forall q, In q (g_liveG (game_of c)) -> inf_often q (positions p)).
Proof.
  intros robotics recovery c A Hwf H p HP.
  destruct (automatonCoop_cases _ _ _ _ Hwf H) as (w & d & gs & L & Ps & keys & out & HS & Pw & HC & HLP & R & -> & V).
  now apply (pathC_live c Hwf w d gs HS L Ps HLP recovery keys out R p).
Qed.
Print Assumptions C38_liveness.

(** From every state of the automaton, and so after every finite path, some infinite
    path satisfies all assumptions, and therefore all guarantees. *)
Theorem C38_cooperative : forall robotics recovery c A, wf c -> automatonCoop robotics recovery c = Some A ->
  forall v, In v A -> exists p, path A p /\ p 0 = v /\ env_satisfied (game_of c) (positions p) /\
    (forall q, In q (g_liveG (game_of c)) -> inf_often q (positions p)).
Proof.
  intros robotics recovery c A Hwf H v Hv.
  pose proof H as H'.
  destruct (automatonCoop_cases _ _ _ _ Hwf H) as (w & d & gs & L & Ps & keys & out & HS & Pw & HC & HLP & R & -> & V).
  destruct (nodeC_path c Hwf w d gs HS L Ps HLP recovery keys out R v Hv) as (p & P1 & P2 & P3).
  exists p. split; auto. split; auto. split; auto. apply (C38_liveness _ _ _ _ Hwf H' p P1); [|apply P3].
  exists 0. intros n _. apply P3.
Qed.
Print Assumptions C38_cooperative.

(** All states are positions from which some winning strategy is cooperative, and all
    are reachable from initial ones. *)
Theorem C38_reachable : forall robotics recovery c A, wf c -> automatonCoop robotics recovery c = Some A ->
  forall v, In v A -> coop_winning (game_of c) (val v) /\
    reach A (fun v => n_rank v = 0 /\ g_initS (game_of c) (val v) = true /\
      (recovery = false -> g_initE (game_of c) (val v) = true)) v.
Proof.
  intros robotics recovery c A Hwf H v Hv.
  destruct (automatonCoop_cases _ _ _ _ Hwf H) as (w & d & gs & L & Ps & keys & out & HS & Pw & HC & HLP & R & -> & V).
  split; [apply HC; now apply (nodeC_W c Hwf w d gs HS L Ps HLP recovery keys out R)|].
  pose proof (all_reached _ _ _ _ _ _ _ R v Hv) as G.
  induction G as [v Hin [G1 G2]|v u G IH E]; [apply reach_init; auto|].
  - split; auto. unfold extractInit in G2. cbn [g_initE g_initS game_of initEnv initSys withGuarantees] in *.
    destruct recovery; rewrite !pos_and, !andb_true_iff in G2; repeat split; tauto || discriminate.
  - apply (reach_step _ _ v u); auto. apply IH. apply E.
Qed.
Print Assumptions C38_reachable.

(** With --simpleRecovery, the claim of C19 fails for cooperative strategies: there is a
    state and an input that ENV_TRANS forbids such that the system has a reply that satisfies
    SYS_TRANS and leads to a position from which some winning strategy is cooperative, but the
    state has no successor for the input.  (The sets that are recorded for the liveness
    guarantees contain only transitions that satisfy ENV_TRANS.) *)
Theorem C38_recovery_refuted : exists c A v x y, wf c /\ automatonCoop false true c = Some A /\ In v A /\
  g_safeS (game_of c) (val v) (merge (game_of c) x y) = true /\ coop_winning (game_of c) (merge (game_of c) x y) /\
  ~ exists u, edge A v u /\ same_in (game_of c) (nvars c) (val u) x.
Proof.
  exists exR. eexists. exists (mkNode 2 0 [false; true] [4]), (fun _ => true), (fun _ => true).
  split; [exact exR_wf|]. split; [vm_compute; reflexivity|]. split; [cbn; auto|]. split; [vm_compute; reflexivity|]. split.
  - destruct (C38_winning_exact exR exR_wf) as (w & d & gs & E & W). apply W.
    assert (X : match computeCoop exR with
                | Some (w, _, _) => pos w (merge (game_of exR) (fun _ => true) (fun _ => true))
                | None => false end = true) by (vm_compute; reflexivity).
    rewrite E in X. exact X.
  - intros (u & (_ & Hu & Hn) & S). cbn in Hn. destruct Hn as [Hn|[]].
    assert (X : val u 0 = true) by (apply S; [vm_compute; lia|reflexivity]).
    repeat (destruct Hu as [<-|Hu]; [cbn in Hn, X; discriminate|]). destruct Hu.
Qed.
Print Assumptions C38_recovery_refuted.

(** ** Examples *)

(** Two goals and two assumptions; the printed automaton pursues all of them. *)
Definition exCoopA : list node :=
  [mkNode 0 0 [false; false] [1; 2]; mkNode 1 0 [false; true] [3]; mkNode 2 0 [true; true] [4];
   mkNode 3 2 [false; false] [3; 5]; mkNode 4 3 [false; false] [0; 2]; mkNode 5 2 [true; true] [4]].
Example C38_example : wf exR /\ automatonCoop false false exR = Some exCoopA /\
  verdictCoop false exR = Realizable /\ verdictCoop true exR = Realizable /\ coop_realizable (game_of exR).
Proof.
  assert (V : verdictCoop false exR = Realizable) by (vm_compute; reflexivity).
  split; [exact exR_wf|]. split; [vm_compute; reflexivity|]. split; auto. split; [vm_compute; reflexivity|].
  now apply (C38_realizable_iff exR exR_wf).
Qed.

(** Unrealizable in both semantics, without and with cooperation. *)
Example C38_unrealizable_example : wf exPrevent /\ verdictCoop true exPrevent = Unrealizable /\
  ~ coop_realizable (game_of exPrevent) /\ realizable (game_of exPrevent).
Proof.
  assert (Hwf : wf exPrevent).
  { constructor; cbn [varTypes livenessAssumptions livenessGuarantees initEnv initSys safetyEnv safetySys exPrevent];
    [exists [PreInput; PreOutput]; split; reflexivity|dep_ex|dep_ex|dep_ex|dep_ex|repeat constructor; dep_ex|repeat constructor; dep_ex
    |discriminate|discriminate]. }
  split; auto. split; [vm_compute; reflexivity|]. split.
  - apply (C38_realizable_iff exPrevent Hwf). vm_compute. reflexivity.
  - apply C01_realizable_sound; [exact Hwf|]. vm_compute. reflexivity.
Qed.

(** An environment that can always satisfy its assumptions: it alternates. *)
Definition exAlt : ctx := mkCtx exNames exTypes
  [bvar 0] [bvar 2] (bnot (bvar 0)) btrue (bimp (bvar 0) (bnot (bvar 1))) (bimp (bvar 3) (bvar 0)).
Lemma exAlt_wf : wf exAlt.
Proof.
  constructor; cbn [varTypes livenessAssumptions livenessGuarantees initEnv initSys safetyEnv safetySys exAlt];
    [exists [PreInput; PreOutput]; split; reflexivity|dep_ex|dep_ex|dep_ex|dep_ex|repeat constructor; dep_ex|repeat constructor; dep_ex
    |discriminate|discriminate].
Qed.
Example C38_agrees_example : wf exAlt /\ env_capable (game_of exAlt) /\
  verdictCoop false exAlt = Realizable /\ verdictCoop true exAlt = Realizable.
Proof.
  split; [exact exAlt_wf|]. split; [|split; vm_compute; reflexivity].
  exists (fun h k => match h with s :: _ => negb (s 0) | [] => false end). intros s y.
  set (e := fun (h : list state) (k : nat) => match h with s :: _ => negb (s 0) | [] => false end).
  set (pi := fun n => hd (fun _ => false) (env_history (game_of exAlt) e s y n)).
  assert (A : forall n, pi (S n) 0 = negb (pi n 0)).
  { intros n. unfold pi. cbn [env_history hd]. unfold merge. cbn [g_out game_of].
    change (isOut exAlt 0) with false. destruct n; reflexivity. }
  assert (V0 : forall s t, trans (bvar 0) s t = s 0) by (intros; unfold trans; rewrite eval_var; reflexivity).
  assert (V1 : forall s t, trans (bvar 1) s t = t 0) by (intros; unfold trans; rewrite eval_var; reflexivity).
  split.
  - intros m. change (trans (bimp (bvar 0) (bnot (bvar 1))) (pi m) (pi (S m)) = true).
    rewrite trans_imp, trans_not, V0, V1, A. now destruct (pi m 0).
  - intros p [<-|[]] n. change (exists m, n <= m /\ trans (bvar 0) (pi m) (pi (S m)) = true).
    destruct (pi n 0) eqn:E; [exists n; now rewrite V0|]. exists (S n). rewrite V0. split; auto. now rewrite A, E.
Qed.
