(** * Properties of the interactive shell: C46 (XSTRATEGYTRANSITION) *)

From Coq Require Import String Ascii NArith ZArith Arith List Bool Lia.
From Verif Require Import BDD Loop Spec VarTypes Synth Sem FixBase GameSound SynthProofs Verdict Solvers SolversProofs
  AutSpec Explicit DetProofs ExplicitProofs ExplicitGame CounterSpec Counter CounterDual CounterData CounterExtract CounterGame
  Parser FormulaSpec ShellSpec Shell ShellText ShellProofs ShellSafe ShellMarks ShellMove ShellTrans ShellEnv PropsSynth PropsComplete PropsMove.
Import ListNotations.
Local Open Scope list_scope.

Local Arguments isOut : simpl never.

(** What XSTRATEGYTRANSITION answers for position [s], characters [p] for the next values, and
    the numbers [a] and [g], if the specification is realizable and [T g] is the strategy for
    guarantee [g]: FAILASSUMPTIONS if ENV_TRANS permits no transition with these values;
    FAILGUARANTEES and a transition that ENV_TRANS permits if SYS_TRANS permits none of them;
    FORCEDNONWINNING if none of them is a transition of the strategy; a transition of the
    strategy otherwise, if possible one after which there is a permitted transition.  The
    letters are those of XCOMPLETEINIT. *)
Definition next (c : ctx) (s t : state) : Prop :=
  g_safeE (game_of c) s t = true /\ g_safeS (game_of c) s t = true.
Definition preferred (c : ctx) (P : state -> Prop) (t : state) : Prop :=
  (exists t', P t' /\ exists u, next c t' u) -> exists u, next c t u.
Definition numbers (c : ctx) (s t : state) (a g : nat) (n : option (nat * nat)) : Prop :=
  exists a' g', n = Some (a', g') /\ nextNumber (nvars c) (g_liveA (game_of c)) s t a a' /\
    nextNumber (nvars c) (g_liveG (game_of c)) s t g g'.
Definition transReplyR (c : ctx) (T : nat -> state -> state -> bool) (s : state) (p : list ascii) (a g : nat) (r : reply) : Prop :=
  let P1 t := fits (shellVars c) p t /\ g_safeE (game_of c) s t = true in
  let P2 t := P1 t /\ g_safeS (game_of c) s t = true in
  let P3 t := P2 t /\ T g s t = true in
  let A := ("a"%char, "A"%char, P1) in
  match r with
  | RFailAssumptions => ~ exists t, P1 t
  | RFailGuarantees l n => n = Some (a, g) /\ ~ (exists t, P2 t) /\ exists t, P1 t /\ marked (shellVars c) [A] t l
  | RForced => (exists t, P2 t) /\ ~ exists t, P3 t
  | RMarks l n => exists t, P3 t /\ marked (shellVars c) [A; ("g"%char, "G"%char, P2); ("s"%char, "S"%char, P3)] t l /\
      numbers c s t a g n /\ preferred c P3 t
  | _ => False
  end.

(** The same if the specification is unrealizable and [E a] is the strategy of the
    environment for assumption [a]. *)
Definition transReplyU (c : ctx) (E : nat -> state -> state -> bool) (s : state) (p : list ascii) (a g : nat) (r : reply) : Prop :=
  let P1 t := fits (shellVars c) p t /\ g_safeE (game_of c) s t = true in
  let P2 t := P1 t /\ E a s t = true in
  let P3 t := P2 t /\ g_safeS (game_of c) s t = true in
  let A := ("a"%char, "A"%char, P1) in
  let B := ("s"%char, "S"%char, P2) in
  match r with
  | RFailAssumptions => ~ exists t, P1 t
  | RForced => (exists t, P1 t) /\ ~ exists t, P2 t
  | RFailGuarantees l n => n = Some (a, g) /\ ~ (exists t, P3 t) /\ exists t, P2 t /\ marked (shellVars c) [A; B] t l
  | RMarks l n => exists t, P3 t /\ marked (shellVars c) [A; B; ("g"%char, "G"%char, P3)] t l /\
      numbers c s t a g n /\ preferred c P3 t
  | _ => False
  end.

(** Strategies [E i] of the environment, one for each assumption: the chosen next input is
    permitted and does not depend on the next output, and whatever the system does, the
    positions are not winning for it; there is a next input in every position that is not winning;
    and on every infinite sequence that switches between them when the assumption is
    satisfied, the assumption that is waited for is satisfied at some time, and not all
    guarantees are satisfied infinitely often. *)
Definition counterStrategies (c : ctx) (E : nat -> state -> state -> bool) : Prop :=
  let G := game_of c in
  let M := length (g_liveA G) in
  let assumption i := nth i (g_liveA G) (fun _ _ => false) in
  (forall i s t, i < M -> E i s t = true -> g_safeE G s t = true /\
     (forall t', same_in G (nvars c) t' t -> E i s t' = true) /\ (g_safeS G s t = true -> ~ winning G t)) /\
  (forall i s, i < M -> ~ winning G s -> exists t, E i s t = true) /\
  (forall (goal : nat -> nat) (s : nat -> state), (forall n, goal n < M) ->
     (forall n, E (goal n) (s n) (s (S n)) = true /\ g_safeS G (s n) (s (S n)) = true) ->
     (forall n, assumption (goal n) (s n) (s (S n)) = false -> goal (S n) = goal n) ->
     ~ (forall p, In p (g_liveG G) -> inf_often p s) /\
     forall n, exists m, n <= m /\ goal m = goal n /\ assumption (goal n) (s m) (s (S m)) = true).

(** Only the declared variables matter. *)
Definition extensional (n : nat) (T : nat -> state -> state -> bool) : Prop :=
  forall j s t s' t', same n s s' -> same n t t' -> T j s t = T j s' t'.

Lemma ext_trans c (f : nat -> BF) : wf c -> (forall j, dep (isAnyV c) (f j)) -> extensional (nvars c) (fun j => trans (f j)).
Proof. intros Hwf H j s t s' t' H1 H2. apply (trans_ext c (wf_kinds c Hwf)); auto. Qed.

Lemma nth_trans l i d : i < length l -> nth i (map trans l) d = trans (nth i l bfalse).
Proof. intros H. rewrite (nth_indep _ _ (trans bfalse)) by now rewrite map_length. apply map_nth. Qed.

(** ** The strategies *)
Lemma strategiesR alg c t : wf c -> realizable (game_of c) -> startShell alg c = Some t ->
  t_realizable t = true /\ length (t_strategies t) = length (livenessGuarantees c) /\
  (forall j, dep (isAnyV c) (nth j (t_strategies t) bfalse)) /\
  winningStrategies c (fun j => trans (nth j (t_strategies t) bfalse)).
Proof.
  intros Hwf HR ES. pose proof (wf_kinds c Hwf) as Hk.
  destruct (start_realizable alg c Hwf HR) as (w & data & L & HX & Hw & HL & V & ES'). rewrite ES in ES'. injection ES' as ->.
  cbn [t_realizable t_strategies]. split; auto. split; [now rewrite map_length, seq_length|].
  set (M := length (livenessGuarantees c)) in *.
  assert (EP : forall j, j < M -> nth j (map (positional c data) (seq 0 M)) bfalse = positional c data j).
  { intros j Hj. rewrite (nth_indep _ _ (positional c data 0)) by now rewrite map_length, seq_length.
    rewrite map_nth, seq_nth by auto. reflexivity. }
  split.
  { intros j. destruct (Nat.lt_ge_cases j M) as [Hj|Hj].
    - rewrite EP by auto. now apply (strat_any c Hwf w data L HL).
    - rewrite nth_overflow by (rewrite map_length, seq_length; auto). apply dep_false. }
  assert (EM : length (g_liveG (game_of c)) = M) by (cbn; apply map_length).
  unfold winningStrategies. rewrite EM. split; [|split].
  - intros j s s' Hj HT. rewrite EP in HT by auto. destruct (stratT_good c Hwf true w data L HL j s s' Hj HT) as [H1 H2]. split; auto. now apply (exact_winning c w HX).
  - intros j s x Hj Hs Hx. apply (exact_winning c w HX) in Hs.
    destruct (stratT_covers c Hwf true w data L HL j s x Hj Hs Hx) as (y & Hy). exists (mrg c x y). rewrite EP by auto. split; [|exact Hy].
    intros k _ Ho. cbn in Ho. unfold mrg. now rewrite Ho.
  - intros goal s Hg Hs HT Hstay HA n. apply (exact_winning c w HX) in Hs.
    assert (EQ : forall k, nth (goal k) (g_liveG (game_of c)) (fun _ _ => false) = trans (nth (goal k) (livenessGuarantees c) btrue)).
    { intros k. cbn [g_liveG game_of]. rewrite nth_trans by apply Hg. f_equal. apply nth_indep, Hg. }
    rewrite EQ.
    apply (reach_goal (game_of c) (fun s => pos w s = true) M (fun j => trans (nth j (livenessGuarantees c) btrue)) (fun j => lift (L j))); auto.
    + intros i Hi. apply goodEnt_ranked. now apply HL.
    + intros k. destruct (HT k) as [H1 H2]. rewrite EP in H1 by apply Hg. now apply (stratT_follow c Hwf true w data L HL).
    + intros k Hf. apply Hstay. now rewrite EQ.
Qed.

Lemma strategiesU alg c t : wf c -> ~ realizable (game_of c) -> startShell alg c = Some t ->
  t_realizable t = false /\ length (t_strategies t) = length (livenessAssumptions c) /\
  (forall i, dep (isAnyV c) (nth i (t_strategies t) bfalse)) /\
  counterStrategies c (fun i => trans (nth i (t_strategies t) bfalse)).
Proof.
  intros Hwf HR ES. pose proof (wf_kinds c Hwf) as Hk. destruct (start_cases alg c t Hwf ES) as (_ & HR' & HU).
  destruct (t_realizable t) eqn:Er; [now elim (HR (proj1 (HR' eq_refl)))|]. split; auto. destruct (HU eq_refl) as [_ HW]. clear HU HR'.
  destruct (counter_blocks c Hwf) as (K & data & EC & HK & HB).
  assert (ET : t = mkTable false (bnot (iterZ c K)) (map (positionalE c (map (fun e : entry => (fst (fst e), snd e)) data)) (seq 0 (length (livenessAssumptions c))))).
  { unfold startShell in ES. destruct (solve alg c) as [[w d]|]; [|discriminate].
    destruct (verdictOf (initialCheck c w)); try discriminate.
    - injection ES as <-. discriminate.
    - rewrite EC in ES. injection ES as <-. reflexivity. }
  subst t. cbn [t_strategies t_winning] in *. split; [now rewrite map_length, seq_length|].
  set (M := length (livenessAssumptions c)) in *. set (P := positionalE c (map (fun e : entry => (fst (fst e), snd e)) data)).
  assert (EP : forall j, j < M -> nth j (map P (seq 0 M)) bfalse = P j).
  { intros j Hj. rewrite (nth_indep _ _ (P 0)) by now rewrite map_length, seq_length.
    rewrite map_nth, seq_nth by auto. reflexivity. }
  assert (HW' : forall s, pos (iterZ c K) s = false <-> ~ winning (game_of c) s).
  { intros s. rewrite <- HW, pos_not, negb_true_iff. reflexivity. }
  split.
  { intros j. destruct (Nat.lt_ge_cases j M) as [Hj|Hj].
    - rewrite EP by auto. now apply (any_E c Hwf K data HB).
    - rewrite nth_overflow by (rewrite map_length, seq_length; auto). apply dep_false. }
  assert (EM : length (g_liveA (game_of c)) = M) by (cbn; apply map_length).
  unfold counterStrategies. rewrite EM. split; [|split].
  - intros i s t Hi HT. rewrite EP in * by auto. destruct (E_at c Hwf K data HB i s t Hi HT) as (b & n & HA). split; [|split].
    + exact (atB_safe c K data i s t b n HA).
    + intros t' Ht. pose proof (E_closed c Hwf K data HB i s t t' Hi HT) as HC. fold P in HC. rewrite <- HC. apply (trans_ext c Hk).
      * now apply (any_E c Hwf K data HB).
      * now intros k _.
      * intros k Hk'. unfold mrg. destruct (isOut c k) eqn:E; auto.
    + intros HS. apply HW'. exact (E_losing c Hwf K data HK i s t b n HA HS).
  - intros i s Hi Hs. apply HW' in Hs. rewrite EP by auto. now apply (E_move c Hwf K data HK HB).
  - intros goal s Hg HT Hstay.
    assert (EQ : forall k, nth (goal k) (g_liveA (game_of c)) (fun _ _ => false) = trans (nth (goal k) (livenessAssumptions c) bfalse)).
    { intros k. cbn [g_liveA game_of]. now rewrite nth_trans by apply Hg. }
    assert (HT1 : forall n, trans (P (goal n)) (s n) (s (S n)) = true).
    { intros n. destruct (HT n) as [H _]. now rewrite EP in H by apply Hg. }
    assert (HT2 : forall n, trans (safetySys c) (s n) (s (S n)) = true) by (intros n; apply HT).
    split.
    + intros HI. apply (play_guarantee c Hwf K data HB s goal Hg HT1 HT2).
      intros j Hj. apply HI. cbn. apply in_map. now apply nth_In.
    + intros n. rewrite EQ. apply (play_assumption c Hwf K data HB s goal Hg HT1 HT2).
      intros k. rewrite <- EQ. apply Hstay.
Qed.

(** ** One command *)
Lemma atNext2 c s p f t : atNext c s p [safetyEnv c; f] t <-> (fits (shellVars c) p t /\ trans (safetyEnv c) s t = true) /\ trans f s t = true.
Proof.
  unfold atNext. split.
  - intros [H1 H2]. inversion H2 as [|x y H3 H4]; subst. inversion H4; subst. auto.
  - intros [[H1 H2] H3]. auto.
Qed.
Lemma atNext1 c s p t : atNext c s p [safetyEnv c] t <-> fits (shellVars c) p t /\ trans (safetyEnv c) s t = true.
Proof. unfold atNext. split; intros [H1 H2]; split; auto. now inversion H2. Qed.
Lemma atNext3 c s p f g t : atNext c s p [safetyEnv c; f; g] t <->
  ((fits (shellVars c) p t /\ trans (safetyEnv c) s t = true) /\ trans f s t = true) /\ trans g s t = true.
Proof.
  unfold atNext. split.
  - intros [H1 H2]. inversion H2 as [|x y H3 H4]; subst. inversion H4 as [|x y H5 H6]; subst. inversion H6; subst. auto.
  - intros [[[H1 H2] H3] H4]. auto 6.
Qed.

Lemma caseR c T s p a g f3 r : (forall t, T g s t = trans f3 s t) ->
  caseOf c s p true (safetySys c) f3 a g r -> transReplyR c T s p a g r.
Proof.
  intros HT H. destruct r; cbn [caseOf transReplyR] in *; try contradiction; cbn [game_of g_safeE g_safeS].
  - intros (t & Ht). apply H. exists t. now apply atNext1.
  - destruct H as (-> & H1 & t & H2 & H3). split; auto. split.
    + intros (t' & Ht). apply H1. exists t'. now apply atNext2.
    + exists t. split; [now apply atNext1|]. eapply marked_ext; [|exact H3]. levels ltac:(apply atNext1).
  - destruct H as ((t & H1) & H2). split.
    + exists t. now apply atNext2.
    + intros (t' & Ht & Hg). apply H2. exists t'. apply atNext3. now rewrite <- HT.
  - destruct H as (t & H1 & H2 & H3 & H4). exists t. rewrite HT. split; [now apply atNext3|]. split; [|split; auto].
    + eapply marked_ext; [|exact H2]. levels ltac:(first [apply atNext1|apply atNext2|rewrite HT; apply atNext3]).
    + intros (t' & [Ht Hg] & u & Hu). apply H4. exists t'. rewrite HT in Hg. split; [now apply atNext3|]. exists u. exact Hu.
Qed.

Lemma caseU c E s p a g f2 r : (forall t, E a s t = trans f2 s t) ->
  caseOf c s p false f2 (safetySys c) a g r -> transReplyU c E s p a g r.
Proof.
  intros HT H. destruct r; cbn [caseOf transReplyU] in *; try contradiction; cbn [game_of g_safeE g_safeS].
  - intros (t & Ht). apply H. exists t. now apply atNext1.
  - destruct H as (-> & H1 & t & H2 & H3). split; auto. split.
    + intros (t' & [Ht Hg] & Hs). apply H1. exists t'. rewrite HT in Hg. now apply atNext3.
    + exists t. rewrite HT. split; [now apply atNext2|]. eapply marked_ext; [|exact H3]. levels ltac:(first [apply atNext1|rewrite HT; apply atNext2]).
  - destruct H as ((t & H1) & H2). split.
    + exists t. now apply atNext1.
    + intros (t' & Ht & Hg). apply H2. exists t'. apply atNext2. now rewrite <- HT.
  - destruct H as (t & H1 & H2 & H3 & H4). exists t. rewrite HT. split; [now apply atNext3|]. split; [|split; auto].
    + eapply marked_ext; [|exact H2]. levels ltac:(first [apply atNext1|rewrite HT; apply atNext2|rewrite HT; apply atNext3]).
    + intros (t' & [[Ht Hg] Hs] & u & Hu). apply H4. exists t'. rewrite HT in Hg. split; [now apply atNext3|]. exists u. exact Hu.
Qed.

Lemma transition_text rand c t s p a g an gn sh i rest : wf c ->
  length p = length (shellVars c) -> Forall (fun a => isspace a = false) p ->
  numeral an a -> numeral gn g -> (a < uintBound)%N -> (g < uintBound)%N ->
  before (transitionText c s p an gn rest) i -> exists i', before rest i' /\
    sess rand c t sh i = match strategyTransition c t (fromS c s) (forcedP c p) a g with
                         | Next q => (q :: fst (sess rand c t sh i'), snd (sess rand c t sh i'))
                         | o => ([], endingOf o)
                         end.
Proof.
  intros Hwf HL HP Ha Hg UA UG Hi. pose proof (wf_kinds c Hwf) as Hk.
  destruct (readBits_before (varsT c PostInput ++ varsT c PostOutput) p btrue (newline ++ an ++ newline ++ gn ++ newline ++ rest)%string
    (mkStream (newline ++ charsText p ++ newline ++ an ++ newline ++ gn ++ newline ++ rest)%string false false)) as (i2 & E2 & H2); auto.
  { rewrite (postShell c Hk), map_length. auto. }
  { constructor. }
  assert (E3 : readUInt i2 = (Some a, mkStream (newline ++ gn ++ newline ++ rest)%string false false)).
  { assert (X : forall x, readUInt (mkStream (newline ++ x)%string false false) = readUInt (mkStream x false false)) by reflexivity.
    inversion H2; subst; rewrite !X; apply (readUInt_numeral an a (gn ++ newline ++ rest)%string); auto; constructor. }
  assert (E4 : readUInt (mkStream (newline ++ gn ++ newline ++ rest)%string false false) = (Some g, mkStream (newline ++ rest)%string false false)).
  { apply (readUInt_numeral gn g rest); auto; constructor. }
  exists (mkStream (newline ++ rest)%string false false). split; [constructor|].
  rewrite sess_eq. rewrite (sess_command rand c t sh _ i "XSTRATEGYTRANSITION"%string
    (bitsText (valuesOf c s) ++ newline ++ charsText p ++ newline ++ an ++ newline ++ gn ++ newline ++ rest)%string Hi); [|reflexivity|reflexivity|discriminate].
  change (toUpper (trim "XSTRATEGYTRANSITION")) with "XSTRATEGYTRANSITION"%string. unfold exec. cbn [String.eqb Ascii.eqb Bool.eqb orb].
  rewrite bitsText_chars, readBits_chars.
  2:{ rewrite (preShell c Hk). unfold bitChars, valuesOf. now rewrite !map_length. }
  2:{ apply bitChars_space. }
  cbn [obind fst snd]. rewrite E2. cbn [obind fst snd]. rewrite E3, E4. fold (fromS c s). fold (forcedP c p).
  now destruct (strategyTransition c t (fromS c s) (forcedP c p) a g).
Qed.

(** For all positions, characters and numbers of existing properties, at any time in a
    session; the command changes nothing. *)
Theorem C46_realizable_partial : forall alg rand c t, wf c -> realizable (game_of c) -> startShell alg c = Some t ->
  let nA := length (g_liveA (game_of c)) in
  let nG := length (g_liveG (game_of c)) in
  (N.of_nat nA <= uintBound)%N -> (N.of_nat nG <= uintBound)%N ->
  exists T, winningStrategies c T /\ extensional (nvars c) T /\
  forall s p a g an gn sh i rest, length p = length (shellVars c) -> Forall (fun a => isspace a = false) p ->
    a < nA -> g < nG -> numeral an (N.of_nat a) -> numeral gn (N.of_nat g) -> before (transitionText c s p an gn rest) i ->
    exists r i', before rest i' /\ sess rand c t sh i = (r :: fst (sess rand c t sh i'), snd (sess rand c t sh i')) /\
      transReplyR c T s p a g r.
Proof.
  intros alg rand c t Hwf HR ES nA nG UA UG. destruct (strategiesR alg c t Hwf HR ES) as (Er & EL & HD & HT).
  exists (fun j => trans (nth j (t_strategies t) bfalse)). split; auto. split; [now apply (ext_trans c)|].
  intros s p a g an gn sh i rest HL HP Ha Hg HA HG Hi. unfold nA, nG in *. cbn [g_liveA g_liveG game_of] in *. rewrite map_length in *.
  destruct (transition_text rand c t s p (N.of_nat a) (N.of_nat g) an gn sh i rest) as (i' & Hi' & E); auto; try lia.
  destruct (transition_cases c Hwf s p HL t (safetySys c) (nth g (t_strategies t) bfalse) a g) as (q & EQ & HQ); auto.
  { now apply wf_safetySys. }
  { now rewrite Er. }
  { rewrite Er. apply nthN_nth. lia. }
  rewrite EQ in E. exists q, i'. split; auto. split; auto. rewrite Er in HQ. eapply caseR; [|exact HQ]. reflexivity.
Qed.
Print Assumptions C46_realizable_partial.

Theorem C46_unrealizable_partial : forall alg rand c t, wf c -> ~ realizable (game_of c) -> startShell alg c = Some t ->
  let nA := length (g_liveA (game_of c)) in
  let nG := length (g_liveG (game_of c)) in
  (N.of_nat nA <= uintBound)%N -> (N.of_nat nG <= uintBound)%N ->
  exists E, counterStrategies c E /\ extensional (nvars c) E /\
  forall s p a g an gn sh i rest, length p = length (shellVars c) -> Forall (fun a => isspace a = false) p ->
    a < nA -> g < nG -> numeral an (N.of_nat a) -> numeral gn (N.of_nat g) -> before (transitionText c s p an gn rest) i ->
    exists r i', before rest i' /\ sess rand c t sh i = (r :: fst (sess rand c t sh i'), snd (sess rand c t sh i')) /\
      transReplyU c E s p a g r.
Proof.
  intros alg rand c t Hwf HR ES nA nG UA UG. destruct (strategiesU alg c t Hwf HR ES) as (Er & EL & HD & HT).
  exists (fun j => trans (nth j (t_strategies t) bfalse)). split; auto. split; [now apply (ext_trans c)|].
  intros s p a g an gn sh i rest HL HP Ha Hg HA HG Hi. unfold nA, nG in *. cbn [g_liveA g_liveG game_of] in *. rewrite map_length in *.
  destruct (transition_text rand c t s p (N.of_nat a) (N.of_nat g) an gn sh i rest) as (i' & Hi' & E); auto; try lia.
  destruct (transition_cases c Hwf s p HL t (nth a (t_strategies t) bfalse) (safetySys c) a g) as (q & EQ & HQ); auto.
  { now apply wf_safetySys. }
  { rewrite Er. apply nthN_nth. lia. }
  { now rewrite Er. }
  rewrite EQ in E. exists q, i'. split; auto. split; auto. rewrite Er in HQ. eapply caseU; [|exact HQ]. reflexivity.
Qed.
Print Assumptions C46_unrealizable_partial.

(** ** Repeated use *)

(** The position that is printed. *)
Definition shows (vars : list nat) (l : list ascii) (s : state) : Prop :=
  Forall2 (fun k m => s k = true <-> In m ["1"; "A"; "G"; "S"]%char) vars l.
(** The property is satisfied by no transition, or by several ones. *)
Definition several (n : nat) (q : state -> state -> bool) : Prop :=
  (forall s t, q s t = false) \/
  exists s t s' t', q s t = true /\ q s' t' = true /\ ~ (same n s' s /\ same n t' t).

Lemma same_or n s t : same n s t \/ ~ same n s t.
Proof.
  destruct (forallb (fun k => Bool.eqb (s k) (t k)) (seq 0 n)) eqn:E.
  - left. intros k Hk. rewrite forallb_forall in E. apply eqb_prop, E, in_seq. lia.
  - right. intros H. assert (X : forallb (fun k => Bool.eqb (s k) (t k)) (seq 0 n) = true); [|congruence].
    apply forallb_forall. intros k Hk. apply in_seq in Hk. rewrite (H k) by lia. apply eqb_reflx.
Qed.

Lemma several_advances n q s t : several n q -> q s t = true -> advances n q s t.
Proof.
  intros [H|(s1 & t1 & s2 & t2 & H1 & H2 & H3)] HQ; [congruence|]. split; auto.
  destruct (same_or n s1 s) as [A1|A1]; [destruct (same_or n t1 t) as [A2|A2]|].
  - exists s2, t2. split; auto. intros [B1 B2]. apply H3. split; intros k Hk.
    + now rewrite (B1 k Hk), (A1 k Hk).
    + now rewrite (B2 k Hk), (A2 k Hk).
  - exists s1, t1. split; auto. tauto.
  - exists s1, t1. split; auto. tauto.
Qed.

Lemma markOf_shows levels k b m : Forall (fun l => In (snd (fst l)) ["A"; "G"; "S"]%char /\ ~ In (fst (fst l)) ["1"; "A"; "G"; "S"]%char) levels ->
  markOf levels k b m -> b = true <-> In m ["1"; "A"; "G"; "S"]%char.
Proof.
  induction 1 as [|[[lo up] P] levels [H1 H2] _ IH]; cbn [markOf fst snd] in *.
  - intros ->. destruct b; (split; [|reflexivity || intros [H|[H|[H|[H|[]]]]]; discriminate]); [now left|discriminate].
  - intros [[_ ->]|[_ H]]; auto. destruct b; (split; [|reflexivity || contradiction]); [now right|discriminate].
Qed.

Lemma marked_shows vars levels t l s : Forall (fun l => In (snd (fst l)) ["A"; "G"; "S"]%char /\ ~ In (fst (fst l)) ["1"; "A"; "G"; "S"]%char) levels ->
  marked vars levels t l -> shows vars l s -> forall k, In k vars -> s k = t k.
Proof.
  intros HL HM HS. unfold marked, shows in *. revert HS. induction HM as [|k m vars l H _ IH]; intros HS k' Hin; [destruct Hin|].
  inversion HS; subst. destruct Hin as [<-|Hin]; [|auto]. apply (markOf_shows _ _ _ _ HL) in H. apply eq_true_iff_eq. tauto.
Qed.

(** Going round the numbers. *)
Lemma round_all M (goal : nat -> nat) (sat : nat -> nat -> Prop) : 0 < M -> (forall n, goal n < M) ->
  (forall n, exists m, n <= m /\ goal m = goal n /\ sat (goal n) m) ->
  (forall n, sat (goal n) n -> goal (S n) = (goal n + 1) mod M) ->
  forall j n, j < M -> exists m, n <= m /\ sat j m.
Proof.
  intros HM Hg Hr Hs j n Hj.
  assert (G : forall d n, (goal n + d) mod M = j -> exists m, n <= m /\ sat j m).
  { intros d. induction d as [|d IH]; intros k Hd.
    - rewrite Nat.add_0_r, Nat.mod_small in Hd by auto. subst j. destruct (Hr k) as (m & H1 & H2 & H3). eauto.
    - destruct (Hr k) as (m & H1 & H2 & H3). rewrite <- H2 in H3. pose proof (Hs m H3) as E.
      destruct (IH (S m)) as (m' & H4 & H5).
      + rewrite E, Nat.add_mod_idemp_l by lia. rewrite <- Hd, H2. f_equal. lia.
      + exists m'. split; auto. lia. }
  apply (G (j + M - goal n) n). specialize (Hg n). replace (goal n + (j + M - goal n)) with (j + 1 * M) by lia.
  rewrite Nat.mod_add by lia. now apply Nat.mod_small.
Qed.

Lemma shellVars_all c k : wf c -> k < nvars c -> In k (shellVars c).
Proof. intros Hwf H. now apply (in_shellVars c). Qed.

(** The printed positions and numbers are given to the next command each time, starting in a
    winning position: all transitions are permitted, and if all assumptions are satisfied
    infinitely often, then so are all guarantees, provided that none of them is satisfied by
    exactly one transition. *)
Theorem C46_play : forall c T, wf c -> winningStrategies c T -> extensional (nvars c) T ->
  forall (s : nat -> state) p (a g : nat -> nat) l, winning (game_of c) (s 0) -> g 0 < length (g_liveG (game_of c)) ->
  (forall n, transReplyR c T (s n) (p n) (a n) (g n) (RMarks (l n) (Some (a (S n), g (S n)))) /\
     shows (shellVars c) (l n) (s (S n))) ->
  (forall n, winning (game_of c) (s n) /\ next c (s n) (s (S n)) /\ fits (shellVars c) (p n) (s (S n))) /\
  ((forall q, In q (g_liveG (game_of c)) -> several (nvars c) q) ->
   (forall q, In q (g_liveA (game_of c)) -> inf_often q s) -> forall q, In q (g_liveG (game_of c)) -> inf_often q s).
Proof.
  intros c T Hwf (HT1 & HT2 & HT3) HE s p a g l H0 Hg0 HR. pose proof (wf_kinds c Hwf) as Hk.
  set (M := length (g_liveG (game_of c))) in *.
  assert (HM : 0 < M) by lia.
  assert (Hg : forall n, g n < M).
  { induction n as [|n IH]; auto. destruct (HR n) as [(t & _ & _ & (a' & g' & E & _ & HN) & _) _]. injection E as _ ->.
    destruct HN as [[_ ->]|[_ ->]]; auto. apply Nat.mod_upper_bound. fold M. lia. }
  assert (ST : forall n, T (g n) (s n) (s (S n)) = true /\ next c (s n) (s (S n)) /\ fits (shellVars c) (p n) (s (S n)) /\
    nextNumber (nvars c) (g_liveG (game_of c)) (s n) (s (S n)) (g n) (g (S n))).
  { intros n. destruct (HR n) as [(t & [[[H1 H2] H3] H4] & H5 & (a' & g' & E & _ & HN) & _) HS]. injection E as _ ->.
    assert (ES : forall k, In k (shellVars c) -> s (S n) k = t k).
    { eapply marked_shows; [|exact H5|exact HS]. repeat apply Forall_cons; try apply Forall_nil; cbn; (split; [tauto|intuition discriminate]). }
    assert (SA : same (nvars c) (s (S n)) t) by (intros k Hk'; apply ES; now apply shellVars_all).
    assert (X : forall f, dep (isAnyV c) f -> trans f (s n) (s (S n)) = trans f (s n) t).
    { intros f D. apply (trans_ext c Hk); auto; now intros k _. }
    assert (De : dep (isAnyV c) (safetyEnv c)) by (apply isPrePostIn_isAny, wf_safetyEnv; auto).
    assert (Ds : dep (isAnyV c) (safetySys c)) by now apply wf_safetySys.
    split; [rewrite <- H4; apply HE; auto; now intros k _|].
    split; [split; cbn [game_of g_safeE g_safeS] in *; now rewrite X|]. split.
    - unfold fits in *. clear - H1 ES. induction H1 as [|k m vars ps H _ IH]; constructor.
      + rewrite ES; auto. now left.
      + apply IH. intros k' Hin. apply ES. now right.
    - assert (Y : forall q, In q (g_liveG (game_of c)) -> advances (nvars c) q (s n) (s (S n)) <-> advances (nvars c) q (s n) t).
      { intros q Hq. cbn in Hq. apply in_map_iff in Hq. destruct Hq as (f & <- & Hf).
        assert (Df : dep (isAnyV c) f) by (pose proof (wf_gua c Hwf) as W; rewrite Forall_forall in W; now apply W).
        unfold advances. rewrite (X f Df). split; intros [B1 (s' & t' & B2 & B3)]; split; auto; exists s', t'; split; auto;
          intros [B4 B5]; apply B3; split; auto; intros k Hk'; rewrite (B5 k Hk'); [symmetry|]; now apply SA. }
      unfold nextNumber in *. cbv zeta in *. rewrite Y; auto; apply nth_In, Hg. }
  assert (W : forall n, winning (game_of c) (s n)).
  { induction n as [|n IH]; auto. destruct (ST n) as [H _]. now apply (HT1 (g n) (s n)). }
  split; [intros n; destruct (ST n) as (_ & H1 & H2 & _); auto|].
  intros HV HA q Hq. apply (In_nth _ _ (fun _ _ => false)) in Hq. destruct Hq as (j & Hj & <-). fold M in Hj.
  intros n. apply (round_all M g (fun j m => nth j (g_liveG (game_of c)) (fun _ _ => false) (s m) (s (S m)) = true) HM Hg); auto.
  - intros k. apply HT3; auto.
    + intros m. destruct (ST m) as (H1 & [H2 _] & _). auto.
    + intros m HF. destruct (ST m) as (_ & _ & _ & [[[H _] _]|[_ H]]); auto. congruence.
  - intros m HS. destruct (ST m) as (_ & _ & _ & [[_ H]|[H _]]); auto. elim H. apply several_advances; auto. apply HV, nth_In, Hg.
Qed.
Print Assumptions C46_play.

(** The same for the environment. *)
Theorem C46_counter_play : forall c E, wf c -> counterStrategies c E -> extensional (nvars c) E ->
  forall (s : nat -> state) p (a g : nat -> nat) l, a 0 < length (g_liveA (game_of c)) ->
  (forall n, transReplyU c E (s n) (p n) (a n) (g n) (RMarks (l n) (Some (a (S n), g (S n)))) /\
     shows (shellVars c) (l n) (s (S n))) ->
  (forall n, ~ winning (game_of c) (s (S n)) /\ next c (s n) (s (S n)) /\ fits (shellVars c) (p n) (s (S n))) /\
  ~ (forall q, In q (g_liveG (game_of c)) -> inf_often q s) /\
  ((forall q, In q (g_liveA (game_of c)) -> several (nvars c) q) ->
   forall q, In q (g_liveA (game_of c)) -> inf_often q s).
Proof.
  intros c E Hwf (HT1 & HT2 & HT3) HE s p a g l Ha0 HR. pose proof (wf_kinds c Hwf) as Hk.
  set (M := length (g_liveA (game_of c))) in *.
  assert (HM : 0 < M) by lia.
  assert (Ha : forall n, a n < M).
  { induction n as [|n IH]; auto. destruct (HR n) as [(t & _ & _ & (a' & g' & EN & HN & _) & _) _]. injection EN as -> _.
    destruct HN as [[_ ->]|[_ ->]]; auto. apply Nat.mod_upper_bound. fold M. lia. }
  assert (ST : forall n, E (a n) (s n) (s (S n)) = true /\ next c (s n) (s (S n)) /\ fits (shellVars c) (p n) (s (S n)) /\
    nextNumber (nvars c) (g_liveA (game_of c)) (s n) (s (S n)) (a n) (a (S n))).
  { intros n. destruct (HR n) as [(t & [[[H1 H2] H4] H3] & H5 & (a' & g' & EN & HN & _) & _) HS]. injection EN as -> _.
    assert (ES : forall k, In k (shellVars c) -> s (S n) k = t k).
    { eapply marked_shows; [|exact H5|exact HS]. repeat apply Forall_cons; try apply Forall_nil; cbn; (split; [tauto|intuition discriminate]). }
    assert (SA : same (nvars c) (s (S n)) t) by (intros k Hk'; apply ES; now apply shellVars_all).
    assert (X : forall f, dep (isAnyV c) f -> trans f (s n) (s (S n)) = trans f (s n) t).
    { intros f D. apply (trans_ext c Hk); auto; now intros k _. }
    assert (De : dep (isAnyV c) (safetyEnv c)) by (apply isPrePostIn_isAny, wf_safetyEnv; auto).
    assert (Ds : dep (isAnyV c) (safetySys c)) by now apply wf_safetySys.
    split; [rewrite <- H4; apply HE; auto; now intros k _|].
    split; [split; cbn [game_of g_safeE g_safeS] in *; now rewrite X|]. split.
    - unfold fits in *. clear - H1 ES. induction H1 as [|k m vars ps H _ IH]; constructor.
      + rewrite ES; auto. now left.
      + apply IH. intros k' Hin. apply ES. now right.
    - assert (Y : forall q, In q (g_liveA (game_of c)) -> advances (nvars c) q (s n) (s (S n)) <-> advances (nvars c) q (s n) t).
      { intros q Hq. cbn in Hq. apply in_map_iff in Hq. destruct Hq as (f & <- & Hf).
        assert (Df : dep (isAnyV c) f) by (pose proof (wf_asm c Hwf) as W; rewrite Forall_forall in W; now apply W).
        unfold advances. rewrite (X f Df). split; intros [B1 (s' & t' & B2 & B3)]; split; auto; exists s', t'; split; auto;
          intros [B4 B5]; apply B3; split; auto; intros k Hk'; rewrite (B5 k Hk'); [symmetry|]; now apply SA. }
      unfold nextNumber in *. cbv zeta in *. rewrite Y; auto; apply nth_In, Ha. }
  assert (HP : ~ (forall p, In p (g_liveG (game_of c)) -> inf_often p s) /\
     forall n, exists m, n <= m /\ a m = a n /\ nth (a n) (g_liveA (game_of c)) (fun _ _ => false) (s m) (s (S m)) = true).
  { apply HT3; auto.
    - intros m. destruct (ST m) as (H1 & [_ H2] & _). auto.
    - intros m HF. destruct (ST m) as (_ & _ & _ & [[[H _] _]|[_ H]]); auto. congruence. }
  split; [|split; [apply HP|]].
  { intros n. destruct (ST n) as (H1 & H2 & H3 & _). split; auto. destruct (HT1 (a n) (s n) (s (S n)) (Ha n) H1) as (_ & _ & H). now apply H, H2. }
  intros HV q Hq. apply (In_nth _ _ (fun _ _ => false)) in Hq. destruct Hq as (j & Hj & <-). fold M in Hj.
  intros n. apply (round_all M a (fun j m => nth j (g_liveA (game_of c)) (fun _ _ => false) (s m) (s (S m)) = true) HM Ha); auto; [apply HP|].
  intros m HS. destruct (ST m) as (_ & _ & _ & [[_ H]|[H _]]); auto. elim H. apply several_advances; auto. apply HV, nth_In, Ha.
Qed.
Print Assumptions C46_counter_play.

(** ** Examples *)
Lemma replyR_computed alg c t s p a g r : wf c -> realizable (game_of c) -> startShell alg c = Some t ->
  length p = length (shellVars c) -> a < length (livenessAssumptions c) -> g < length (livenessGuarantees c) ->
  (N.of_nat (length (livenessAssumptions c)) <= uintBound)%N -> (N.of_nat (length (livenessGuarantees c)) <= uintBound)%N ->
  strategyTransition c t (fromS c s) (forcedP c p) (N.of_nat a) (N.of_nat g) = Next r ->
  transReplyR c (fun j => trans (nth j (t_strategies t) bfalse)) s p a g r.
Proof.
  intros Hwf HR ES HL Ha Hg UA UG E. destruct (strategiesR alg c t Hwf HR ES) as (Er & EL & HD & HT).
  destruct (transition_cases c Hwf s p HL t (safetySys c) (nth g (t_strategies t) bfalse) a g) as (q & EQ & HQ); auto.
  { now apply wf_safetySys. }
  { now rewrite Er. }
  { rewrite Er. apply nthN_nth. lia. }
  rewrite E in EQ. injection EQ as <-. rewrite Er in HQ. eapply caseR; [|exact HQ]. reflexivity.
Qed.
Lemma replyU_computed alg c t s p a g r : wf c -> ~ realizable (game_of c) -> startShell alg c = Some t ->
  length p = length (shellVars c) -> a < length (livenessAssumptions c) -> g < length (livenessGuarantees c) ->
  (N.of_nat (length (livenessAssumptions c)) <= uintBound)%N -> (N.of_nat (length (livenessGuarantees c)) <= uintBound)%N ->
  strategyTransition c t (fromS c s) (forcedP c p) (N.of_nat a) (N.of_nat g) = Next r ->
  transReplyU c (fun j => trans (nth j (t_strategies t) bfalse)) s p a g r.
Proof.
  intros Hwf HR ES HL Ha Hg UA UG E. destruct (strategiesU alg c t Hwf HR ES) as (Er & EL & HD & HT).
  destruct (transition_cases c Hwf s p HL t (nth a (t_strategies t) bfalse) (safetySys c) a g) as (q & EQ & HQ); auto.
  { now apply wf_safetySys. }
  { rewrite Er. apply nthN_nth. lia. }
  { now rewrite Er. }
  rewrite E in EQ. injection EQ as <-. rewrite Er in HQ. eapply caseU; [|exact HQ]. reflexivity.
Qed.

Definition no : state := fun _ => false.
Definition yes : state := fun _ => true.
Definition answer (c : ctx) (s : state) (p : list ascii) (a g : string) : option (list reply * ending) :=
  interactive Basic (fun _ => false) c (transitionText c s p a g EmptyString).

(** exKeep: b keeps its value.  exKeepIn: a keeps its value. *)
Example C46_example :
  wf exR /\ realizable (game_of exR) /\ wf exU /\ ~ realizable (game_of exU) /\
  answer exR yes [".";"."]%char "0" "1" = Some ([RMarks ["a";"s"]%char (Some (1, 0))], Exits) /\
  answer exR yes ["0";"1"]%char "0" "1" = Some ([RForced], Exits) /\
  answer exKeep yes [".";"."]%char "0" "00" = Some ([RMarks ["0";"G"]%char (Some (0, 0))], Exits) /\
  answer exKeep yes [".";"0"]%char "0" "0" = Some ([RFailGuarantees ["0";"a"]%char (Some (0, 0))], Exits) /\
  answer (exKeepIn btrue) no ["1";"."]%char "0" "0" = Some ([RFailAssumptions], Exits) /\
  answer exU yes [".";"."]%char "0" "0" = Some ([RMarks ["s";"g"]%char (Some (0, 0))], Exits) /\
  answer exU yes ["1";"."]%char "0" "0" = Some ([RForced], Exits).
Proof.
  split; [exact exR_wf|]. split.
  { destruct (check_cases exR exR_wf) as [[_ H]|[C _]]; auto. vm_compute in C. discriminate. }
  split; [exact exU_wf|]. split.
  { destruct (check_cases exU exU_wf) as [[C _]|[_ C]]; [vm_compute in C; discriminate|].
    intros (f & Hf). destruct (C f) as (x & Hx). now apply Hx. }
  repeat split; vm_compute; reflexivity.
Qed.

(** One output b, for which everything is permitted. *)
Definition exOne (gs : list BF) : ctx := mkCtx ["b"; "b'"]%string [PreOutput; PostOutput] [btrue] gs btrue btrue btrue btrue.
Lemma exOne_wf gs : Forall (dep (isAnyV (exOne []))) gs -> gs <> [] -> wf (exOne gs).
Proof.
  intros HG HN. constructor; cbn [varTypes livenessAssumptions livenessGuarantees initEnv initSys safetyEnv safetySys exOne]; auto; try dep_ex.
  - exists [PreOutput]. split; reflexivity.
  - repeat constructor; dep_ex.
  - discriminate.
Qed.

Definition exB : ctx := exOne [bvar 0].
Lemma exB_wf : wf exB.
Proof. apply exOne_wf; [repeat constructor; dep_ex|discriminate]. Qed.

(** b stays true if this is asked for each time. *)
Example C46_play_example : exists T, wf exB /\ winningStrategies exB T /\ extensional (nvars exB) T /\
  winning (game_of exB) yes /\ 0 < length (g_liveG (game_of exB)) /\
  (forall n : nat, transReplyR exB T yes ["1"%char] 0 0 (RMarks ["A"%char] (Some (0, 0))) /\ shows (shellVars exB) ["A"%char] yes) /\
  (forall q, In q (g_liveG (game_of exB)) -> several (nvars exB) q) /\
  (forall q, In q (g_liveA (game_of exB)) -> inf_often q (fun _ => yes)).
Proof.
  assert (HR : realizable (game_of exB)).
  { destruct (check_cases exB exB_wf) as [[_ H]|[C _]]; auto. vm_compute in C. discriminate. }
  destruct (start_realizable Basic exB exB_wf HR) as (w & data & L & HX & Hw & HL & V & ES).
  set (t := mkTable true w (map (positional exB data) (seq 0 (length (livenessGuarantees exB))))) in ES.
  destruct (strategiesR Basic exB t exB_wf HR ES) as (Er & EL & HD & HT).
  exists (fun j => trans (nth j (t_strategies t) bfalse)). split; [exact exB_wf|]. split; auto.
  split; [now apply (ext_trans exB); [exact exB_wf|]|]. split.
  { apply (exact_winning exB w HX).
    assert (X : match startShell Basic exB with Some t => pos (t_winning t) yes | None => false end = true) by (vm_compute; reflexivity).
    rewrite ES in X. exact X. }
  split; [cbn; lia|]. split.
  { intros _. split.
    - apply (replyR_computed Basic exB t); [exact exB_wf|exact HR|exact ES|reflexivity|repeat constructor|repeat constructor|discriminate|discriminate|].
      assert (X : match startShell Basic exB with Some t => strategyTransition exB t (fromS exB yes) (forcedP exB ["1"%char]) 0 0 | None => OutOfBounds end =
        Next (RMarks ["A"%char] (Some (0, 0)))) by (vm_compute; reflexivity).
      rewrite ES in X. exact X.
    - apply Forall2_cons; [cbn; tauto|apply Forall2_nil]. }
  split.
  - intros q [<-|[]]. right. exists yes, yes, yes, no. split; [reflexivity|]. split; [reflexivity|].
    intros [_ H]. specialize (H 0). cbn in H. assert (X : no 0 = yes 0) by (apply H; vm_compute; lia). discriminate.
  - intros q [<-|[]] n. exists n. split; auto.
Qed.

(** exU: a and b are not given. *)
Example C46_counter_play_example : exists E, wf exU /\ counterStrategies exU E /\ extensional (nvars exU) E /\
  0 < length (g_liveA (game_of exU)) /\
  (forall n : nat, transReplyU exU E no [".";"."]%char 0 0 (RMarks ["a";"g"]%char (Some (0, 0))) /\ shows (shellVars exU) ["a";"g"]%char no) /\
  (forall q, In q (g_liveA (game_of exU)) -> several (nvars exU) q).
Proof.
  assert (HR : ~ realizable (game_of exU)) by apply C46_example.
  destruct (start_total Basic exU exU_wf) as (t & ES).
  destruct (strategiesU Basic exU t exU_wf HR ES) as (Er & EL & HD & HT).
  exists (fun j => trans (nth j (t_strategies t) bfalse)). split; [exact exU_wf|]. split; auto.
  split; [now apply (ext_trans exU); [exact exU_wf|]|]. split; [cbn; lia|]. split.
  { intros _. split.
    - apply (replyU_computed Basic exU t); [exact exU_wf|exact HR|exact ES|reflexivity|repeat constructor|repeat constructor|discriminate|discriminate|].
      assert (X : match startShell Basic exU with Some t => strategyTransition exU t (fromS exU no) (forcedP exU [".";"."]%char) 0 0 | None => OutOfBounds end =
        Next (RMarks ["a";"g"]%char (Some (0, 0)))) by (vm_compute; reflexivity).
      rewrite ES in X. exact X.
    - apply Forall2_cons; [cbn; intuition discriminate|apply Forall2_cons; [cbn; intuition discriminate|apply Forall2_nil]]. }
  intros q [<-|[]]. right. exists yes, yes, yes, no. split; [reflexivity|]. split; [reflexivity|].
  intros [_ H]. specialize (H 0). assert (X : no 0 = yes 0) by (apply H; vm_compute; lia). discriminate.
Qed.

(** ** What does not hold *)

(** The first guarantee is satisfied only if b is false twice.  This transition is printed with the
    same numbers, so that repeated use stays in this position, in which the second guarantee
    is not satisfied. *)
Theorem C46_single_refuted : exists c t s p l, wf c /\ realizable (game_of c) /\ startShell Basic c = Some t /\
  winning (game_of c) s /\ shows (shellVars c) l s /\
  (forall rand sh i rest, before (transitionText c s p "0" "0" rest) i -> exists i', before rest i' /\
     sess rand c t sh i = (RMarks l (Some (0, 0)) :: fst (sess rand c t sh i'), snd (sess rand c t sh i'))) /\
  (forall q, In q (g_liveA (game_of c)) -> inf_often q (fun _ => s)) /\
  ~ (forall q, In q (g_liveG (game_of c)) -> inf_often q (fun _ => s)).
Proof.
  set (c := exOne [band (bnot (bvar 0)) (bnot (bvar 1)); bvar 0]).
  assert (Hwf : wf c) by (apply exOne_wf; [repeat constructor; dep_ex|discriminate]).
  assert (HR : realizable (game_of c)).
  { destruct (check_cases c Hwf) as [[_ H]|[C _]]; auto. vm_compute in C. discriminate. }
  destruct (start_realizable Basic c Hwf HR) as (w & data & L & HX & Hw & HL & V & ES).
  eexists c, _, no, ["."%char], ["s"%char]. split; auto. split; auto. split; [exact ES|]. split.
  { apply (exact_winning c w HX).
    assert (X : match startShell Basic c with Some t => pos (t_winning t) no | None => false end = true) by (vm_compute; reflexivity).
    rewrite ES in X. exact X. }
  split; [apply Forall2_cons; [cbn; intuition discriminate|apply Forall2_nil]|]. split; [|split].
  - intros rand sh i rest Hi.
    assert (Z : numeral "0" 0) by (vm_compute; repeat split; discriminate).
    match goal with |- context [sess rand c ?t sh i] =>
      destruct (transition_text rand c t no ["."%char] 0 0 "0" "0" sh i rest Hwf eq_refl) as (i' & Hi' & E);
        [now repeat constructor|exact Z|exact Z|reflexivity|reflexivity|exact Hi|] end.
    exists i'. split; auto. rewrite E.
    assert (X : match startShell Basic c with Some t => strategyTransition c t (fromS c no) (forcedP c ["."%char]) 0 0 | None => OutOfBounds end =
        Next (RMarks ["s"%char] (Some (0, 0)))) by (vm_compute; reflexivity).
    rewrite ES in X. now rewrite X.
  - intros q [<-|[]] n. exists n. split; auto.
  - intros H. destruct (H (trans (bvar 0))) with (n := 0) as (m & _ & Hm); [cbn; auto|]. discriminate.
Qed.
Print Assumptions C46_single_refuted.

(** Numbers that do not exist are not rejected. *)
Theorem C46_number_refuted : exists c, wf c /\ realizable (game_of c) /\ length (g_liveG (game_of c)) = 2 /\
  answer c no [".";"."]%char "0" "2" = Some ([], AccessesOutOfBounds).
Proof.
  exists exR. split; [exact exR_wf|]. split; [apply C46_example|]. split; [reflexivity|]. vm_compute. reflexivity.
Qed.
Print Assumptions C46_number_refuted.
