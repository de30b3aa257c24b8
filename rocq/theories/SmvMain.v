(** * Proofs: formulas, specifications and the complete tool *)

From Coq Require Import String Ascii List Bool Arith NArith ZArith Lia.
From Verif Require Import FormulaSpec FileSpec Spec AutSpec Explicit Parser FileProofs OutputProofs StructuredSpec Structured StructuredProofs StructFile StructFileProofs
  DecoderSpec Decoder DecoderProofs PropsDecoder LtlMain GraphSpec Graph GraphProofs PropsGraph SmvSpec Smv SmvReadProofs SmvRunProofs.
Import ListNotations.
Local Open Scope string_scope.

(** ** Names *)

Lemma outputs_length L : length (outputs L) = length (variableNames L).
Proof. unfold outputs, variableNames. induction L as [|[s l] L IH]; [reflexivity|]. cbn [flat_map fst snd]. rewrite !app_length, IH. now destruct s. Qed.
Lemma names_section s b L x : (s = SInput /\ b = false) \/ (s = SOutput /\ b = true) ->
  In x (linesOf s L) <-> exists k, nth_error (variableNames L) k = Some x /\ nth k (outputs L) false = b.
Proof.
  intros HS. unfold linesOf, variableNames, outputs. assert (NE : forall k, nth_error (@nil string) k = Some x -> False) by (intros [|k]; discriminate).
  induction L as [|[s' l] L IH]; [cbn; split; [intros []|]; intros (k & H & _); now apply NE in H|].
  cbn [filter fst]. cbn [flat_map fst snd].
  assert (STEP : forall c, (exists k, nth_error ([l] ++ flat_map (fun p => match fst p with SInput | SOutput => [snd p] | _ => [] end) L)%list k = Some x /\ nth k ([c] ++ flat_map (fun p => match fst p with SInput => [false] | SOutput => [true] | _ => [] end) L)%list false = b) <->
     ((l = x /\ c = b) \/ exists k, nth_error (flat_map (fun p : section * string => match fst p with SInput | SOutput => [snd p] | _ => [] end) L) k = Some x /\ nth k (flat_map (fun p : section * string => match fst p with SInput => [false] | SOutput => [true] | _ => [] end) L) false = b)).
  { intros c. split.
    - intros ([|k] & H1 & H2); cbn in H1, H2; [left; split; congruence|right; eauto].
    - intros [[H1 H2]|(k & H1 & H2)]; [exists 0|exists (S k)]; cbn; subst; auto. }
  destruct HS as [[-> ->]|[-> ->]]; destruct s'; cbn [sec_eqb]; try exact IH; rewrite STEP, <- IH; cbn [map In snd]; intuition congruence.
Qed.
Lemma nth_pairs names : forall i w, nth_error (flat_map (fun w => [w; (w ++ "'")]) names) i = Some w ->
  exists x, nth_error names (Nat.div2 i) = Some x /\ w = if Nat.even i then x else x ++ "'".
Proof.
  induction names as [|x names IH]; intros [|[|i]] w H; try discriminate H; cbn [flat_map app nth_error] in H.
  - exists x. cbn in *. split; congruence.
  - exists x. cbn in *. split; congruence.
  - apply IH in H. destruct H as (y & H1 & H2). exists y. cbn. auto.
Qed.
Lemma pairs_nth names k x : nth_error names k = Some x ->
  nth_error (flat_map (fun w => [w; (w ++ "'")]) names) (2 * k) = Some x /\ nth_error (flat_map (fun w => [w; (w ++ "'")]) names) (S (2 * k)) = Some (x ++ "'").
Proof.
  revert k. induction names as [|y names IH]; intros [|k] H; try discriminate H; cbn [nth_error] in H.
  - injection H as ->. auto.
  - apply IH in H. replace (2 * S k) with (S (S (2 * k))) by lia. exact H.
Qed.
Lemma NoDup_pairs names : NoDup (flat_map (fun w => [w; (w ++ "'")]) names) -> NoDup names.
Proof.
  intros H. apply NoDup_nth_error. intros i j Hi E. destruct (nth_error names i) as [x|] eqn:Ei; [|apply nth_error_None in Ei; lia]. symmetry in E.
  apply pairs_nth in Ei, E. destruct Ei as [Ei _], E as [E _]. assert (2 * i = 2 * j); [|lia]. apply (proj1 (NoDup_nth_error _) H); [apply nth_error_Some; rewrite Ei; discriminate|congruence].
Qed.

(** ** Formulas *)

Lemma findName_spec ap apN x (ev : bool) w l : w = (if ev then x else x ++ "'") ->
  (forall y, In y l -> y = w -> y = x /\ ev = true) -> (forall y, In y l -> y ++ "'" = w -> y = x /\ ev = false) ->
  findName ap apN l w = if in_dec string_dec x l then Some (if ev then Ret (ap x) else apN x) else None.
Proof.
  intros W. induction l as [|y l IH]; intros H1 H2; [reflexivity|]. cbn [findName]. assert (IH' := IH (fun z I => H1 z (or_intror I)) (fun z I => H2 z (or_intror I))). clear IH.
  destruct (String.eqb_spec y w) as [E|E].
  - destruct (H1 y (or_introl eq_refl) E) as [-> ->]. destruct (in_dec string_dec x (x :: l)) as [|N]; [reflexivity|]. elim N. now left.
  - destruct (String.eqb_spec (y ++ "'") w) as [E2|E2].
    + destruct (H2 y (or_introl eq_refl) E2) as [-> ->]. destruct (in_dec string_dec x (x :: l)) as [|N]; [reflexivity|]. elim N. now left.
    + rewrite IH'. destruct (in_dec string_dec x l) as [I|I], (in_dec string_dec x (y :: l)) as [J|J]; try reflexivity.
      * elim J. now right.
      * destruct J as [J|J]; [|contradiction]. subst y. destruct ev; now subst w.
Qed.

Lemma forallb_negb_exists {X} (p : X -> bool) l : negb (forallb p l) = existsb (fun x => negb (p x)) l.
Proof. induction l as [|x l IH]; [reflexivity|]. cbn. rewrite <- IH. now destruct (p x). Qed.

Section FILE.
  Variables (L : items) (fs : section -> list fml) (loose : bool).
  Hypothesis HND : NoDup (declared L).
  Hypothesis HF : formulas_of loose L fs.
  Hypothesis HB : forall s f, formulaSection s = true -> In f (fs s) -> basic f = true.
  Hypothesis HS : forall s line, formulaSection s = true -> In (s, line) L -> singleBlanks line.

  Local Notation names := (variableNames L).
  Local Notation out := (fun k => nth k (outputs L) false).
  Local Notation ins := (linesOf SInput L).
  Local Notation outs := (linesOf SOutput L).
  Local Notation rel := (rel names out).
  Local Notation g := (file_game L fs).

  Lemma names_nodup : NoDup names.
  Proof. apply NoDup_pairs. now rewrite <- declared_variables. Qed.
  Lemma in_ins x : In x ins <-> exists k, nth_error names k = Some x /\ nth k (outputs L) false = false.
  Proof. apply names_section. auto. Qed.
  Lemma in_outs x : In x outs <-> exists k, nth_error names k = Some x /\ nth k (outputs L) false = true.
  Proof. apply names_section. auto. Qed.

  Definition isInit (s : section) : bool := match s with SEnvInit | SSysInit => true | _ => false end.
  Definition after (s : section) (pi : nat -> state) (n : nat) : state := if isInit s then pi n else pi (S n).
  Definition means (s : section) (p : ltl) (f : fml) : Prop := forall r pi n, rel r pi -> exists b, (forall mem, den (valuation (pi n) (after s pi n)) mem f = Some b) /\ (satisfies r n p <-> b = true).

  Lemma atom_means s w i : file_var L s w i -> exists p, toAtom (isInit s) ins outs w = Ret p /\ means s p (FVar i).
  Proof.
    intros [V M]. rewrite declared_variables in V. pose proof V as V'. apply nth_pairs in V'. destruct V' as (x & X & W).
    assert (U1 : forall y, In y names -> y = w -> y = x /\ Nat.even i = true).
    { intros y I E. apply In_nth_error in I. destruct I as (j & J). pose proof (proj1 (pairs_nth _ _ _ J)) as J'. rewrite E, <- V in J'. assert (Ei : 2 * j = i).
      { apply (proj1 (NoDup_nth_error _) (eq_ind _ _ HND _ (declared_variables L))); [|exact J']. apply nth_error_Some. rewrite J', V. discriminate. }
      rewrite <- Ei. rewrite <- Ei, Nat.div2_double in X. split; [congruence|]. now rewrite Nat.even_mul. }
    assert (U2 : forall y, In y names -> y ++ "'" = w -> y = x /\ Nat.even i = false).
    { intros y I E. apply In_nth_error in I. destruct I as (j & J). pose proof (proj2 (pairs_nth _ _ _ J)) as J'. rewrite E, <- V in J'. assert (Ei : S (2 * j) = i).
      { apply (proj1 (NoDup_nth_error _) (eq_ind _ _ HND _ (declared_variables L))); [|exact J']. apply nth_error_Some. rewrite J', V. discriminate. }
      rewrite <- Ei. rewrite <- Ei, Nat.div2_succ_double in X. split; [congruence|]. now rewrite Nat.even_succ, Nat.odd_mul. }
    assert (SI : incl ins names) by (intros y I; apply in_ins in I; destruct I as (j & I & _); now apply nth_error_In in I).
    assert (SO : incl outs names) by (intros y I; apply in_outs in I; destruct I as (j & I & _); now apply nth_error_In in I).
    unfold toAtom. rewrite (findName_spec _ _ x (Nat.even i) w ins W) by (intros y I; first [apply U1|apply U2]; now apply SI).
    rewrite (findName_spec _ _ x (Nat.even i) w outs W) by (intros y I; first [apply U1|apply U2]; now apply SO).
    destruct (in_dec string_dec x ins) as [I|I].
    - apply in_ins in I. destruct I as (j & J & O). assert (Ej : j = Nat.div2 i) by (apply (proj1 (NoDup_nth_error _) names_nodup); [apply nth_error_Some; rewrite J; discriminate|congruence]). subst j.
      destruct (Nat.even i) eqn:E.
      + eexists. split; [reflexivity|]. intros r pi n R. exists (pi n (Nat.div2 i)). cbn [den satisfies]. unfold valuation. rewrite E. split; [reflexivity|]. now rewrite (proj1 (R n _ x X) O).
      + assert (isInit s = false) as -> by (destruct s; try reflexivity; unfold may_use in M; rewrite <- Nat.negb_even, E in M; cbn in M; now rewrite andb_false_r in M || discriminate M).
        eexists. split; [reflexivity|]. intros r pi n R. exists (pi (S n) (Nat.div2 i)). cbn [den satisfies]. unfold valuation. rewrite E. split; [|now rewrite (proj1 (R (S n) _ x X) O)].
        intros _. unfold after. destruct (isInit s) eqn:Ei; [|reflexivity]. exfalso. destruct s; try discriminate Ei; unfold may_use in M; rewrite <- Nat.negb_even, E in M; cbn in M; now rewrite ?andb_false_r in M.
    - assert (O : nth (Nat.div2 i) (outputs L) false = true) by (destruct (nth (Nat.div2 i) (outputs L) false) eqn:O; [reflexivity|]; elim I; apply in_ins; eauto).
      destruct (in_dec string_dec x outs) as [J|J]; [|elim J; apply in_outs; eauto]. destruct (Nat.even i) eqn:E.
      + eexists. split; [reflexivity|]. intros r pi n R. exists (pi n (Nat.div2 i)). cbn [den satisfies]. unfold valuation. rewrite E. split; [reflexivity|]. now rewrite (proj2 (R n _ x X) O).
      + assert (Ei : isInit s = false) by (destruct s; try reflexivity; unfold may_use in M; rewrite <- Nat.negb_even, E in M; cbn in M; rewrite ?andb_false_r in M; discriminate M).
        rewrite Ei. eexists. split; [reflexivity|]. intros r pi n R. exists (pi (S n) (Nat.div2 i)). cbn [den satisfies]. unfold valuation, after. rewrite E, Ei. split; [reflexivity|now rewrite (proj2 (R (S n) _ x X) O)].
  Qed.
  Lemma formula_means s m f ws : gram (file_var L s) maxNumber loose m f ws -> basic f = true -> forall fuel rest, length ws <= fuel ->
    exists p, toLTL (isInit s) ins outs fuel (ws ++ rest) = Ret (p, rest) /\ means s p f.
  Proof.
    induction 1; intros B fuel rest LE; try discriminate B.
    - destruct fuel as [|fuel]; [cbn in LE; lia|]. exists LTrue. split; [reflexivity|]. intros r pi n R. exists true. cbn. tauto.
    - destruct fuel as [|fuel]; [cbn in LE; lia|]. exists LFalse. split; [reflexivity|]. intros r pi n R. exists false. cbn. split; [reflexivity|]. split; [tauto|discriminate].
    - destruct fuel as [|fuel]; [cbn in LE; lia|]. destruct (atom_means s w i H0) as (p & P & M). exists p. split; [|exact M]. cbn [app toLTL]. unfold reserved in H. cbn [existsb] in H. repeat (apply orb_false_iff in H; destruct H as [? H]).
      repeat match goal with E : String.eqb w _ = false |- _ => rewrite E; clear E end. cbn [orb]. now rewrite P.
    - destruct fuel as [|fuel]; [cbn in LE; lia|]. cbn [basic] in B. cbn [length] in LE. destruct (IHgram B fuel rest) as (p & P & M); [lia|]. exists (LNot p). split; [cbn [app toLTL]; cbn [String.eqb Ascii.eqb Bool.eqb orb]; now rewrite P|].
      intros r pi n R. destruct (M r pi n R) as (b & D & S0). exists (negb b). cbn [den satisfies]. split; [intros mem; now rewrite D|]. rewrite S0. destruct b; cbn; intuition congruence.
    - destruct fuel as [|fuel]; [cbn in LE; lia|]. cbn [basic] in B. apply andb_true_iff in B. destruct B as [B1 B2]. cbn [length] in LE. rewrite app_length in LE.
      destruct (IHgram1 B1 fuel (vs ++ rest)%list) as (p & P & M); [lia|]. destruct (IHgram2 B2 fuel rest) as (q & Q & K); [lia|]. exists (LAnd p q). split.
      { cbn [app toLTL]. cbn [String.eqb Ascii.eqb Bool.eqb orb]. rewrite <- app_assoc, P. cbn [pybind]. rewrite Q. reflexivity. }
      intros r pi n R. destruct (M r pi n R) as (b & D & S0), (K r pi n R) as (b' & D' & S1). exists (b && b'). cbn [den satisfies]. split; [intros mem; now rewrite D, D'|]. rewrite S0, S1. destruct b, b'; cbn; intuition congruence.
    - destruct fuel as [|fuel]; [cbn in LE; lia|]. cbn [basic] in B. apply andb_true_iff in B. destruct B as [B1 B2]. cbn [length] in LE. rewrite app_length in LE.
      destruct (IHgram1 B1 fuel (vs ++ rest)%list) as (p & P & M); [lia|]. destruct (IHgram2 B2 fuel rest) as (q & Q & K); [lia|]. exists (LOr p q). split.
      { cbn [app toLTL]. cbn [String.eqb Ascii.eqb Bool.eqb orb]. rewrite <- app_assoc, P. cbn [pybind]. rewrite Q. reflexivity. }
      intros r pi n R. destruct (M r pi n R) as (b & D & S0), (K r pi n R) as (b' & D' & S1). exists (b || b'). cbn [den satisfies]. split; [intros mem; now rewrite D, D'|]. rewrite S0, S1. destruct b, b'; cbn; intuition congruence.
  Qed.
  Lemma words_blank line w : In w (words line) -> ~ In " "%char (list_ascii_of_string w).
  Proof.
    revert w. induction line as [|a s IH]; intros w; cbn [words]; [intros []|]. destruct (isWs a) eqn:W; [apply IH|]. assert (NA : a <> " "%char) by (intros ->; discriminate W). destruct s as [|b s].
    - intros [<-|[]]. cbn. intuition congruence.
    - destruct (isWs b).
      + intros [<-|I]; [cbn; intuition congruence|now apply IH].
      + destruct (words (String b s)) as [|v vs] eqn:E; intros [<-|I].
        * cbn. intuition congruence.
        * destruct I.
        * cbn [list_ascii_of_string In]. intros [J|J]; [congruence|]. now apply (IH v (or_introl eq_refl)).
        * apply IH. now right.
  Qed.
  Lemma gram_nonempty var b lo m f ws : gram var b lo m f ws -> ws <> [].
  Proof. intros G. now inversion G. Qed.
  Lemma line_means s line f : gram (file_var L s) maxNumber loose 0 f (words line) -> basic f = true -> singleBlanks line ->
    exists p, lineLTL (isInit s) ins outs line = Ret p /\ means s p f.
  Proof.
    intros G B SB. assert (SP : splitChar " " line = words line) by (unfold singleBlanks in SB; rewrite SB at 1; apply (split_concat " "); [now apply gram_nonempty in G|apply Forall_forall; intros w I; now apply words_blank in I]).
    unfold lineLTL. rewrite SP.
    destruct (formula_means s 0 f (words line) G B (S (length (words line))) []) as (p & P & M); [lia|]. rewrite app_nil_r in P. exists p. rewrite P. auto.
  Qed.
  Lemma section_means s : formulaSection s = true -> exists ps, pyMapM (lineLTL (isInit s) ins outs) (linesOf s L) = Ret ps /\ Forall2 (means s) ps (fs s).
  Proof.
    intros FS. pose proof (HF s FS) as F. assert (SL : forall line, In line (linesOf s L) -> singleBlanks line).
    { intros line I. unfold linesOf in I. apply in_map_iff in I. destruct I as ([s' l] & <- & I). apply filter_In in I. destruct I as [I E]. apply sec_eqb_eq in E. cbn in *. subst s'. now apply (HS s). }
    pose proof (fun f I => HB s f FS I) as BL. revert SL BL. induction F as [|line f ls fl G F IH]; intros SL BL; [exists []; split; [reflexivity|constructor]|].
    destruct IH as (ps & P & M); [intros; apply SL; now right|intros; apply BL; now right|]. destruct (line_means s line f G) as (p & Q & K); [apply BL; now left|apply SL; now left|].
    exists (p :: ps). split; [|now constructor]. cbn [pyMapM]. rewrite Q. cbn [pybind]. now rewrite P.
  Qed.

  (** ** Specifications *)

  Lemma conjunctionL_sat r n ps : satisfies r n (conjunctionL ps) <-> forall p, In p ps -> satisfies r n p.
  Proof.
    unfold conjunctionL. assert (G : forall ps a, satisfies r n (fold_left LAnd ps a) <-> satisfies r n a /\ forall p, In p ps -> satisfies r n p).
    { clear. induction ps as [|p ps IH]; intros a; cbn [fold_left In]; [tauto|]. rewrite IH. cbn [satisfies]. split; [intros [[H1 H2] H3]; split; [exact H1|]; intros q [<-|I]; auto|]. intros [H1 H2]. auto 10. }
    rewrite G. cbn. tauto.
  Qed.
  Lemma means_holds s p f r pi n : means s p f -> rel r pi -> (satisfies r n p <-> holds f (valuation (pi n) (after s pi n)) = true).
  Proof. intros M R. destruct (M r pi n R) as (b & D & S0). unfold holds. now rewrite D. Qed.
  Lemma all_means s ps fl r pi n : Forall2 (means s) ps fl -> rel r pi ->
    ((forall p, In p ps -> satisfies r n p) <-> forallb (fun f => holds f (valuation (pi n) (after s pi n))) fl = true).
  Proof.
    intros F R. induction F as [|p f ps fl M F IH]; [cbn; split; [reflexivity|intros _ p []]|]. cbn [forallb In]. rewrite andb_true_iff, <- IH, <- (means_holds s p f r pi n M R). split; [auto|]. intros [H1 H2] q [<-|I]; auto.
  Qed.
  Lemma each_means s ps fl : Forall2 (means s) ps fl -> forall P : ltl -> Prop, forall Q : fml -> Prop, (forall p f, means s p f -> (P p <-> Q f)) -> ((forall p, In p ps -> P p) <-> (forall f, In f fl -> Q f)).
  Proof.
    intros F P Q H. induction F as [|p f ps fl M F IH]; [split; intros _ x []|]. apply H in M. cbn [In]. split; intros X y [<-|I].
    - apply M, X. now left.
    - apply IH; auto.
    - apply M, X. now left.
    - apply IH; auto.
  Qed.

  Theorem specifications_spec n : exists specs, specifications (map (fun p => (header (fst p), snd p)) L) n = Ret specs /\
    forall r pi, rel r pi -> ((forall p, In p specs -> satisfies r 0 p) <-> (g_initE g (pi 0) = true -> g_initS g (pi 0) = true -> t_state r 1 <> n -> safe_and_live g pi)).
  Proof.
    unfold specifications. change "[INPUT]" with (header SInput). change "[OUTPUT]" with (header SOutput). change "[SYS_INIT]" with (header SSysInit). change "[ENV_INIT]" with (header SEnvInit).
    change "[ENV_TRANS]" with (header SEnvTrans). change "[SYS_TRANS]" with (header SSysTrans). change "[ENV_LIVENESS]" with (header SEnvLive). change "[SYS_LIVENESS]" with (header SSysLive).
    rewrite !linesIn_linesOf.
    destruct (section_means SSysInit eq_refl) as (si & P1 & M1). destruct (section_means SEnvInit eq_refl) as (ei & P2 & M2). destruct (section_means SEnvTrans eq_refl) as (et & P3 & M3).
    destruct (section_means SSysTrans eq_refl) as (st & P4 & M4). destruct (section_means SEnvLive eq_refl) as (el & P5 & M5). destruct (section_means SSysLive eq_refl) as (sl & P6 & M6).
    cbn [isInit] in *. rewrite P1, P2, P3, P4, P5, P6. cbn [pybind]. eexists. split; [reflexivity|]. intros r pi R.
    set (allInit := LAnd (conjunctionL (si ++ ei)) (LNext (LStateNot n))). set (safe := conjunctionL et). set (live := conjunctionL (map (fun f => LAlways (LEventually f)) el)).
    assert (HI : satisfies r 0 allInit <-> g_initE g (pi 0) = true /\ g_initS g (pi 0) = true /\ t_state r 1 <> n).
    { unfold allInit. cbn [satisfies]. rewrite conjunctionL_sat. cbn [g_initE g_initS file_game].
      rewrite <- (all_means SEnvInit ei (fs SEnvInit) r pi 0 M2 R), <- (all_means SSysInit si (fs SSysInit) r pi 0 M1 R). split.
      - intros [H1 H2]. split; [|split; [|exact H2]]; intros p I; apply H1; apply in_app_iff; tauto.
      - intros (H1 & H2 & H3). split; [|exact H3]. intros p I. apply in_app_iff in I. destruct I; auto. }
    assert (HA : forall m, satisfies r m safe <-> g_safeE g (pi m) (pi (S m)) = true) by (intros m; unfold safe; rewrite conjunctionL_sat; apply (all_means SEnvTrans et (fs SEnvTrans) r pi m M3 R)).
    assert (GF : forall s p f, isInit s = false -> means s p f -> (satisfies r 0 (LAlways (LEventually p)) <-> inf_often (fun a b => holds f (valuation a b)) pi)).
    { intros s p f E M. cbn [satisfies]. unfold inf_often. split.
      - intros H m. destruct (H m ltac:(lia)) as (k & K1 & K2). exists k. split; [exact K1|]. apply (means_holds s p f r pi k M R) in K2. unfold after in K2. now rewrite E in K2.
      - intros H m _. destruct (H m) as (k & K1 & K2). exists k. split; [exact K1|]. apply (means_holds s p f r pi k M R). unfold after. now rewrite E. }
    assert (HL : satisfies r 0 live <-> forall q, In q (g_liveA g) -> inf_often q pi).
    { unfold live. rewrite conjunctionL_sat. cbn [g_liveA file_game].
      pose proof (each_means SEnvLive el (fs SEnvLive) M5 (fun p => satisfies r 0 (LAlways (LEventually p))) (fun f => inf_often (fun a b => holds f (valuation a b)) pi) (fun p f => GF SEnvLive p f eq_refl)) as E. split.
      - intros H q I. apply in_map_iff in I. destruct I as (f & <- & I). apply (proj1 E); [|exact I]. intros p J. apply H. apply in_map_iff. eauto.
      - intros H p I. apply in_map_iff in I. destruct I as (p' & <- & I). apply (proj2 E); [|exact I]. intros f J. apply H. apply in_map_iff. eauto. }
    pose proof (each_means SSysLive sl (fs SSysLive) M6 (fun p => satisfies r 0 (LAlways (LEventually p))) (fun f => inf_often (fun a b => holds f (valuation a b)) pi) (fun p f => GF SSysLive p f eq_refl)) as HG.
    assert (HT : (forall p, In p st -> forall m, satisfies r m p) <-> forall m, g_safeS g (pi m) (pi (S m)) = true).
    { split.
      - intros H m. apply (all_means SSysTrans st (fs SSysTrans) r pi m M4 R). auto.
      - intros H p I m. apply (proj2 (all_means SSysTrans st (fs SSysTrans) r pi m M4 R)); auto. apply H. }
    assert (HT1 : forall m, (forall p, In p st -> satisfies r m p) <-> g_safeS g (pi m) (pi (S m)) = true) by (intros m; apply (all_means SSysTrans st (fs SSysTrans) r pi m M4 R)).
    split.
    - intros H I1 I2 I3. assert (AI : satisfies r 0 allInit) by (apply HI; auto). split.
      + intros m SE. apply HT1. intros p I. specialize (H (LImp allInit (LRelease (LNot safe) (LOr p (LNot safe)))) ltac:(apply in_app_iff; left; apply in_map_iff; eauto) AI m ltac:(lia)). cbn [satisfies] in H.
        destruct H as [[H|H]|(k & _ & K & H)]; [exact H| |]; exfalso; apply H, HA, SE; lia.
      + intros SE LE q I. cbn [g_liveG file_game] in I. apply in_map_iff in I. destruct I as (f & <- & I). apply (proj1 HG); [|exact I]. intros p J. specialize (H (LImp (LAnd (LAnd allInit (LAlways safe)) live) (LAlways (LEventually p))) ltac:(apply in_app_iff; right; apply in_map_iff; eauto)). change (satisfies r 0 (LAnd (LAnd allInit (LAlways safe)) live) -> satisfies r 0 (LAlways (LEventually p))) in H. apply H.
        split; [split; [exact AI|]|now apply HL]. intros m _. apply HA, SE.
    - intros H p I. apply in_app_iff in I. destruct I as [I|I]; apply in_map_iff in I; destruct I as (f & <- & I); cbn [satisfies].
      + intros AI m _. apply HI in AI. destruct AI as (A1 & A2 & A3). destruct (H A1 A2 A3) as [SF _].
        destruct (forallb (fun k => g_safeE g (pi k) (pi (S k))) (seq 0 (S m))) eqn:E.
        * left. left. apply (proj2 (HT1 m)); [|exact I]. apply SF. intros k K. rewrite forallb_forall in E. apply E, in_seq. lia.
        * destruct (proj1 (existsb_exists (fun k => negb (g_safeE g (pi k) (pi (S k)))) (seq 0 (S m)))) as (k & K & V); [rewrite <- forallb_negb_exists; now rewrite E|].
          apply in_seq in K. apply negb_true_iff in V. assert (NS : ~ satisfies r k safe) by (rewrite HA, V; discriminate). destruct (Nat.eq_dec k m) as [->|NE]; [left; now right|right; exists k; repeat split; auto; lia].
      + intros [[AI SE] LE]. apply HI in AI. destruct AI as (A1 & A2 & A3). destruct (H A1 A2 A3) as [_ LV]. apply (proj2 HG); [|exact I]. intros f' J. apply LV; [intros m; apply HA, SE; lia|now apply HL|]. cbn [g_liveG file_game]. apply in_map_iff. eauto.
  Qed.
End FILE.
