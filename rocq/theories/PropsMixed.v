(** * Properties: resilience against limited numbers of violated assumptions (kResilientRealizabilityChecker.py) *)

From Coq Require Import String Ascii List Bool Arith NArith ZArith Lia.
From Verif Require Import Synth FormulaSpec Parser Spec FileSpec Execute ParserProofs FileProofs PropsParser FastSlowFile Structured StructuredProofs StructFile StructFileProofs MinCoreProofs
  ResilientSpec Resilient FrontierProofs ResilientProofs PropsResilient MixedSpec MixedGame Mixed MixedProofs MixedSearch MixedBound.
Import ListNotations.
Local Open Scope list_scope.

(** C86.  The hypotheses on files are those of C84, and no name of a variable begins like the names of
    the counter bits.  The number of counter bits must suffice for the greatest count. *)

(** What the tool reads from a file. *)
Lemma read_file content L : layout None (file_lines content) = Some L ->
  let marks := limitMarks None false (file_lines content) in
  exists d, readSpec "" false emptyDict [] (getlines content) = Ret (d, marked true marks (linesOf SEnvTrans L)) /\
    (forall s, d (header s) = added marks L s) /\ length marks = length (linesOf SEnvTrans L) /\
    Forall (fun p => tidy (snd p) /\ StructFileProofs.content (snd p) = true) L.
Proof.
  intros El marks. destruct (readSpec_spec (file_lines content) None false emptyDict [] L El) as (d & R & D & Len). cbn [nameOf app] in R. exists d. rewrite getlines_spec, R. split; [reflexivity|]. fold marks in D, Len.
  split; [intros s; rewrite D; now destruct s|]. split; [exact Len|]. apply (layout_tidy _ _ _ (file_lines_noNl content) El).
Qed.

(** The file that the tool writes for levels and a bound is realizable if and only if the system is
    resilient with these levels and this bound. *)
Theorem C86_written_file : forall ord content L fs lines essentialEnvTrans nofBits levels k,
  layout None (file_lines content) = Some L -> NoDup (declared L) -> formulas_of false (inputsFirst L) fs ->
  (forall w, In w (declared L) -> String.prefix "_ResilienceCounter_" w = false) ->
  let marks := limitMarks None false (file_lines content) in
  readSpec "" false emptyDict [] (getlines content) = Ret (lines, essentialEnvTrans) ->
  length levels = unmarked marks -> 1 <= k -> k < 2 ^ nofBits ->
  (executeFile ord (mixedRobustSpecification nofBits lines essentialEnvTrans levels k) = POk Realizable /\ resilient (inputsFirst L) fs marks levels k) \/
  (executeFile ord (mixedRobustSpecification nofBits lines essentialEnvTrans levels k) = POk Unrealizable /\ ~ resilient (inputsFirst L) fs marks levels k).
Proof.
  intros ord content L fs lines ess nb levels k El ND HF Fresh marks R Ll K B. destruct (read_file content L El) as (d & R' & Hd & Len & T). fold marks in R', Hd, Len. rewrite R in R'.
  pose proof (f_equal (fun r => match r with Ret q => fst q | _ => lines end) R') as E1. pose proof (f_equal (fun r => match r with Ret q => snd q | _ => ess end) R') as E2. cbn in E1, E2. subst d ess.
  pose proof (mixed_answer L fs marks lines T Hd ND Fresh HF Len levels Ll nb k K B ord) as A.
  destruct (executeFile _ _) as [v|e| |]; try contradiction. destruct v; try contradiction; auto.
Qed.
Print Assumptions C86_written_file.

Section C86.
  Variable ord : nat -> bool.
  Variable nofCounterBits : nat -> nat.
  Hypothesis bits : forall k, k < 2 ^ nofCounterBits k.
  Variable content : string.
  Variable L : items.
  Variable fs : section -> list fml.
  Hypothesis El : layout None (file_lines content) = Some L.
  Hypothesis ND : NoDup (declared L).
  Hypothesis HF : formulas_of false (inputsFirst L) fs.
  Hypothesis Fresh : forall w, In w (declared L) -> String.prefix "_ResilienceCounter_" w = false.
  Let marks := limitMarks None false (file_lines content).
  Let n := unmarked marks.
  Let unlimited (levels : list nat) : Prop := realizable (resilientGame (inputsFirst L) fs marks (violable levels)).

  Lemma F2le_len x y : levelsBelow x y -> length x = length y.
  Proof. induction 1; cbn [length]; congruence. Qed.
  Lemma violable_len x : length (violable x) = length x.
  Proof. apply map_length. Qed.

  Lemma infty_facts infty : findInftyRobustSolutions ord content = Ret infty ->
    (forall r, In r infty -> length r = n) /\ (forall r, In r infty -> realizable (resilientGame (inputsFirst L) fs marks r)) /\
    (forall lv, length lv = n -> unlimited lv -> exists r, In r infty /\ below (violable lv) r).
  Proof.
    intros E. destruct (C84_maximal ord content L fs El ND HF) as (sols & E' & _ & M & C). fold marks in M, C. rewrite E in E'. apply (f_equal (fun r => match r with Ret q => q | _ => infty end)) in E'. cbv beta iota in E'. subst sols.
    split; [|split].
    - intros r Hr. apply M in Hr. apply Hr.
    - intros r Hr. apply M in Hr. apply Hr.
    - intros lv Hl U. apply C. split; [now rewrite violable_len|exact U].
  Qed.

  Lemma search_facts fuel sols : mixedAnalysis ord nofCounterBits fuel content = Ret (Some sols) ->
    exists infty, findInftyRobustSolutions ord content = Ret infty /\ infty <> [] /\ NoDup sols /\
    (forall r, In r sols -> PM marks infty r /\ goodM L fs marks r /\ forall y, PM marks infty y -> mixedLeq r y = true -> goodM L fs marks y -> y = r) /\
    (forall y, PM marks infty y -> goodM L fs marks y -> exists r, In r sols /\ mixedLeq y r = true).
  Proof.
    unfold mixedAnalysis. destruct (findInftyRobustSolutions ord content) as [infty| |] eqn:E; cbn [pybind]; intros H; try discriminate H. exists infty. split; [reflexivity|].
    destruct infty as [|i0 ir] eqn:EI; [discriminate H|]. rewrite <- EI in *. split; [rewrite EI; discriminate|].
    destruct (read_file content L El) as (d & R & Hd & Len & T). fold marks in R, Hd, Len. rewrite R in H. cbn [pybind] in H.
    destruct (findMixedRobustSolutions ord nofCounterBits fuel d (marked true marks (linesOf SEnvTrans L)) infty) as [r| |] eqn:ER; cbn [pybind] in H; try discriminate H.
    injection H as <-. destruct (infty_facts infty E) as (F1 & F2 & F3).
    apply (mixed_search ord nofCounterBits bits L fs marks d T Hd ND Fresh HF Len infty F1 F2 F3 fuel r); [rewrite EI; discriminate|exact ER].
  Qed.
End C86.

(** If the tool ends with a list of solutions, these are exactly the greatest combinations of levels and
    bounds for which the system is resilient, where bounds greater than 1 only count for levels for
    which the number of violations must be limited; and they cover all combinations for which the
    system is resilient. *)
Theorem C86_result : forall ord nofCounterBits fuel content L fs sols,
  layout None (file_lines content) = Some L -> NoDup (declared L) -> formulas_of false (inputsFirst L) fs ->
  (forall w, In w (declared L) -> String.prefix "_ResilienceCounter_" w = false) ->
  (forall k, k < 2 ^ nofCounterBits k) ->
  mixedAnalysis ord nofCounterBits fuel content = Ret (Some sols) ->
  let marks := limitMarks None false (file_lines content) in
  let valid levels := length levels = unmarked marks /\ Forall (fun v => v <= 2) levels in
  let unlimited levels := realizable (resilientGame (inputsFirst L) fs marks (violable levels)) in
  let candidate levels k := valid levels /\ 1 <= k /\ resilient (inputsFirst L) fs marks levels k /\ (k = 1 \/ ~ unlimited levels) in
  NoDup sols /\
  (forall levels k, In (levels, k) sols <->
     candidate levels k /\ forall levels' k', candidate levels' k' -> levelsBelow levels levels' -> k <= k' -> levels' = levels /\ k' = k) /\
  (forall levels k, valid levels -> 1 <= k ->
     (resilient (inputsFirst L) fs marks levels k <->
      unlimited levels \/ exists levels' k', In (levels', k') sols /\ levelsBelow levels levels' /\ k <= k')).
Proof.
  intros ord nb fuel content L fs sols El ND HF Fresh bits H marks valid unlimited candidate.
  destruct (search_facts ord nb bits content L fs El ND HF Fresh fuel sols H) as (infty & EI & _ & N & M & C). fold marks in M, C.
  destruct (infty_facts ord content L fs El ND HF infty EI) as (F1 & F2 & F3). fold marks in F1, F2, F3.
  assert (US : forall lv, length lv = unmarked marks -> (uncovered infty lv <-> ~ unlimited lv)) by (apply uncovered_spec; auto).
  assert (PC : forall lv k, candidate lv k <-> PM marks infty (lv, k) /\ goodM L fs marks (lv, k)).
  { intros lv k. unfold candidate, valid, PM, goodM. cbn [fst snd]. split.
    - intros ((V1 & V2) & K & G & D). rewrite <- (US lv V1) in D. auto.
    - intros ((V1 & V2 & K & D) & G). rewrite (US lv V1) in D. auto. }
  assert (LQ : forall lv k lv' k', length lv = length lv' -> (mixedLeq (lv, k) (lv', k') = true <-> levelsBelow lv lv' /\ k <= k')) by (intros lv k lv' k' E; now apply leq_mixed).
  assert (CL : forall lv k, candidate lv k -> length lv = unmarked marks) by (intros lv k ((V & _) & _); exact V).
  split; [exact N|]. split.
  - intros lv k. split.
    + intros Hi. destruct (M _ Hi) as (P1 & G1 & X). assert (CC : candidate lv k) by (now apply PC). split; [exact CC|]. intros lv' k' CC' B K.
      assert (E : (lv', k') = (lv, k)) by (apply X; [apply PC in CC'; apply CC'|apply LQ; auto; rewrite (CL _ _ CC), (CL _ _ CC'); reflexivity|apply PC in CC'; apply CC']). injection E as -> ->. auto.
    + intros [CC X]. destruct (C (lv, k)) as ((lv', k') & Hr & Hl); [apply PC in CC; apply CC..|]. destruct (M _ Hr) as (P1 & G1 & _). assert (CC' : candidate lv' k') by (now apply PC).
      apply LQ in Hl; [|rewrite (CL _ _ CC), (CL _ _ CC'); reflexivity]. destruct (X lv' k' CC') as [-> ->]; [apply Hl..|]. exact Hr.
  - intros lv k [V1 V2] K. split.
    + intros G. destruct (existsb (isLeqRef lv) infty) eqn:E.
      * left. apply existsb_exists in E. destruct E as (r & Hr & T). apply isLeqRef_spec in T; [|rewrite V1; symmetry; now apply F1]. apply (resilient_antitone _ _ _ _ r T). now apply F2.
      * right. assert (UC : uncovered infty lv). { intros r Hr. destruct (isLeqRef lv r) eqn:T; [|reflexivity]. assert (X : existsb (isLeqRef lv) infty = true) by (apply existsb_exists; eauto). congruence. }
        destruct (C (lv, k)) as ((lv', k') & Hr & Hl); [|exact G|].
        { unfold PM. cbn [fst snd]. auto. }
        exists lv', k'. split; [exact Hr|]. apply LQ; auto. destruct (M _ Hr) as ((P1 & _) & _). cbn [fst] in P1. congruence.
    + intros [U|(lv' & k' & Hr & B & Kk)]; [now apply unlimited_resilient|]. destruct (M _ Hr) as (_ & G1 & _). now apply (levels_antitone _ _ _ lv lv' k k').
Qed.
Print Assumptions C86_result.

(** The tool says that the specification is absolutely unrealizable if and only if it is unrealizable. *)
Theorem C86_none : forall ord nofCounterBits fuel content L fs res,
  layout None (file_lines content) = Some L -> NoDup (declared L) -> formulas_of false (inputsFirst L) fs ->
  mixedAnalysis ord nofCounterBits fuel content = Ret res -> (res = None <-> ~ realizable (file_game (inputsFirst L) fs)).
Proof.
  intros ord nb fuel content L fs res El ND HF H. unfold mixedAnalysis in H. destruct (findInftyRobustSolutions ord content) as [infty| |] eqn:E; cbn [pybind] in H; try discriminate H.
  rewrite <- (C84_none ord content L fs infty El ND HF E). destruct infty as [|i0 ir]; [injection H as <-; tauto|].
  destruct (readSpec _ _ _ _ _) as [[d e]| |]; cbn [pybind] in H; try discriminate H. destruct (findMixedRobustSolutions _ _ _ _ _ _) as [r| |]; cbn [pybind] in H; try discriminate H.
  injection H as <-. split; discriminate.
Qed.
Print Assumptions C86_none.

(** ** Many violations *)
Section BOUND.
  Variable content : string.
  Variable L : items.
  Variable fs : section -> list fml.
  Hypothesis El : layout None (file_lines content) = Some L.
  Hypothesis HF : formulas_of false (inputsFirst L) fs.
  Let marks := limitMarks None false (file_lines content).
  Definition sufficient : nat := S (bnd (length (allCodes (ni L + no L)))) * length (fs SEnvTrans).
  Lemma filter_len {A} (P : A -> bool) l : length (filter P l) <= length l.
  Proof. induction l as [|a l IH]; cbn [filter length]; [lia|]. destruct (P a); cbn [length]; lia. Qed.
  Lemma withLevels_len {A} : forall mk lv (fl : list A), length (withLevels mk lv fl) <= length fl.
  Proof. induction mk as [|[] mk IH]; intros lv [|f fl]; cbn [withLevels length]; try lia; [specialize (IH lv fl)|specialize (IH (tl lv) fl)]; lia. Qed.
  Lemma beyond lv k : enough (ni L + no L) (asmOf fs marks lv) <= k -> resilient (inputsFirst L) fs marks lv k -> realizable (resilientGame (inputsFirst L) fs marks (violable lv)).
  Proof.
    intros B R. destruct (read_file content L El) as (d & _ & _ & Len & T). fold marks in Len.
    assert (SG : forall f, good L f -> same2 (ni L + no L) (fun st st' => holds f (valuation st st'))).
    { apply (same_good L marks T Len (repeat 0 (unmarked marks)) (repeat_length _ _) 1 1); cbn; lia. }
    assert (FG : forall s f, formulaSection s = true -> In f (fs s) -> good L f) by (intros s f; now apply good_fs).
    apply (many_any (file_game (inputsFirst L) fs) (ni L + no L) (asmOf fs marks lv)) with (k := k); auto.
    - intros s s' H. unfold file_game. cbn [g_initE]. apply forallb_ext_in. intros f Hf. apply (SG f); auto. now apply (FG SEnvInit).
    - intros s s' t t' H H'. unfold file_game. cbn [g_safeS]. apply forallb_ext_in. intros f Hf. apply (SG f); auto. now apply (FG SSysTrans).
    - unfold file_game. cbn [g_liveA]. intros p Hp. apply in_map_iff in Hp. destruct Hp as (f & <- & Hf). apply (SG f). now apply (FG SEnvLive).
    - unfold file_game. cbn [g_liveG]. intros p Hp. apply in_map_iff in Hp. destruct Hp as (f & <- & Hf). apply (SG f). now apply (FG SSysLive).
    - intros a Ha. apply in_map_iff in Ha. destruct Ha as (p & <- & Hp). cbn [fst]. apply (SG (fst p)). apply withLevels_in in Hp. now apply (FG SEnvTrans).
    - intros s s' H. unfold file_game. cbn [g_initS]. apply forallb_ext_in. intros f Hf. apply (SG f); auto. now apply (FG SSysInit).
    - intros s t. apply unl_safe.
    - intros p Hp. unfold resilientGame in Hp. cbn [g_liveG] in Hp. apply in_map_iff in Hp. destruct Hp as (goal & <- & Hg). exists goal. split; [exact Hg|]. intros s t [D|D]; [|now rewrite D].
      rewrite (proj2 (unl_dist fs marks lv s t) D). apply orb_true_r.
  Qed.
  Lemma enough_le lv : enough (ni L + no L) (asmOf fs marks lv) <= sufficient.
  Proof.
    unfold enough, sufficient. apply Nat.mul_le_mono_l. unfold counted1. rewrite (filter_len _ (asmOf fs marks lv)). unfold asmOf. rewrite map_length. apply withLevels_len.
  Qed.
End BOUND.

(** A system that is resilient against any limited number of violations is resilient against an
    unlimited number of violations; there is a number of violations for which this holds already. *)
Theorem C86_limit : forall content L fs,
  layout None (file_lines content) = Some L -> formulas_of false (inputsFirst L) fs ->
  let marks := limitMarks None false (file_lines content) in
  exists bound, forall levels k, bound <= k ->
  (resilient (inputsFirst L) fs marks levels k <-> realizable (resilientGame (inputsFirst L) fs marks (violable levels))).
Proof.
  intros content L fs El HF marks. exists (sufficient L fs). intros lv k B. split; [|apply unlimited_resilient].
  apply (beyond content L fs El HF). etransitivity; [apply enough_le|exact B].
Qed.
Print Assumptions C86_limit.

(** The tool ends. *)
Theorem C86_ends : forall ord nofCounterBits content L fs,
  layout None (file_lines content) = Some L -> NoDup (declared L) -> formulas_of false (inputsFirst L) fs ->
  (forall w, In w (declared L) -> String.prefix "_ResilienceCounter_" w = false) ->
  (forall k, k < 2 ^ nofCounterBits k) ->
  exists depth, forall fuel, depth <= fuel -> exists res, mixedAnalysis ord nofCounterBits fuel content = Ret res.
Proof.
  intros ord nb content L fs El ND HF Fresh bits. destruct (C84_maximal ord content L fs El ND HF) as (infty & EI & _).
  set (marks := limitMarks None false (file_lines content)) in *.
  destruct (infty_facts ord content L fs El ND HF infty EI) as (F1 & F2 & F3). fold marks in F1, F2, F3.
  set (B := S (sufficient L fs)). exists (S (2 * unmarked marks + S B)). intros fuel Hf. unfold mixedAnalysis. rewrite EI. cbn [pybind].
  destruct infty as [|i0 ir] eqn:EQ; [eauto|]. rewrite <- EQ in *.
  destruct (read_file content L El) as (d & R & Hd & Len & T). fold marks in R, Hd, Len. rewrite R. cbn [pybind].
  assert (ES : exists r, findMixedRobustSolutions ord nb fuel d (marked true marks (linesOf SEnvTrans L)) infty = Ret r); [|destruct ES as (r & ->); cbn [pybind]; eauto].
  replace (findMixedRobustSolutions ord nb fuel d (marked true marks (linesOf SEnvTrans L)) infty) with
    (getFrontierSetInLattice (list nat * nat) mixedEq mixedLeq (mixedSuccessors infty) (checkMixedRobustImplementability ord nb d (marked true marks (linesOf SEnvTrans L)))
      (map (fun k => (map (fun a : bool => if a then 2 else 0) k, 1)) infty) fuel (map (fun _ : bool => 0) i0, 1)) by (unfold findMixedRobustSolutions; now rewrite EQ).
  unfold getFrontierSetInLattice.
  assert (OM := oracle_mixed ord nb bits L fs marks d T Hd ND Fresh HF Len).
  assert (LF : length i0 = unmarked marks) by (apply F1; rewrite EQ; now left).
  destruct (recurse_ends (list nat * nat) mixedEq mixedLeq (mixedSuccessors infty) (checkMixedRobustImplementability ord nb d (marked true marks (linesOf SEnvTrans L)))
    (map (fun k => (map (fun a : bool => if a then 2 else 0) k, 1)) infty) (PM marks infty) (fun x => snd x <= B) (fun x => 2 * unmarked marks - total (fst x) + (S B - snd x)))
    with (fuel := fuel) (st := mkFrontier (list nat * nat) [] [] []) (x := (map (fun _ : bool => 0) i0, 1)) as (st' & b & E & _).
  - intros x a Px Ha. now apply (succ_mixed L marks Len infty x a).
  - intros x y H Hy. unfold mixedLeq in H. apply andb_true_iff in H. destruct H as [_ H]. apply Nat.leb_le in H. lia.
  - intros x Hx. apply in_map_iff in Hx. destruct Hx as (r & <- & _). cbn [snd]. unfold B. lia.
  - intros [lv k] (P1 & P2 & P3 & P4). cbn [fst snd] in *. destruct (OM (lv, k) P1 P3) as (b & E & HB). exists b. split; [exact E|]. intros Hb. apply HB in Hb. unfold goodM in Hb. cbn [fst snd] in Hb.
    destruct P4 as [P4|P4]; [unfold B; lia|]. apply (uncovered_spec L fs marks infty F1 F2 F3 lv P1) in P4.
    destruct (Nat.le_gt_cases k (sufficient L fs)) as [H|H]; [unfold B; lia|]. elim P4. apply (beyond content L fs El HF lv k); [|exact Hb]. etransitivity; [apply enough_le|lia].
  - intros [lv k] a (P1 & P2 & P3 & P4) Q Ha. cbn [fst snd] in *. unfold mixedSuccessors in Ha. apply in_app_or in Ha. destruct Ha as [Ha|Ha].
    + apply in_map_iff in Ha. destruct Ha as (c & <- & Hc). cbn [fst snd]. rewrite (total_succ lv c Hc). destruct (succ_levels lv c Hc) as (E1 & _ & _ & E4).
      pose proof (total_le (unmarked marks) c ltac:(congruence) (E4 P2)) as TL. rewrite (total_succ lv c Hc) in TL. lia.
    + destruct (forallb _ infty); [|destruct Ha]. destruct Ha as [<-|[]]. cbn [fst snd]. lia.
  - unfold PM. cbn [fst snd]. rewrite map_length. repeat split; auto. apply Forall_forall. intros v Hv. apply in_map_iff in Hv. destruct Hv as (c & <- & _). lia.
  - cbn [resultStorage]. intros r [].
  - cbn [fst snd]. lia.
  - rewrite E. cbn [pybind]. eauto.
Qed.
Print Assumptions C86_ends.

(** The solutions also show for which levels the number of violations need not be limited. *)
Theorem C86_unlimited : forall ord nofCounterBits fuel content L fs sols,
  layout None (file_lines content) = Some L -> NoDup (declared L) -> formulas_of false (inputsFirst L) fs ->
  (forall w, In w (declared L) -> String.prefix "_ResilienceCounter_" w = false) ->
  (forall k, k < 2 ^ nofCounterBits k) ->
  mixedAnalysis ord nofCounterBits fuel content = Ret (Some sols) ->
  let marks := limitMarks None false (file_lines content) in
  forall choice, length choice = unmarked marks ->
  (realizable (resilientGame (inputsFirst L) fs marks choice) <->
   exists levels k, In (levels, k) sols /\ levelsBelow (map (fun a : bool => if a then 2 else 0) choice) levels).
Proof.
  intros ord nb fuel content L fs sols El ND HF Fresh bits H marks choice Lc.
  destruct (search_facts ord nb bits content L fs El ND HF Fresh fuel sols H) as (infty & EI & _ & N & M & C). fold marks in M, C.
  set (two := map (fun a : bool => if a then 2 else 0) choice).
  assert (PT : PM marks infty (two, 1)).
  { unfold PM, two. cbn [fst snd]. rewrite map_length. repeat split; auto. apply Forall_forall. intros v Hv. apply in_map_iff in Hv. destruct Hv as ([] & <- & _); lia. }
  split.
  - intros R. destruct (C (two, 1) PT) as ((lv & k) & Hr & Hl).
    { unfold goodM. cbn [fst snd]. apply unlimited_resilient. unfold two. now rewrite violable_two. }
    exists lv, k. split; [exact Hr|]. destruct (M _ Hr) as ((P1 & _) & _). apply leq_mixed in Hl; [apply Hl|]. cbn [fst] in *. unfold two. rewrite map_length. congruence.
  - intros (lv & k & Hr & B). destruct (M _ Hr) as ((P1 & _ & P3 & _) & G & _). unfold goodM in G. cbn [fst snd] in *.
    rewrite <- (violable_two choice). fold two. apply (beyond content L fs El HF two k); [|now apply (levels_antitone _ _ _ two lv k k)].
    assert (Z : counted1 (asmOf fs marks two) = 0); [|fold marks; unfold enough; rewrite Z; lia].
    unfold counted1. assert (NO : forall a, In a (asmOf fs marks two) -> snd a <> 1).
    { intros a Ha. apply in_map_iff in Ha. destruct Ha as (p & <- & Hp). cbn [snd]. revert p Hp. unfold two. clear. generalize (fs SEnvTrans). generalize choice as c. clearbody marks. induction marks as [|m mk IH]; intros c fl p Hp; cbn [withLevels] in Hp; [destruct Hp|].
      destruct m, fl as [|f fl]; try destruct Hp as [<-|Hp]; try destruct Hp; try discriminate; eauto.
      - destruct c as [|[] c]; cbn; discriminate.
      - destruct c as [|x c]; cbn [map tl] in Hp; [apply (IH [] fl p Hp)|eauto]. }
    revert NO. generalize (asmOf fs marks two). induction l as [|a l IH]; intros NO; [reflexivity|]. cbn [filter]. destruct (Nat.eqb_spec (snd a) 1) as [E|E]; [elim (NO a); [now left|exact E]|]. apply IH. intros b Hb. apply NO. now right.
Qed.
Print Assumptions C86_unlimited.

(** An assumption that may be violated twice before the system needs time to recover, and one that the
    system does not need. *)
Definition mixedExample : string := ("[INPUT]
a
b
[OUTPUT]
p
q
[SYS_INIT]
& p q
[ENV_TRANS]
! a'
! b'
[SYS_TRANS]
| ! a' p
| ! a' | ! q & p' ! q'
| ! a' | q ! p'
[SYS_LIVENESS]
& p' q'
")%string.
Example C86_example : mixedAnalysis (fun _ => true) (fun k => k) 20 mixedExample = Ret (Some [([1; 2], 2)]).
Proof. vm_compute. reflexivity. Qed.
Definition mixedL : items := [(SInput, "a"); (SInput, "b"); (SOutput, "p"); (SOutput, "q"); (SSysInit, "& p q"); (SEnvTrans, "! a'"); (SEnvTrans, "! b'");
  (SSysTrans, "| ! a' p"); (SSysTrans, "| ! a' | ! q & p' ! q'"); (SSysTrans, "| ! a' | q ! p'"); (SSysLive, "& p' q'")]%string.
Definition mixedFs (s : section) : list fml :=
  match s with
  | SSysInit => [FAnd (FVar 4) (FVar 6)]
  | SEnvTrans => [FNot (FVar 1); FNot (FVar 3)]
  | SSysTrans => [FOr (FNot (FVar 1)) (FVar 4); FOr (FNot (FVar 1)) (FOr (FNot (FVar 6)) (FAnd (FVar 5) (FNot (FVar 7)))); FOr (FNot (FVar 1)) (FOr (FVar 6) (FNot (FVar 5)))]
  | SSysLive => [FAnd (FVar 5) (FVar 7)]
  | _ => []
  end.
Example C86_example_hyps : layout None (file_lines mixedExample) = Some mixedL /\ NoDup (declared mixedL) /\ formulas_of false (inputsFirst mixedL) mixedFs /\
  (forall w, In w (declared mixedL) -> String.prefix "_ResilienceCounter_" w = false) /\ (forall k, k < 2 ^ k) /\
  limitMarks None false (file_lines mixedExample) = [false; false].
Proof.
  split; [vm_compute; reflexivity|]. split; [repeat constructor; cbn; intuition discriminate|]. split; [|split; [|split; [intros k; apply Nat.pow_gt_lin_r; lia|vm_compute; reflexivity]]].
  - intros [] Hs; try discriminate Hs; vm_compute linesOf; cbn [mixedFs]; try constructor.
    + apply (g_and _ _ _ _ _ _ ["p"]%string ["q"]%string); gvar.
    + constructor.
    + apply g_not. gvar.
    + constructor; [apply g_not; gvar|constructor].
    + apply (g_or _ _ _ _ _ _ ["!"; "a'"]%string ["p"]%string); [apply g_not|]; gvar.
    + constructor; [|constructor; [|constructor]].
      * apply (g_or _ _ _ _ _ _ ["!"; "a'"]%string ["|"; "!"; "q"; "&"; "p'"; "!"; "q'"]%string); [apply g_not; gvar|].
        apply (g_or _ _ _ _ _ _ ["!"; "q"]%string ["&"; "p'"; "!"; "q'"]%string); [apply g_not; gvar|]. apply (g_and _ _ _ _ _ _ ["p'"]%string ["!"; "q'"]%string); [gvar|apply g_not; gvar].
      * apply (g_or _ _ _ _ _ _ ["!"; "a'"]%string ["|"; "q"; "!"; "p'"]%string); [apply g_not; gvar|]. apply (g_or _ _ _ _ _ _ ["q"]%string ["!"; "p'"]%string); [gvar|apply g_not; gvar].
    + apply (g_and _ _ _ _ _ _ ["p'"]%string ["q'"]%string); gvar.
    + constructor.
  - intros w Hw. assert (A : forallb (fun w => negb (String.prefix "_ResilienceCounter_" w)) (declared mixedL) = true) by (vm_compute; reflexivity).
    rewrite forallb_forall in A. apply negb_true_iff. now apply A.
Qed.
