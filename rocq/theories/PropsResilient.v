(** * Properties: resilience against violated assumptions (kResilientRealizabilityChecker.py) *)

From Coq Require Import String Ascii List Bool Arith NArith Lia.
From Verif Require Import Synth FormulaSpec Parser Spec FileSpec Execute ParserProofs FileProofs PropsParser FastSlowFile Structured StructuredProofs StructFile StructFileProofs MinCoreProofs ResilientSpec Resilient FrontierProofs ResilientProofs.
Import ListNotations.
Local Open Scope list_scope.

(** C84.  The tool finds exactly the greatest sets of safety assumptions that the system does not need:
    for every file in the documented language it ends with the list of the choices for which the game
    without the chosen assumptions is realizable, but for no greater choice. *)
Section C84.
  Variable ord : nat -> bool.
  Variable content : string.
  Variable L : items.
  Variable fs : section -> list fml.
  Hypothesis El : layout None (file_lines content) = Some L.
  Hypothesis ND : NoDup (declared L).
  Hypothesis HF : formulas_of false (inputsFirst L) fs.
  Let marks := limitMarks None false (file_lines content).
  Let good (c : list bool) : Prop := realizable (resilientGame (inputsFirst L) fs marks c).
  Let n := unmarked marks.

  Lemma unmarked_length {A} : forall m (l : list A), length m = length l -> length (marked false m l) = unmarked m.
  Proof.
    unfold unmarked. induction m as [|b m IH]; intros [|a l] E; try discriminate E; [reflexivity|]. injection E as E. cbn [marked count_occ].
    destruct b; cbn [Bool.eqb].
    - destruct (Bool.bool_dec true false); [discriminate|]. now apply IH.
    - destruct (Bool.bool_dec false false); [|congruence]. cbn [length]. now rewrite IH.
  Qed.
  Lemma count_repeat k : count_occ Bool.bool_dec (repeat false k) false = k.
  Proof. induction k as [|k IH]; cbn [repeat count_occ]; [reflexivity|]. destruct (Bool.bool_dec false false); congruence. Qed.
  Lemma repeat_below k : forall y, length y = k -> below (repeat false k) y.
  Proof. unfold below. induction k as [|k IH]; intros [|b y] E; try discriminate E; constructor; auto. discriminate. Qed.

  Lemma search_spec : exists sols, findInftyRobustSolutions ord content = Ret sols /\ NoDup sols /\
    (forall r, In r sols -> length r = n /\ good r /\ forall y, length y = n -> vecLeq r y = true -> good y -> y = r) /\
    (forall y, length y = n -> good y -> exists r, In r sols /\ vecLeq y r = true).
  Proof.
    destruct (readSpec_spec (file_lines content) None false emptyDict [] L El) as (d & R & D & Len). cbn [nameOf app] in R.
    unfold findInftyRobustSolutions. rewrite getlines_spec, R. cbn [pybind]. clear R. fold marks in D, Len |- *.
    assert (Hd : forall s, d (header s) = added marks L s) by (intros s; rewrite D; now destruct s).
    change "[ENV_TRANS]"%string with (header SEnvTrans). rewrite Hd. unfold added at 1 2. rewrite unmarked_length by exact Len. fold n.
    pose proof (layout_tidy _ _ _ (file_lines_noNl content) El) as T.
    set (oracle := checkInftyRobustImplementability ord d (marked true marks (linesOf SEnvTrans L))).
    assert (OR : forall c, exists b, oracle c = Ret b /\ (b = true <-> good c)) by (intros c; apply oracle_answer; auto).
    assert (LB : forall x y, length x = n -> length y = n -> vecLeq x y = true -> below x y) by (intros x y Hx Hy; apply vecLeq_below; congruence).
    assert (OT : forall x, length x = n -> exists b, oracle x = Ret b) by (intros x _; destruct (OR x) as (b & E & _); eauto).
    destruct (recurse_total (list bool) vecEq vecLeq vecSuccessors oracle [] (fun x => length x = n)) with (rank := fun x => count_occ Bool.bool_dec x false)
      (fuel := S n) (st := mkFrontier (list bool) [] [] []) (x := repeat false n) as ([st b] & E); auto.
    { intros x a Hx Ha. destruct (succ_facts x a Ha) as (E1 & E2 & E3 & _). repeat split; congruence. }
    { intros x a _ Ha. destruct (succ_facts x a Ha) as (_ & _ & _ & E4). lia. }
    { apply repeat_length. }
    { rewrite count_repeat. lia. }
    assert (RES : getFrontierSetInLattice (list bool) vecEq vecLeq vecSuccessors oracle [] (S n) (repeat false n) = Ret (resultStorage _ st)) by (unfold getFrontierSetInLattice; now rewrite E).
    exists (resultStorage _ st). split; [exact RES|].
    destruct (frontier_spec (list bool) vecEq vecLeq vecSuccessors oracle [] (fun x => length x = n) good) with (fuel := S n) (x := repeat false n) (res := resultStorage (list bool) st) as (N & M & C); auto.
    - intros x y. apply vecEq_spec.
    - apply vecLeq_refl.
    - apply vecLeq_trans.
    - intros x a Hx Ha. destruct (succ_facts x a Ha) as (E1 & E2 & E3 & _). repeat split; congruence.
    - intros x y Hx Hy. apply succ_between. congruence.
    - intros x b' Hx Ho. destruct (OR x) as (b0 & E0 & H0). rewrite E0 in Ho. apply (f_equal (fun r => match r with Ret q => q | _ => b0 end)) in Ho. cbv beta iota in Ho. subst b'. exact H0.
    - intros x y Hx Hy Hl. apply resilient_antitone. now apply LB.
    - intros k [].
    - apply repeat_length.
    - split; [exact N|]. split; [exact M|]. intros y Hy G. apply C; auto. apply vecLeq_below; [rewrite repeat_length; congruence|now apply repeat_below].
  Qed.
End C84.

Theorem C84_maximal : forall ord content L fs,
  layout None (file_lines content) = Some L -> NoDup (declared L) -> formulas_of false (inputsFirst L) fs ->
  let marks := limitMarks None false (file_lines content) in
  let good choice := length choice = unmarked marks /\ realizable (resilientGame (inputsFirst L) fs marks choice) in
  exists sols, findInftyRobustSolutions ord content = Ret sols /\ NoDup sols /\
  (forall choice, In choice sols <-> good choice /\ forall choice', below choice choice' -> good choice' -> choice' = choice) /\
  (forall choice, good choice <-> exists sol, In sol sols /\ below choice sol).
Proof.
  intros ord content L fs El ND HF marks good. destruct (search_spec ord content L fs El ND HF) as (sols & E & N & M & C). fold marks in M, C.
  exists sols. split; [exact E|]. split; [exact N|].
  assert (BL : forall x y, below x y -> length x = length y) by (intros x y; induction 1; cbn [length]; congruence).
  split; intros choice.
  - split.
    + intros H. destruct (M choice H) as (H1 & H2 & H3). split; [now split|]. intros y B [Y1 Y2]. apply H3; auto. apply vecLeq_below; auto.
    + intros [[H1 H2] H3]. destruct (C choice H1 H2) as (r & Hr & Hl). destruct (M r Hr) as (R1 & R2 & _).
      rewrite <- (H3 r); [exact Hr| |now split]. apply vecLeq_below; congruence.
  - split.
    + intros [H1 H2]. destruct (C choice H1 H2) as (r & Hr & Hl). exists r. split; auto. destruct (M r Hr) as (R1 & _). apply vecLeq_below; congruence.
    + intros (r & Hr & B). destruct (M r Hr) as (R1 & R2 & _). split; [now rewrite (BL _ _ B)|]. now apply (resilient_antitone _ _ _ choice r).
Qed.

(** The tool reports that the specification is absolutely unrealizable if and only if it is
    unrealizable. *)
Lemma choose_none {A} (fl : list A) : forall marks k, length marks = length fl -> choose marks (repeat false k) fl = map (fun f => (f, false)) fl.
Proof.
  induction fl as [|f fl IH]; intros [|m marks] k E; try discriminate E; [reflexivity|]. injection E as E. cbn [choose map].
  destruct m; [now rewrite IH|]. destruct k as [|k]; cbn [repeat]; [specialize (IH marks 0 E); cbn [repeat] in IH; now rewrite IH|now rewrite IH].
Qed.
Theorem C84_none : forall ord content L fs sols,
  layout None (file_lines content) = Some L -> NoDup (declared L) -> formulas_of false (inputsFirst L) fs ->
  findInftyRobustSolutions ord content = Ret sols -> (sols = [] <-> ~ realizable (file_game (inputsFirst L) fs)).
Proof.
  intros ord content L fs sols El ND HF E. destruct (C84_maximal ord content L fs El ND HF) as (sols' & E' & _ & _ & C). rewrite E in E'.
  apply (f_equal (fun r => match r with Ret q => q | _ => sols end)) in E'. cbv beta iota in E'. subst sols'.
  set (marks := limitMarks None false (file_lines content)) in *. set (zero := repeat false (unmarked marks)).
  assert (LM : length marks = length (fs SEnvTrans)).
  { destruct (readSpec_spec (file_lines content) None false emptyDict [] L El) as (d & _ & _ & Len). fold marks in Len. rewrite Len.
    specialize (HF SEnvTrans eq_refl). rewrite linesOf_inputsFirst in HF. now apply F2_length in HF. }
  assert (Z : realizable (file_game (inputsFirst L) fs) <-> realizable (resilientGame (inputsFirst L) fs marks zero)).
  { assert (CH : choose marks zero (fs SEnvTrans) = map (fun f => (f, false)) (fs SEnvTrans)) by now apply choose_none.
    assert (SE : forall s t, g_safeE (resilientGame (inputsFirst L) fs marks zero) s t = g_safeE (file_game (inputsFirst L) fs) s t).
    { intros s t. unfold resilientGame, file_game. cbn [g_safeE]. rewrite CH. generalize (fs SEnvTrans). clear. induction l as [|f l IH]; cbn [map forallb fst snd orb]; congruence. }
    assert (EX : forall s t, existsb (fun p => snd p && negb (holds (fst p) (valuation s t))) (choose marks zero (fs SEnvTrans)) = false).
    { intros s t. rewrite CH. generalize (fs SEnvTrans). clear. induction l as [|f l IH]; cbn [map existsb fst snd andb orb]; auto. }
    split; (apply realizable_impl; [reflexivity|]); intros pi O I; destruct (O I) as (I' & S & G); (split; [exact I'|]); split.
    - intros n A. apply S. intros m Hm. rewrite <- SE. now apply A.
    - intros A As p Hp. unfold resilientGame in Hp. cbn [g_liveG] in Hp. apply in_map_iff in Hp. destruct Hp as (goal & <- & Hg). intros n.
      destruct (G (fun n => eq_trans (eq_sym (SE _ _)) (A n)) As goal Hg n) as (m & Hm & Ht). exists m. split; auto. now rewrite Ht.
    - intros n A. apply S. intros m Hm. rewrite SE. now apply A.
    - intros A As goal Hg n. destruct (G (fun n => eq_trans (SE _ _) (A n)) As) with (p := fun st st' => goal st st' || existsb (fun p => snd p && negb (holds (fst p) (valuation st st'))) (choose marks zero (fs SEnvTrans))) (n := n) as (m & Hm & Ht).
      + unfold resilientGame. cbn [g_liveG]. apply in_map_iff. now exists goal.
      + exists m. split; auto. now rewrite EX, orb_false_r in Ht. }
  rewrite Z. split.
  - intros -> R. destruct (proj1 (C zero)) as (r & [] & _). split; [apply repeat_length|exact R].
  - intros N. destruct sols as [|r sols]; auto. elim N. destruct (proj2 (C r)) as [Lr _]; [exists r; split; [now left|]|].
    { clear. unfold below. induction r; constructor; auto. }
    apply (proj2 (C zero)). exists r. split; [now left|]. apply repeat_below. exact Lr.
Qed.

Ltac gvar := apply g_var; [reflexivity|split; reflexivity].
(** Two assumptions of which either one (but not both) can be dropped, and one that is marked as a
    variable limit. *)
Definition resilientExample : string := ("[OUTPUT]
y
[INPUT]
a
b
c
[ENV_TRANS]
! a'
## Variable limits: 0<=c<=0
! c'
! b'
[SYS_TRANS]
| ! a' ! b'
! c'
[SYS_LIVENESS]
^ y a'
")%string.
Example C84_example : findInftyRobustSolutions (fun _ => true) resilientExample = Ret [[true; false]; [false; true]].
Proof. vm_compute. reflexivity. Qed.
Definition resilientL : items := [(SOutput, "y"); (SInput, "a"); (SInput, "b"); (SInput, "c"); (SEnvTrans, "! a'"); (SEnvTrans, "! c'"); (SEnvTrans, "! b'");
  (SSysTrans, "| ! a' ! b'"); (SSysTrans, "! c'"); (SSysLive, "^ y a'")]%string.
Definition resilientFs (s : section) : list fml :=
  match s with
  | SEnvTrans => [FNot (FVar 1); FNot (FVar 5); FNot (FVar 3)]
  | SSysTrans => [FOr (FNot (FVar 1)) (FNot (FVar 3)); FNot (FVar 5)]
  | SSysLive => [FXor (FVar 6) (FVar 1)]
  | _ => []
  end.
Example C84_example_hyps : layout None (file_lines resilientExample) = Some resilientL /\ NoDup (declared resilientL) /\ formulas_of false (inputsFirst resilientL) resilientFs /\
  limitMarks None false (file_lines resilientExample) = [false; true; false].
Proof.
  split; [vm_compute; reflexivity|]. split; [repeat constructor; cbn; intuition discriminate|]. split; [|vm_compute; reflexivity].
  intros [] Hs; try discriminate Hs; vm_compute linesOf; cbn [resilientFs]; try constructor.
  - apply g_not. gvar.
  - constructor; [apply g_not; gvar|]. constructor; [apply g_not; gvar|constructor].
  - apply (g_or _ _ _ _ _ _ ["!"; "a'"]%string ["!"; "b'"]%string); apply g_not; gvar.
  - constructor; [apply g_not; gvar|constructor].
  - apply (g_xor _ _ _ _ _ _ ["y"]%string ["a'"]%string); gvar.
  - constructor.
Qed.
Print Assumptions C84_maximal.
Print Assumptions C84_none.
