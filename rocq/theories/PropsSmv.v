(** * Property C90: the model checking problem for a strategy is the right one *)

From Coq Require Import String Ascii List Bool Arith Lia.
From Verif Require Import FormulaSpec FileSpec BDD Spec VarTypes Synth Sem FixBase AutSpec Explicit ExplicitProofs Solvers PropsExplicit Parser FileProofs ParserProofs OutputProofs
  StructuredSpec Structured StructuredProofs StructFile StructFileProofs DecoderSpec Decoder DecoderProofs PropsDecoder AigMain LtlMain GraphSpec Graph GraphProofs PropsGraph
  SmvSpec Smv SmvReadProofs SmvRunProofs SmvMain.
Import ListNotations.
Local Open Scope string_scope.

Lemma clean_name x : cleanName x -> allChars clean x = true /\ lacks "010" x.
Proof.
  unfold cleanName. intros H. split.
  - induction x as [|a x IH]; [reflexivity|]. cbn [allChars]. rewrite IH by (intros b I; apply H; cbn; auto). rewrite andb_true_r. specialize (H a (or_introl eq_refl)). unfold clean. apply negb_true_iff.
    repeat (apply orb_false_iff; split); apply Ascii.eqb_neq; intros ->; apply H; cbn; tauto.
  - apply lacks_in. intros I. apply (H _ I). cbn. tauto.
Qed.

(** The tool reads the files and writes a problem that the model checker solves with yes if and only if
    every behaviour of the automaton with a permitted initial position satisfies the safety and liveness obligation
    of the specification. *)
Theorem C90_check : forall text L fs (A : list (node * bool)),
  checkable text L fs -> numbered (length (variableNames L)) (map fst A) ->
  exists M, makeInstance text (sconcat (map (textNode (variableNames L)) A)) = Ret M /\
    (passes M <-> approved (file_game L fs) (length (variableNames L)) (map fst A)).
Proof.
  intros text L fs A (LO & ND & HF & HB & HS & NE & HC) (H1 & H2).
  assert (HN := names_nodup L ND). assert (Hin := in_ins L). assert (Hout := in_outs L).
  assert (Hv : forall v, In v (map fst A) -> length (n_vals v) = length (variableNames L)) by (intros v I; now apply H2).
  assert (Hs : forall v n, In v (map fst A) -> In n (n_succ v) -> n < length (map fst A)) by (intros v n I; now apply H2).
  destruct (specifications_spec L fs true ND HF HB HS (length (map fst A))) as (specs & ES & SP).
  exists (moduleOf (variableNames L) (linesOf SInput L) (linesOf SOutput L) (map fst A) specs). split.
  - unfold makeInstance. rewrite getlines_spec. change "" with (categoryOf None) at 1. rewrite (readSlugs_layout _ _ _ LO). cbn [pybind].
    rewrite (readAut_text _ NE HN) with (k := 0).
    2: { apply Forall_forall. intros x I. now apply clean_name, HC. }
    2: { apply Forall_forall. intros e I. apply Hv. now apply in_map. }
    2: { now rewrite H1, map_length. }
    cbn [pybind]. change "[INPUT]" with (header SInput). change "[OUTPUT]" with (header SOutput). rewrite !linesIn_linesOf.
    rewrite (stateCases_ok _ (fun k => nth k (outputs L) false) _ _ _ HN Hin Hout Hv Hs). cbn [pybind].
    rewrite (pyMapM_ret _ (fun o => ("v_" ++ o, outC (variableNames L) (linesOf SInput L) (linesOf SOutput L) (map fst A) o))).
    2: { intros o I. rewrite (outputCases_ok _ (fun k => nth k (outputs L) false) _ _ _ HN Hin Hout Hv Hs); [reflexivity|]. now apply (outs_names _ (fun k => nth k (outputs L) false) _ Hout). }
    cbn [pybind]. now rewrite length_sts, ES.
  - unfold passes, approved. cbn [g_out file_game]. split.
    + intros P pi B I1 I2. destruct (behaves_runs _ (fun k => nth k (outputs L) false) _ _ _ HN Hin Hout Hv H1 Hs specs pi B) as (r & R1 & R2 & R3).
      apply (proj1 (SP r pi R2)); auto.
    + intros AP r R f I. cbn [moduleOf m_specs] in I. revert f I. apply (proj2 (SP r _ (posOf_rel _ _ r))). intros I1 I2 I3. apply AP; auto. now apply (runs_behaves _ (fun k => nth k (outputs L) false) _ _ _ HN Hin Hout Hv Hs specs).
Qed.
Print Assumptions C90_check.

(** If the answer is yes and no state has two successors with the same input, then every path of the
    automaton that starts in a state that is permitted by SYS_INIT satisfies the specification. *)
Theorem C90_sound : forall text L fs (A : list (node * bool)) M,
  checkable text L fs -> numbered (length (variableNames L)) (map fst A) ->
  makeInstance text (sconcat (map (textNode (variableNames L)) A)) = Ret M -> passes M ->
  deterministic (file_game L fs) (length (variableNames L)) (map fst A) ->
  forall p, path (map fst A) p -> g_initS (file_game L fs) (val (p 0)) = true -> objective (file_game L fs) (AutSpec.positions p).
Proof.
  intros text L fs A M CK NB EM PS DT p HP HI. intros HE. destruct (C90_check text L fs A CK NB) as (M' & EM' & IFF). rewrite EM in EM'. injection EM' as <-. split; [exact HI|]. apply (proj1 IFF PS); auto.
  exists p. split; [intros n; now destruct (HP n)|]. split; [easy|]. intros n u F. unfold successorFor in F. apply find_some in F. destruct F as [F1 F2]. apply in_map_iff in F1. destruct F1 as (k & F1 & F3).
  destruct NB as [NB1 NB2]. destruct (HP n) as (I1 & I2 & I3). pose proof (proj2 (NB2 _ I1) k F3) as K. assert (IU : In u (map fst A)) by (subst u; now apply nth_In).
  assert (NU : n_num u = k) by (subst u; rewrite <- (map_nth n_num); change (n_num (mkNode 0 0 [] [])) with 0; rewrite NB1; now rewrite seq_nth).
  assert (EU : u = p (S n)).
  { apply (DT (p n)); [repeat split; auto; now rewrite NU|now apply HP|]. intros j Hj Ho. unfold inputMatches in F2. rewrite forallb_forall in F2. specialize (F2 j (proj2 (in_seq _ _ _) (conj (Nat.le_0_l j) Hj))). rewrite Ho in F2. cbn in F2. apply eqb_prop in F2. symmetry. exact F2. }
  split; [now symmetry|]. now rewrite EU.
Qed.
Print Assumptions C90_sound.

(** ** Strategies that slugs prints *)

Lemma basic_plain var b lo m f ws : gram var b lo m f ws -> basic f = true -> Forall (fun w => w <> "$" /\ w <> "?") ws.
Proof.
  induction 1; intros B; try discriminate B; cbn [basic] in B.
  - repeat constructor; discriminate.
  - repeat constructor; discriminate.
  - repeat constructor; intros ->; discriminate H.
  - constructor; [split; discriminate|auto].
  - apply andb_true_iff in B. destruct B. constructor; [split; discriminate|]. apply Forall_app. auto.
  - apply andb_true_iff in B. destruct B. constructor; [split; discriminate|]. apply Forall_app. auto.
Qed.
Lemma checkable_plain text L fs : checkable text L fs -> plain_file L.
Proof.
  intros (_ & _ & HF & HB & _) s line Hs I p op w q E [O|O]; exfalso; specialize (HF s Hs); assert (IL : In line (linesOf s L)) by (apply in_map_iff; exists (s, line); split; [reflexivity|]; apply filter_In; split; [exact I|]; now apply sec_eqb_eq);
    assert (BL := fun f => HB s f Hs); clear HB; induction HF as [|l f ls fl G F IH]; try contradiction;
    (destruct IL as [->|IL]; [|apply IH; [exact IL|intros; apply BL; now right]]; pose proof (basic_plain _ _ _ _ _ _ G (BL f (or_introl eq_refl))) as P; rewrite E, Forall_app in P; destruct P as [_ P]; inversion P as [|? ? [P1 P2]]; subst; contradiction).
Qed.

(** The strategy that slugs prints for a realizable specification, with or without --simpleRecovery, passes. *)
Theorem C90_slugs_passes : forall ord text L fs c alg robotics recovery A,
  checkable text L fs -> initContext ord text = POk c ->
  computeExplicit alg robotics recovery c = Some (Realizable, A) ->
  exists M, makeInstance text (render false c A) = Ret M /\ passes M.
Proof.
  intros ord text L fs c alg robotics recovery A CK IC EX. destruct (initContext_inv _ _ _ IC) as (L' & bs & LO' & ND & HV & EC). pose proof (checkable_plain _ _ _ CK) as PF. pose proof CK as (LO & _ & HF & _). rewrite LO in LO'. injection LO' as <-.
  pose proof (final_wf ord L bs HV) as W. destruct (printed_variables L bs W) as (PN & NV).
  destruct (values_formulas ord L bs ND PF HV) as (fs' & HF' & SF'). assert (SF : forall s, formulaSection s = true -> Forall2 sameFun (bs s) (fs s)) by (intros s Hs; rewrite (formulas_unique L fs fs' ND HF HF' s Hs); now apply SF').
  assert (EA : automaton alg robotics recovery c = Some (map fst A)) by (unfold automaton; now rewrite EX). rewrite <- EC in W, PN, NV. destruct (C16_numbering _ _ _ _ _ W EA) as (H1 & _ & H3).
  assert (NB : numbered (length (variableNames L)) (map fst A)) by (split; [exact H1|]; intros v I; rewrite <- NV; split; apply H3; exact I).
  cbn [render]. rewrite PN. destruct (C90_check text L fs A CK NB) as (M & EM & IFF). exists M. split; [exact EM|]. apply IFF. clear M EM IFF.
  intros pi (q & Q1 & Q2 & Q3) I1 I2.
  assert (ISy : g_initS (game_of c) (pi 0) = true) by (rewrite EC; cbn [game_of g_initS finalContext initSys]; unfold pos; rewrite (bandAll_holds _ (fs SSysInit)) by (now apply SF); exact I2).
  assert (OB : objective (game_of c) pi); [|rewrite EC in OB; apply (file_objective L bs fs SF) in OB; now apply OB].
  intros _. split; [exact ISy|]. rewrite <- NV in *.
  pose proof W as W'. destruct W' as [Hk HiE HiS HsE HsS HA HG _ _]. assert (DE : dep (isAnyV c) (safetyEnv c)) by (eapply dep_weaken; [|exact HsE]; now intros v [H _]).
  assert (STEP : forall n, same (nvars c) (pi n) (val (q n)) -> g_safeE (game_of c) (pi n) (pi (S n)) = true -> edge (map fst A) (q n) (q (S n)) /\ same (nvars c) (pi (S n)) (val (q (S n)))).
  { intros n S0 SE. assert (SE' : g_safeE (game_of c) (val (q n)) (pi (S n)) = true) by (rewrite <- SE; apply (trans_ext c Hk); [exact DE| |reflexivity]; intros k K; symmetry; now apply S0).
    destruct (C14_input_complete _ _ _ _ _ W EA (q n) (pi (S n)) (Q1 n) SE') as (u & (U1 & U2 & U3) & U4 & _).
    assert (NN : forall k, k < length (map fst A) -> n_num (nth k (map fst A) (mkNode 0 0 [] [])) = k) by (intros k K; rewrite <- (map_nth n_num); change (n_num (mkNode 0 0 [] [])) with 0; rewrite H1; now rewrite seq_nth).
    assert (UU : nth (n_num u) (map fst A) (mkNode 0 0 [] []) = u) by (apply (In_nth _ _ (mkNode 0 0 [] [])) in U2; destruct U2 as (k & K & <-); now rewrite NN).
    destruct (successorFor (g_out (file_game L fs)) (nvars c) (map fst A) (q n) (pi (S n))) as [u'|] eqn:F.
    - destruct (Q3 n u' F) as [E1 E2]. rewrite E1. split; [|exact E2]. unfold successorFor in F. apply find_some in F. destruct F as [F1 F2]. apply in_map_iff in F1. destruct F1 as (k & <- & F1). pose proof (proj2 (proj2 (proj2 (H3 _ (Q1 n)))) k F1) as K. split; [apply Q1|]. split; [now apply nth_In|]. now rewrite NN.
    - exfalso. unfold successorFor in F. apply find_none with (x := u) in F; [|apply in_map_iff; exists (n_num u); split; [exact UU|exact U3]]. rewrite <- not_true_iff_false in F. apply F. unfold inputMatches. apply forallb_forall. intros k K. apply in_seq in K.
      destruct (g_out (file_game L fs) k) eqn:O; [reflexivity|]. rewrite <- (file_out L bs fs), <- EC in O. cbn [orb]. rewrite (U4 k ltac:(lia) O). apply eqb_reflx. }
  assert (ALL : forall n, (forall m, m < n -> g_safeE (game_of c) (pi m) (pi (S m)) = true) -> same (nvars c) (pi n) (val (q n))).
  { induction n as [|n IH]; intros H; [exact Q2|]. apply STEP; [apply IH; intros; apply H; lia|apply H; lia]. }
  split.
  - intros n SE. destruct (STEP n) as [E1 E2]; [apply ALL; intros; apply SE; lia|apply SE; lia|]. destruct (proj1 (C14_safe_deterministic _ _ _ _ _ W EA) _ _ E1) as [SS _]. rewrite <- SS. apply (trans_ext c Hk); [exact HsS| |exact E2]. apply ALL. intros. apply SE. lia.
  - intros SE LA. assert (PA : path (map fst A) q) by (intros n; apply STEP; auto). assert (AG : GameExt.agree (nvars c) pi (AutSpec.positions q)) by (intros n; apply ALL; auto).
    assert (OP : g_initE (game_of c) (pi 0) = true -> objective (game_of c) pi -> forall p, In p (g_liveG (game_of c)) -> inf_often p pi) by (intros X Y; now apply Y).
    apply OP; [rewrite EC; cbn [game_of g_initE finalContext initEnv]; unfold pos; rewrite (bandAll_holds _ (fs SEnvInit)) by (now apply SF); exact I1|].
    apply (objective_agree c W pi (AutSpec.positions q) AG). intros _. split; [rewrite <- ISy; apply (pos_ext c Hk); [exact HiS|]; intros k K; symmetry; now apply (AG 0)|]. split.
    + intros n _. now apply (C14_safe_deterministic _ _ _ _ _ W EA).
    + intros SE'. destruct recovery; [|intros LA'; now apply (C15_liveness _ _ _ _ W EA)]. apply (C19_liveness _ _ _ _ W EA q PA). exists 0. intros n _. apply SE'.
Qed.
Print Assumptions C90_slugs_passes.

(** ** What is not checked *)

Definition sectionsOf (s0 : section) (l : list fml) : section -> list fml := fun s => if sec_eqb s0 s then l else [].
Definition askText : string := textOf ["[INPUT]"; "a"; "[OUTPUT]"; "b"; "[SYS_INIT]"; "a"].
Definition askItems : items := [(SInput, "a"); (SOutput, "b"); (SSysInit, "a")].
Definition askAut : list (node * bool) := [(mkNode 0 0 [true; false] [0; 1], false); (mkNode 1 0 [false; false] [0; 1], false)].
Lemma ask_checkable : checkable askText askItems (sectionsOf SSysInit [FVar 0]).
Proof.
  repeat split.
  - repeat constructor; cbn; intuition discriminate.
  - intros s Hs. destruct s; try discriminate Hs; cbn; repeat constructor.
  - intros s f Hs I. destruct s; try discriminate Hs; cbn in I; try contradiction. now destruct I as [<-|[]].
  - intros s line Hs [I|[I|[I|[]]]]; injection I as <- <-; try discriminate Hs. reflexivity.
  - discriminate.
  - intros x [<-|[<-|[]]] a [<-|[]]; cbn; intuition discriminate.
Qed.
Lemma ask_numbered : numbered 2 (map fst askAut).
Proof. split; [reflexivity|]. intros v [<-|[<-|[]]]; split; try reflexivity; cbn; intros n [<-|[<-|[]]]; lia. Qed.
(** An automaton passes, is deterministic and has a successor for every input, although the specification is
    unrealizable: nobody checks that there is an initial state for every permitted input. *)
Theorem C90_initial_refuted : exists text L fs A M, checkable text L fs /\ numbered (length (variableNames L)) (map fst A) /\ A <> [] /\
  deterministic (file_game L fs) (length (variableNames L)) (map fst A) /\
  (forall v x, In v (map fst A) -> exists u, edge (map fst A) v u /\ same_in (file_game L fs) (length (variableNames L)) (val u) x) /\
  makeInstance text (sconcat (map (textNode (variableNames L)) A)) = Ret M /\ passes M /\ ~ realizable (file_game L fs).
Proof.
  destruct (C90_check askText askItems (sectionsOf SSysInit [FVar 0]) askAut ask_checkable ask_numbered) as (M & EM & IFF).
  exists askText, askItems, (sectionsOf SSysInit [FVar 0]), askAut, M. split; [exact ask_checkable|]. split; [exact ask_numbered|]. split; [discriminate|]. split.
  { intros v u u' (_ & I & _) (_ & I' & _) SI. specialize (SI 0 ltac:(cbn; lia) eq_refl). destruct I as [<-|[<-|[]]], I' as [<-|[<-|[]]]; auto; discriminate SI. }
  split.
  { intros v x I. assert (SC : forall n, n < 2 -> In n (n_succ v)) by (intros [|[|n]] K; [| |lia]; destruct I as [<-|[<-|[]]]; cbn; auto).
    destruct (x 0) eqn:E; [exists (mkNode 0 0 [true; false] [0; 1])|exists (mkNode 1 0 [false; false] [0; 1])]; (split; [split; [exact I|]; split; [cbn; auto|apply SC; cbn; lia]|]); intros [|[|k]] K O; cbn in K, O |- *; try lia; try discriminate O; now rewrite E. }
  split; [exact EM|]. split.
  - apply IFF. intros pi _ _ _. split; [reflexivity|intros _ _ p []].
  - intros (f & H). specialize (H (fun _ _ => false) eq_refl). destruct H as [H _]. vm_compute in H. discriminate H.
Qed.
Print Assumptions C90_initial_refuted.

Definition keepText : string := textOf ["[OUTPUT]"; "b"; "[SYS_TRANS]"; "b'"].
Definition keepItems : items := [(SOutput, "b"); (SSysTrans, "b'")].
Definition keepAut : list (node * bool) := [(mkNode 0 0 [true] [0; 1], false); (mkNode 1 0 [false] [0], false)].
Lemma keep_checkable : checkable keepText keepItems (sectionsOf SSysTrans [FVar 1]).
Proof.
  repeat split.
  - repeat constructor; cbn; intuition discriminate.
  - intros s Hs. destruct s; try discriminate Hs; cbn; repeat constructor.
  - intros s f Hs I. destruct s; try discriminate Hs; cbn in I; try contradiction. now destruct I as [<-|[]].
  - intros s line Hs [I|[I|[]]]; injection I as <- <-; try discriminate Hs. reflexivity.
  - discriminate.
  - intros x [<-|[]] a [<-|[]]; cbn; intuition discriminate.
Qed.
Lemma keep_numbered : numbered 1 (map fst keepAut).
Proof. split; [reflexivity|]. intros v [<-|[<-|[]]]; split; try reflexivity; cbn; intros n; [intros [<-|[<-|[]]]|intros [<-|[]]]; lia. Qed.
(** Only the first of several successors for an input is checked. *)
Theorem C90_choice_refuted : exists text L fs A M p, checkable text L fs /\ numbered (length (variableNames L)) (map fst A) /\
  makeInstance text (sconcat (map (textNode (variableNames L)) A)) = Ret M /\ passes M /\
  path (map fst A) p /\ g_initS (file_game L fs) (val (p 0)) = true /\ ~ objective (file_game L fs) (AutSpec.positions p).
Proof.
  destruct (C90_check keepText keepItems (sectionsOf SSysTrans [FVar 1]) keepAut keep_checkable keep_numbered) as (M & EM & IFF).
  exists keepText, keepItems, (sectionsOf SSysTrans [FVar 1]), keepAut, M, (fun n => if Nat.even n then mkNode 0 0 [true] [0; 1] else mkNode 1 0 [false] [0]).
  split; [exact keep_checkable|]. split; [exact keep_numbered|]. split; [exact EM|]. split; [|split; [|split; [reflexivity|]]].
  - apply IFF. intros pi (q & Q1 & _ & Q3) _ _. split; [|intros _ _ p []]. intros n _.
    assert (E : successorFor (g_out (file_game keepItems (sectionsOf SSysTrans [FVar 1]))) (length (variableNames keepItems)) (map fst keepAut) (q n) (pi (S n)) = Some (mkNode 0 0 [true] [0; 1])) by (destruct (Q1 n) as [<-|[<-|[]]]; reflexivity).
    destruct (Q3 n _ E) as [_ S0]. specialize (S0 0 ltac:(cbn; lia)). cbn. unfold holds, valuation. cbn. now rewrite S0.
  - intros n. rewrite Nat.even_succ, <- Nat.negb_even. destruct (Nat.even n); cbn; unfold edge; cbn; auto 10.
  - intros H. destruct (H eq_refl) as (_ & H1 & _). specialize (H1 0 (fun _ _ => eq_refl)). vm_compute in H1. discriminate H1.
Qed.
Print Assumptions C90_choice_refuted.

(** A specification with the operator ^ is accepted by slugs and not by the tool, and so is one with two blanks between
    words. *)
Definition blankText : string := textOf ["[INPUT]"; "r"; "[OUTPUT]"; "g"; "[SYS_TRANS]"; "|  g' ! r'"].
Theorem C90_operators_refuted : forall text, In text [answerText; blankText] ->
  exists c A, initContext (fun _ => true) text = POk c /\ computeExplicit Basic false false c = Some (Realizable, A) /\
  makeInstance text (render false c A) = Raise.
Proof.
  intros text [<-|[<-|[]]].
  - destruct (initContext (fun _ => true) answerText) as [c|e| |] eqn:IC; try (vm_compute in IC; discriminate IC). exists c.
    vm_compute in IC. apply (f_equal (fun r => match r with POk q => q | _ => c end)) in IC. cbv beta iota in IC. subst c.
    destruct (computeExplicit Basic false false _) as [[v A]|] eqn:EX; [|vm_compute in EX; discriminate EX]. exists A.
    vm_compute in EX. apply (f_equal (fun r => match r with Some q => q | _ => (v, A) end)) in EX. cbv beta iota in EX. injection EX as <- <-.
    repeat split; vm_compute; reflexivity.
  - destruct (initContext (fun _ => true) blankText) as [c|e| |] eqn:IC; try (vm_compute in IC; discriminate IC). exists c.
    vm_compute in IC. apply (f_equal (fun r => match r with POk q => q | _ => c end)) in IC. cbv beta iota in IC. subst c.
    destruct (computeExplicit Basic false false _) as [[v A]|] eqn:EX; [|vm_compute in EX; discriminate EX]. exists A.
    vm_compute in EX. apply (f_equal (fun r => match r with Some q => q | _ => (v, A) end)) in EX. cbv beta iota in EX. injection EX as <- <-.
    repeat split; vm_compute; reflexivity.
Qed.
Print Assumptions C90_operators_refuted.

(** ** An example *)

(** A strategy of slugs that passes, and an automaton for the same specification that does not. *)
Definition followText : string := textOf ["[INPUT]"; "r"; "[OUTPUT]"; "g"; "[SYS_INIT]"; "! g"; "[SYS_TRANS]"; "| g' ! r'"; "[SYS_LIVENESS]"; "| ! g r"].
Definition followItems : items := [(SInput, "r"); (SOutput, "g"); (SSysInit, "! g"); (SSysTrans, "| g' ! r'"); (SSysLive, "| ! g r")].
Definition followFormulas (s : section) : list fml :=
  match s with SSysInit => [FNot (FVar 2)] | SSysTrans => [FOr (FVar 3) (FNot (FVar 1))] | SSysLive => [FOr (FNot (FVar 2)) (FVar 0)] | _ => [] end.
Definition badAut : list (node * bool) := [(mkNode 0 0 [false; false] [0; 1], false); (mkNode 1 0 [true; false] [0; 1], false)].
Lemma gram_app2 var b lo m f g ws vs us : gram var b lo m f ws -> gram var b lo m g vs -> us = ("|" :: ws ++ vs)%list -> gram var b lo m (FOr f g) us.
Proof. intros G H ->. now constructor. Qed.
Lemma follow_checkable : checkable followText followItems followFormulas.
Proof.
  repeat split.
  - repeat constructor; cbn; intuition discriminate.
  - intros s Hs. destruct s; try discriminate Hs; cbn [followFormulas linesOf followItems filter map fst snd sec_eqb]; repeat constructor.
    + apply (gram_app2 _ _ _ _ _ _ ["g'"] ["!"; "r'"]); [now constructor| |reflexivity]. apply g_not. now constructor.
    + apply (gram_app2 _ _ _ _ _ _ ["!"; "g"] ["r"]); [apply g_not; now constructor|now constructor|reflexivity].
  - intros s f Hs I. destruct s; try discriminate Hs; cbn in I; try contradiction; now destruct I as [<-|[]].
  - intros s line Hs I. repeat destruct I as [I|I]; try contradiction; injection I as <- <-; try discriminate Hs; reflexivity.
  - discriminate.
  - intros x [<-|[<-|[]]] a [<-|[]]; cbn; intuition discriminate.
Qed.
Example C90_example : exists c A M, checkable followText followItems followFormulas /\
  initContext (fun _ => true) followText = POk c /\ computeExplicit Basic false false c = Some (Realizable, A) /\
  length A = 3 /\ makeInstance followText (render false c A) = Ret M /\ length (m_specs M) = 2 /\ passes M /\
  exists M', makeInstance followText (sconcat (map (textNode ["r"; "g"]) badAut)) = Ret M' /\ ~ passes M'.
Proof.
  destruct (initContext (fun _ => true) followText) as [c|e| |] eqn:IC; try (vm_compute in IC; discriminate IC). exists c. pose proof IC as IC'.
  vm_compute in IC. apply (f_equal (fun r => match r with POk q => q | _ => c end)) in IC. cbv beta iota in IC. subst c.
  destruct (computeExplicit Basic false false _) as [[v A]|] eqn:EX; [|vm_compute in EX; discriminate EX]. exists A. pose proof EX as EX'.
  vm_compute in EX. apply (f_equal (fun r => match r with Some q => q | _ => (v, A) end)) in EX. cbv beta iota in EX. injection EX as <- <-.
  destruct (C90_slugs_passes _ _ _ _ _ _ _ _ _ follow_checkable IC' EX') as (M & EM & PM). exists M. split; [exact follow_checkable|]. split; [reflexivity|]. split; [reflexivity|]. split; [reflexivity|]. split; [exact EM|]. split; [|split; [exact PM|]].
  - clear PM. vm_compute in EM. injection EM as <-. reflexivity.
  - destruct (C90_check followText followItems followFormulas badAut follow_checkable) as (M' & EM' & IFF).
    { split; [reflexivity|]. intros u [<-|[<-|[]]]; split; try reflexivity; cbn; intros n [<-|[<-|[]]]; lia. }
    exists M'. split; [exact EM'|]. intros P. assert (AP := proj1 IFF P). clear P IFF EM' EM PM M IC' EX'.
    set (qa := fun n => if Nat.even n then mkNode 0 0 [false; false] [0; 1] else mkNode 1 0 [true; false] [0; 1]). destruct (AP (AutSpec.positions qa)) as [H1 _]; [|reflexivity|reflexivity|].
    + exists qa. split; [intros n; unfold qa; destruct (Nat.even n); cbn; auto|]. split; [easy|]. intros n u. unfold AutSpec.positions, qa. rewrite Nat.even_succ, <- Nat.negb_even. destruct (Nat.even n); cbn [negb]; intros E; vm_compute in E; injection E as <-; (split; [reflexivity|easy]).
    + specialize (H1 0 (fun _ _ => eq_refl)). vm_compute in H1. discriminate H1.
Qed.
