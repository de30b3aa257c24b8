(** * Property C81: translating structured slugs files

    tools/StructuredSlugsParser/compiler.py followed by slugs: the verdict is the one for the game over
    integers that the file describes (StructFileSpec.v). *)

From Coq Require Import String Ascii List Bool Arith NArith ZArith Lia.
From Coq Require Import DecimalString.
From Verif Require Import Synth FormulaSpec Parser Spec FileSpec Execute ParserProofs FileProofs PropsParser OutputProofs EstimatorText Sem MonoProofs
  StructuredSpec Structured StructGrammar StructParse StructReadProofs PropsStructParse StructFileSpec StructFile StructGameProofs StructFileProofs StructDeclProofs StructLineProofs StructTokenProofs StructConvProofs StructMain.
Import ListNotations.
Local Open Scope list_scope.

Lemma good_proper d : good d -> proper d.
Proof. destruct d; cbn; tauto. Qed.
Lemma F2_map_l {A B C} (R : B -> C -> Prop) (f : A -> B) l l' : Forall2 R (map f l) l' -> Forall2 (fun a c => R (f a) c) l l'.
Proof. revert l'. induction l as [|a l IH]; intros l' H; inversion H; subst; constructor; auto. Qed.
Lemma F2_comp {A B C} (P : A -> B -> Prop) (Q : B -> C -> Prop) l l' l'' : Forall2 P l l' -> Forall2 Q l' l'' -> Forall2 (fun a c => exists b, P a b /\ Q b c) l l''.
Proof. intros H. revert l''. induction H as [|a b l l' H F IH]; intros l'' G; inversion G; subst; constructor; eauto. Qed.
Lemma F2_mono {A B} (P Q : A -> B -> Prop) l l' : (forall a b, In a l -> P a b -> Q a b) -> Forall2 P l l' -> Forall2 Q l l'.
Proof. intros H F. induction F as [|a b l l' X F IH]; constructor; [apply H; cbn; auto|]. apply IH. intros; apply H; cbn; auto. Qed.
Lemma F2_choose {A B C} (P : A -> B -> Prop) (Q : B -> C -> Prop) l l' : Forall2 (fun a c => exists b, P a b /\ Q b c) l l' -> exists m, Forall2 P l m /\ Forall2 Q m l'.
Proof. induction 1 as [|a c l l' (b & H1 & H2) F (m & M1 & M2)]; [exists []; auto|]. exists (b :: m). auto. Qed.

(** ** The verdict *)

Theorem C81_verdict : forall thoroughly ord text out v L ins outs,
  performConversion thoroughly text = Ret out ->
  layout None (file_lines text) = Some L ->
  Forall2 declares (linesOf SInput L) ins -> Forall2 declares (linesOf SOutput L) outs ->
  (forall x mn mx, In (DInt x mn mx) (ins ++ outs) -> isWordToken x = true) ->
  NoDup (map fst (integers (ins ++ outs))) ->
  (forall s line, formulaSection s = true -> In (s, line) L -> blanksOnly line) ->
  plain_file L ->
  (N.of_nat (String.length out) < maxNumber)%N ->
  executeFile ord out = POk v ->
  exists m, (forall s, formulaSection s = true -> Forall2 (line_means ins outs) (linesOf s L) (m s)) /\
    (v = Realizable /\ intRealizable ins outs m \/ v = Unrealizable /\ intUnrealizable ins outs m).
Proof.
  intros th ord text out v L ins outs HP HL HI HO HW HN HB HPl HLen EX.
  destruct (conversion_file th text out L ins outs HP HL HI HO HW HN HB HPl HLen) as (HG & Lout & B & LO & DO & OO & PO & SEC).
  assert (IC : exists c, initContext ord out = POk c) by (unfold executeFile in EX; destruct (initContext ord out) as [c|e| |]; cbn [pbind] in EX; try discriminate; eauto).
  destruct IC as (c & IC). destruct (initContext_inv _ _ _ IC) as (L' & bs & LO' & ND & _). rewrite LO in LO'. injection LO' as <-. rewrite DO in ND.
  destruct (C41_accepted_file ord out c Lout IC LO PO) as (fs & HF & VD).
  set (k s := length (linesOf s L)). set (fs1 s := firstn (k s) (fs s)). set (fs2 s := skipn (k s) (fs s)).
  assert (FS : forall s, formulaSection s = true -> Forall2 (fun a g => exists b, (convertLine (flat_map apWords (ins ++ outs)) (rev (integers (ins ++ outs))) a = Ret b /\ (N.of_nat (String.length b) < maxNumber)%N) /\ accepted ins outs b g) (linesOf s L ++ limitsIn th ins outs s) (fs s)).
  { intros s Hs. destruct (SEC s Hs) as (S1 & S2 & _ & _). specialize (HF s Hs). rewrite S1 in HF. apply F2_map_l in HF. eapply F2_comp; [exact S2|]. eapply F2_mono; [|exact HF].
    intros b g _ Hg. cbv beta in Hg. rewrite words_strip in Hg. unfold accepted, prefixLine. revert Hg. apply gram_var_ext. intros w i [H _]. now rewrite DO in H. }
  assert (SPL : forall s, formulaSection s = true ->
     Forall2 (fun a g => exists b, (convertLine (flat_map apWords (ins ++ outs)) (rev (integers (ins ++ outs))) a = Ret b /\ (N.of_nat (String.length b) < maxNumber)%N) /\ accepted ins outs b g) (linesOf s L) (fs1 s) /\
     Forall2 (accepted ins outs) (limitsIn th ins outs s) (fs2 s)).
  { intros s Hs. specialize (FS s Hs). apply Forall2_app_inv_l in FS. destruct FS as (l1 & l2 & F1 & F2 & E). unfold fs1, fs2, k. rewrite E.
    assert (LEN : length (linesOf s L) = length l1) by (clear - F1; induction F1; cbn; auto). rewrite LEN, firstn_app, skipn_app, firstn_all, skipn_all, Nat.sub_diag. cbn [firstn skipn app]. rewrite app_nil_r. split; [exact F1|].
    eapply F2_mono; [|exact F2]. intros a g Ha (b & [E1 _] & Hg). unfold limitsIn in Ha.
    assert (X : exists n d, In d (ins ++ outs) /\ In a (limOne n d)) by (apply in_app_or in Ha; destruct Ha as [Ha|Ha]; apply in_flat_map in Ha; destruct Ha as (d0 & Hd0 & Ha); apply in_flat_map in Ha; destruct Ha as (n & _ & Ha); exists n, d0; (split; [apply in_app_iff; auto|exact Ha])).
    destruct X as (n & d & Hd & Hl). now rewrite (convert_limit ins outs HG _ n d a b Hd Hl E1) in Hg. }
  assert (MS : forall s, formulaSection s = true -> exists ms, Forall2 (line_means ins outs) (linesOf s L) ms /\
     Forall2 (fun c f => forall p q, okPos ins outs p -> okPos ins outs q -> c p q = holds f (valuation (bitState ins outs p) (bitState ins outs q))) ms (fs1 s)).
  { intros s Hs. apply F2_choose. destruct (SPL s Hs) as [F1 _]. destruct (SEC s Hs) as (_ & _ & TI & CO). eapply F2_mono; [|exact F1].
    intros a g Ha (b & [E1 LB] & Hg). rewrite Forall_forall in TI, CO. assert (BO : blanksOnly a) by (apply (HB s); [exact Hs|now apply in_linesOf]).
    destruct (convert_file ins outs HG _ a b (TI a Ha) (CO a Ha) BO E1) as [->|(NP & f & HR & HT)].
    - eexists. split; [apply lm_prefix; exact Hg|]. reflexivity.
    - eexists. split; [apply (lm_infix _ _ _ f NP HR)|]. intros p q Op Oq.
      destruct (translate_gram ins outs HG _ (D_decl ins outs HN) a f b HR HT LB) as (g' & Hg' & DEN). apply sig_prefix in Hg'.
      rewrite (accepted_unique ins outs ND b g g' Hg Hg'). unfold holds. rewrite DEN. apply truth_ext; [intros x; symmetry; now apply limits_rev|].
      intros n x. rewrite (intValue_ext _ (integers (ins ++ outs)) _ _ (limits_rev ins outs HN)). symmetry. now apply integerAt_spec. }
  destruct (section_choice [] _ MS) as (m & Hm). exists m. split; [intros s Hs; now apply Hm|].
  assert (Hproper : Forall proper ins /\ Forall proper outs) by (rewrite <- Forall_app; eapply Forall_impl; [|exact HG]; apply good_proper).
  assert (Hfs : forall s, fs s = fs1 s ++ fs2 s) by (intros s; unfold fs1, fs2; symmetry; apply firstn_skipn).
  assert (Hdep : forall s f, formulaSection s = true -> In f (fs s) -> forall e e',
    (forall i, Nat.div2 i < total ins + total outs -> may_use s (nth (Nat.div2 i) (outputs Lout) false) (Nat.odd i) = true -> e i = e' i) -> holds f e = holds f e').
  { intros s f Hs Hf e e' He. destruct (Forall2_in_r _ _ _ _ (HF s Hs) Hf) as (line & _ & Hg). assert (EQ : den e [] f = den e' [] f); [|unfold holds; now rewrite EQ].
    assert (EV : forall w i, file_var Lout s w i -> e i = e' i); [|exact (proj1 (den_ext_env (file_var Lout s) maxNumber true e e' EV) 0 f (words line) Hg [])].
    intros w i [Hi Hu]. apply He; [|exact Hu]. assert (LT : i < length (declared Lout)) by (apply nth_error_Some; congruence). rewrite DO in LT. unfold allNames in LT.
    assert (LL : forall l : list string, length (flat_map (fun w => [w; (w ++ "'")%string]) l) = 2 * length l) by (induction l as [|z l IH]; cbn; lia).
    rewrite LL, names_total in LT. unfold total in LT |- *. rewrite map_app, list_sum_app in LT. rewrite Nat.div2_div. apply Nat.div_lt_upper_bound; lia. }
  assert (Hlim : forall s nx ny st st', inNexts th s = nx -> outNexts th s = ny -> formulaSection s = true ->
    (forallb (fun g => holds g (valuation st st')) (fs2 s) = true <-> (forall n, In n nx -> inRange ins (bitsAt st st' n 0 (total ins))) /\ (forall n, In n ny -> inRange outs (bitsAt st st' n (total ins) (total outs))))).
  { intros s nx ny st st' <- <- Hs. destruct (SPL s Hs) as [_ F2]. unfold limitsIn in F2. apply Forall2_app_inv_l in F2. destruct F2 as (g1 & g2 & G1 & G2 & ->). rewrite forallb_app, andb_true_iff.
    rewrite (lim_decls ins outs HG ND st st' (inNexts th s) ins [] outs g1) by auto.
    rewrite (lim_decls ins outs HG ND st st' (outNexts th s) outs ins [] g2) by (rewrite ?app_nil_r; auto). reflexivity. }
  assert (Hei : forall st, forallb (fun f => holds f (valuation st st)) (fs2 SEnvInit) = true <-> inRange ins (bitsI ins st)).
  { intros st. rewrite (Hlim SEnvInit [false] [] st st) by reflexivity. split; [intros [H _]; apply (H false); now left|intros H; split; [intros n [<-|[]]; exact H|intros n []]]. }
  assert (Hsi : forall st, forallb (fun f => holds f (valuation st st)) (fs2 SSysInit) = true <-> inRange outs (bitsO ins outs st)).
  { intros st. rewrite (Hlim SSysInit [] [false] st st) by reflexivity. split; [intros [_ H]; apply (H false); now left|intros H; split; [intros n []|intros n [<-|[]]; exact H]]. }
  assert (Het : forall st st', forallb (fun f => holds f (valuation st st')) (fs2 SEnvTrans) = true <-> inRange ins (bitsI ins st') /\ (th = true -> inRange ins (bitsI ins st))).
  { intros st st'. rewrite (Hlim SEnvTrans (if th then [false; true] else [true]) [] st st') by reflexivity. split.
    - intros [H _]. split; [apply (H true); destruct th; cbn; auto|]. intros ->. apply (H false). now left.
    - intros [H1 H2]. split; [|intros n []]. intros [] Hn; [exact H1|]. destruct th; [now apply H2|]. destruct Hn as [Hn|[]]; discriminate. }
  assert (Hst : forall st st', forallb (fun f => holds f (valuation st st')) (fs2 SSysTrans) = true <-> inRange outs (bitsO ins outs st') /\ (th = true -> inRange outs (bitsO ins outs st))).
  { intros st st'. rewrite (Hlim SSysTrans [] (if th then [false; true] else [true]) st st') by reflexivity. split.
    - intros [_ H]. split; [apply (H true); destruct th; cbn; auto|]. intros ->. apply (H false). now left.
    - intros [H1 H2]. split; [intros n []|]. intros [] Hn; [exact H1|]. destruct th; [now apply H2|]. destruct Hn as [Hn|[]]; discriminate. }
  assert (Hlive : fs2 SEnvLive = [] /\ fs2 SSysLive = []).
  { split; [destruct (SPL SEnvLive eq_refl) as [_ F]|destruct (SPL SSysLive eq_refl) as [_ F]]; unfold limitsIn in F; cbn [inNexts outNexts flat_map] in F;
      (assert (Z : forall l : list declaration, flat_map (fun _ : declaration => @nil string) l = []) by (induction l; auto)); rewrite !Z in F; inversion F; reflexivity. }
  assert (Hrel := fun s Hs => proj2 (Hm s Hs)). cbv beta in Hrel.
  destruct VD as [[V R]|[V U]]; rewrite EX in V; injection V as ->; [left|right]; (split; [reflexivity|]).
  - exact (game_realizable ins outs m Lout fs fs1 fs2 th Hproper OO Hfs Hdep Hrel Hei Hsi Het Hst Hlive R).
  - exact (game_unrealizable ins outs m Lout fs fs1 fs2 th Hproper OO Hfs Hdep Hrel Hei Hsi Het Hst Hlive U).
Qed.
Print Assumptions C81_verdict.

(** A line has at most one meaning, so that the theorem above describes one game. *)
Theorem C81_meaning : forall ins outs line c c',
  NoDup (allNames ins outs) -> line_means ins outs line c -> line_means ins outs line c' -> forall p q, c p q = c' p q.
Proof.
  intros ins outs line c c' ND H H' p q. destruct H as [f Hf|f NP Hf]; destruct H' as [f' Hf'|f' NP' Hf'].
  - now rewrite (accepted_unique ins outs ND line f f' Hf Hf').
  - now apply NP' in Hf.
  - now apply NP in Hf'.
  - now rewrite (C80_unique _ _ _ _ Hf Hf').
Qed.
Print Assumptions C81_meaning.

(** Meanings that agree on all positions describe the same game. *)
Definition sameMeaning (ins outs : list declaration) (c c' : position -> position -> bool) : Prop :=
  forall p q, okPos ins outs p -> okPos ins outs q -> c p q = c' p q.
Lemma all_ext ins outs cs cs' p q : Forall2 (sameMeaning ins outs) cs cs' -> okPos ins outs p -> okPos ins outs q -> forallb (fun c => c p q) cs = forallb (fun c => c p q) cs'.
Proof. intros F Hp Hq. induction F as [|c c' l l' H F IH]; [reflexivity|]. cbn [forallb]. rewrite IH. now rewrite (H p q Hp Hq). Qed.
Lemma inf_ext ins outs c c' pi : sameMeaning ins outs c c' -> (forall n, okPos ins outs (pi n)) -> infinitelyOften c pi -> infinitelyOften c' pi.
Proof. intros H Hp I n. destruct (I n) as (k & LE & E). exists k. split; [exact LE|]. now rewrite <- H. Qed.
Lemma same_sym ins outs cs cs' : Forall2 (sameMeaning ins outs) cs cs' -> Forall2 (sameMeaning ins outs) cs' cs.
Proof. induction 1 as [|c c' l l' H F IH]; constructor; auto. intros p q Hp Hq. symmetry. now apply H. Qed.
Lemma objective_ext ins outs m m' pi : (forall s, formulaSection s = true -> Forall2 (sameMeaning ins outs) (m s) (m' s)) -> (forall n, okPos ins outs (pi n)) -> intObjective m pi -> intObjective m' pi.
Proof.
  intros H Hp O. assert (A : forall s p q, formulaSection s = true -> okPos ins outs p -> okPos ins outs q -> allOf m' s p q = allOf m s p q) by (intros s p q Hs X Y; symmetry; apply (all_ext ins outs); auto).
  unfold intObjective in *. intros EI. rewrite A in EI by auto. destruct (O EI) as (O1 & O2 & O3). split; [now rewrite A by auto|]. split.
  - intros n E. rewrite A by auto. apply O2. intros k LE. rewrite <- (A SEnvTrans) by auto. now apply E.
  - intros E EL c' Hc'. destruct (Forall2_in_r _ _ _ _ (H SSysLive eq_refl) Hc') as (c & Hc & S). apply (inf_ext ins outs c c' pi S Hp). apply O3; auto.
    + intros n. rewrite <- (A SEnvTrans) by auto. apply E.
    + intros d Hd. destruct (Forall2_in_l _ _ _ _ (H SEnvLive eq_refl) Hd) as (d' & Hd' & S'). apply (inf_ext ins outs d' d pi); [intros p q X Y; symmetry; now apply S'|exact Hp|]. now apply EL.
Qed.
Lemma play_ok ins outs f x : fitting outs f -> fittingInputs ins x -> forall n, okPos ins outs (intPlay f x n).
Proof. intros Hf Hx n. unfold intPlay. destruct n; cbn [intHistory hd]; (split; [apply Hx|apply Hf]). Qed.
Lemma realizable_ext ins outs m m' : (forall s, formulaSection s = true -> Forall2 (sameMeaning ins outs) (m s) (m' s)) -> intRealizable ins outs m -> intRealizable ins outs m'.
Proof. intros H (f & Hf & W). exists f. split; [exact Hf|]. intros x Hx. apply (objective_ext ins outs m m'); [exact H|now apply play_ok|now apply W]. Qed.
Lemma unrealizable_ext ins outs m m' : (forall s, formulaSection s = true -> Forall2 (sameMeaning ins outs) (m s) (m' s)) -> intUnrealizable ins outs m -> intUnrealizable ins outs m'.
Proof. intros H W f Hf. destruct (W f Hf) as (x & Hx & N). exists x. split; [exact Hx|]. intros O. apply N. apply (objective_ext ins outs m' m); [intros s Hs; apply same_sym; auto|now apply play_ok|exact O]. Qed.
Lemma not_both ins outs m : intRealizable ins outs m -> intUnrealizable ins outs m -> False.
Proof. intros (f & Hf & W) U. destruct (U f Hf) as (x & Hx & N). now apply N, W. Qed.

(** The verdict for a given meaning of the lines. *)
Theorem C81_exact : forall thoroughly ord text out v L ins outs m,
  performConversion thoroughly text = Ret out ->
  layout None (file_lines text) = Some L ->
  Forall2 declares (linesOf SInput L) ins -> Forall2 declares (linesOf SOutput L) outs ->
  (forall x mn mx, In (DInt x mn mx) (ins ++ outs) -> isWordToken x = true) ->
  NoDup (map fst (integers (ins ++ outs))) ->
  (forall s line, formulaSection s = true -> In (s, line) L -> blanksOnly line) ->
  plain_file L ->
  (N.of_nat (String.length out) < maxNumber)%N ->
  executeFile ord out = POk v ->
  (forall s, formulaSection s = true -> Forall2 (line_means ins outs) (linesOf s L) (m s)) ->
  (v = Realizable <-> intRealizable ins outs m) /\ (v = Unrealizable <-> intUnrealizable ins outs m).
Proof.
  intros th ord text out v L ins outs m HP HL HI HO HW HN HB HPl HLen EX HM.
  destruct (C81_verdict th ord text out v L ins outs HP HL HI HO HW HN HB HPl HLen EX) as (m' & Hm' & V).
  assert (ND : NoDup (allNames ins outs)).
  { destruct (conversion_file th text out L ins outs HP HL HI HO HW HN HB HPl HLen) as (HG & Lout & B & LO & DO & _).
    unfold executeFile in EX. destruct (initContext ord out) as [c|e| |] eqn:IC; cbn [pbind] in EX; try discriminate.
    destruct (initContext_inv _ _ _ IC) as (L' & bs & LO' & ND & _). rewrite LO in LO'. injection LO' as <-. now rewrite DO in ND. }
  assert (EQ : forall s, formulaSection s = true -> Forall2 (sameMeaning ins outs) (m' s) (m s)).
  { intros s Hs. specialize (Hm' s Hs). specialize (HM s Hs). revert HM. generalize (m s). induction Hm' as [|a c l l' H F IH]; intros l'' G; inversion G; subst; constructor; auto.
    intros p q _ _. now apply (C81_meaning ins outs a). }
  assert (EQ' : forall s, formulaSection s = true -> Forall2 (sameMeaning ins outs) (m s) (m' s)) by (intros s Hs; apply same_sym; auto).
  destruct V as [[-> V]|[-> V]]; split; split; intros H; try discriminate; try reflexivity.
  - now apply (realizable_ext ins outs m').
  - apply (unrealizable_ext ins outs m m' EQ') in H. elim (not_both _ _ _ V H).
  - apply (realizable_ext ins outs m m' EQ') in H. elim (not_both _ _ _ H V).
  - now apply (unrealizable_ext ins outs m').
Qed.
Print Assumptions C81_exact.

(** If the translation succeeds, then all variables are properly declared. *)
Theorem C81_declarations : forall thoroughly text out L,
  performConversion thoroughly text = Ret out ->
  layout None (file_lines text) = Some L ->
  (forall s line x mn mx, In (s, line) L -> formulaSection s = false -> declares line (DInt x mn mx) -> isWordToken x = true) ->
  exists ins outs, Forall2 declares (linesOf SInput L) ins /\ Forall2 declares (linesOf SOutput L) outs.
Proof.
  intros th text out L HP HL HW. unfold performConversion in HP. rewrite getlines_spec in HP.
  destruct (read_spec' (file_lines text) None emptyDict L (FastSlowFile.file_lines_noNl _) HL) as (d & add & E1 & E2 & T & K & U). cbn [MinCoreProofs.nameOf] in E1. rewrite E1 in HP. cbn [pybind] in HP.
  assert (Ed : forall k, d k = add k) by (intros k; rewrite E2; reflexivity).
  assert (KS : forall s, filter content (d (header s)) = linesOf s L) by (intros s; rewrite Ed, K; apply keyLines_header).
  unfold ioKeys in HP. cbn [declareAll] in HP. set (st0 := mkConv emptyDict [] [] d) in *.
  destruct (declareLines th "[INPUT]" (d "[INPUT]"%string) st0) as [st1| |] eqn:D1; cbn [pybind] in HP; try discriminate.
  destruct (declareLines th "[OUTPUT]" (d "[OUTPUT]"%string) st1) as [st2| |] eqn:D2; cbn [pybind] in HP; try discriminate.
  apply declareLines_spec in D1; [|rewrite Ed; apply T|].
  2:{ intros line x mn mx Hl. apply (HW SInput); [|reflexivity]. apply in_linesOf. rewrite <- KS. exact Hl. }
  apply declareLines_spec in D2; [|rewrite Ed; apply T|].
  2:{ intros line x mn mx Hl. apply (HW SOutput); [|reflexivity]. apply in_linesOf. rewrite <- KS. exact Hl. }
  destruct D1 as (_ & _ & ds1 & _ & _ & _ & _ & _ & _ & _ & _ & F1 & _). destruct D2 as (_ & _ & ds2 & _ & _ & _ & _ & _ & _ & _ & _ & F2 & _).
  exists ds1, ds2. split; [rewrite <- (KS SInput); exact F1|rewrite <- (KS SOutput); exact F2].
Qed.
Print Assumptions C81_declarations.

(** ** An example *)

Definition isBlankOnly (l : string) : bool := forallb (fun a => negb (isWs a) || Ascii.eqb a " ") (list_ascii_of_string l).
Lemma isBlankOnly_spec l : isBlankOnly l = true -> blanksOnly l.
Proof. unfold isBlankOnly. rewrite forallb_forall. intros H a Ha W. apply H in Ha. rewrite W in Ha. cbn in Ha. now apply Ascii.eqb_eq. Qed.

Definition exampleText : string := String.concat (String "010" "")
  ["[INPUT]"; "x:1...3"; "r"; ""; "[OUTPUT]"; "y : 2...5"; "[SYS_INIT]"; "y = 2"; "[SYS_TRANS]"; "# follow"; "y' = x' + 1 | ! r'"; "[SYS_LIVENESS]"; "| r ! r"; "y < 5"]%string.
Definition exampleIns : list declaration := [DInt "x" 1 3; DBool "r"].
Definition exampleOuts : list declaration := [DInt "y" 2 5].

Lemma exampleIns_ok L : layout None (file_lines exampleText) = Some L -> Forall2 declares (linesOf SInput L) exampleIns.
Proof.
  intros E. vm_compute in E. injection E as <-. vm_compute linesOf. constructor; [|constructor; [|constructor]].
  - apply (d_int _ "x" "1...3" "1" "3" 1 3); try reflexivity; try (cbn; intuition discriminate).
    + exists ""%string, "1"%string, 1%N. split; [reflexivity|]. split; [vm_compute; repeat split; discriminate|left; auto].
    + exists ""%string, "3"%string, 3%N. split; [reflexivity|]. split; [vm_compute; repeat split; discriminate|left; auto].
  - apply d_bool. cbn. intuition discriminate.
Qed.
Lemma exampleOuts_ok L : layout None (file_lines exampleText) = Some L -> Forall2 declares (linesOf SOutput L) exampleOuts.
Proof.
  intros E. vm_compute in E. injection E as <-. vm_compute linesOf. constructor; [|constructor].
  apply (d_int _ "y " " 2...5" "2" "5" 2 5); try reflexivity; try (cbn; intuition discriminate).
  - exists ""%string, "2"%string, 2%N. split; [reflexivity|]. split; [vm_compute; repeat split; discriminate|left; auto].
  - exists ""%string, "5"%string, 5%N. split; [reflexivity|]. split; [vm_compute; repeat split; discriminate|left; auto].
Qed.

Example C81_example : exists L m, layout None (file_lines exampleText) = Some L /\
  (forall s, formulaSection s = true -> Forall2 (line_means exampleIns exampleOuts) (linesOf s L) (m s)) /\
  length (m SSysTrans) = 1 /\ length (m SSysLive) = 2 /\ intRealizable exampleIns exampleOuts m.
Proof.
  destruct (layout None (file_lines exampleText)) as [L|] eqn:EL; [|vm_compute in EL; discriminate]. exists L.
  destruct (performConversion false exampleText) as [out| |] eqn:EP; try (vm_compute in EP; discriminate).
  assert (EO := EP). vm_compute in EO. apply (f_equal (fun r => match r with Ret q => q | _ => ""%string end)) in EO. cbv beta iota in EO.
  destruct (C81_verdict false (fun _ => true) exampleText out Realizable L exampleIns exampleOuts EP EL (exampleIns_ok L EL) (exampleOuts_ok L EL)) as (m & Hm & V).
  - intros x mn mx H. cbn in H. destruct H as [H|[H|[H|[]]]]; try discriminate H; injection H as <- _ _; reflexivity.
  - cbn. constructor; [cbn; intuition discriminate|]. constructor; [intros []|constructor].
  - intros s line Hs Hl. apply isBlankOnly_spec. assert (EL' := EL). vm_compute in EL'. injection EL' as <-. cbn in Hl.
    repeat (destruct Hl as [Hl|Hl]; [injection Hl as <- <-; reflexivity|]). destruct Hl.
  - intros s line Hs Hl. apply plainB_spec. assert (EL' := EL). vm_compute in EL'. injection EL' as <-. cbn in Hl.
    repeat (destruct Hl as [Hl|Hl]; [injection Hl as <- <-; reflexivity|]). destruct Hl.
  - rewrite <- EO. vm_compute. reflexivity.
  - rewrite <- EO. vm_compute. reflexivity.
  - exists m. split; [reflexivity|]. split; [exact Hm|].
    assert (LE : forall s, formulaSection s = true -> length (linesOf s L) = length (m s)) by (intros s Hs; specialize (Hm s Hs); clear - Hm; induction Hm; cbn; auto).
    rewrite <- !LE by reflexivity. assert (EL' := EL). vm_compute in EL'. injection EL' as <-. split; [reflexivity|]. split; [reflexivity|]. destruct V as [[_ V]|[V _]]; [exact V|discriminate V].
Qed.

(** ** Property C82: duplicate declarations

    A variable that is declared twice should be reported.  For an integer variable, neither program does so if
    the ranges differ: the two declarations yield bits with different names, and the formulas refer to the
    last declaration. *)
Definition duplicateText : string := String.concat (String "010" "") ["[INPUT]"; "x:0...1"; "[OUTPUT]"; "x:0...2"; "[SYS_TRANS]"; "x' > 1"]%string.
Theorem C82_refuted : exists text out L v, performConversion false text = Ret out /\ layout None (file_lines text) = Some L /\
  In (SInput, "x:0...1"%string) L /\ In (SOutput, "x:0...2"%string) L /\ executeFile (fun _ => true) out = POk v.
Proof.
  exists duplicateText. destruct (performConversion false duplicateText) as [out| |] eqn:EP; try (vm_compute in EP; discriminate).
  destruct (layout None (file_lines duplicateText)) as [L|] eqn:EL; [|vm_compute in EL; discriminate]. exists out, L, Realizable.
  vm_compute in EP. apply (f_equal (fun r => match r with Ret q => q | _ => ""%string end)) in EP. cbv beta iota in EP. subst out.
  vm_compute in EL. injection EL as <-. split; [reflexivity|]. split; [reflexivity|]. split; [cbn; auto|]. split; [cbn; auto|]. vm_compute. reflexivity.
Qed.
Print Assumptions C82_refuted.

(** Otherwise duplicates are found: if no integer variable is declared twice, then slugs accepts the translation
    only if all names are different.  Missing: integer variables with different ranges. *)
Theorem C82_distinct_partial : forall thoroughly ord text out c L ins outs,
  performConversion thoroughly text = Ret out ->
  layout None (file_lines text) = Some L ->
  Forall2 declares (linesOf SInput L) ins -> Forall2 declares (linesOf SOutput L) outs ->
  (forall x mn mx, In (DInt x mn mx) (ins ++ outs) -> isWordToken x = true) ->
  NoDup (map fst (integers (ins ++ outs))) ->
  (forall s line, formulaSection s = true -> In (s, line) L -> blanksOnly line) ->
  plain_file L ->
  (N.of_nat (String.length out) < maxNumber)%N ->
  initContext ord out = POk c ->
  NoDup (flat_map namesOfBits (ins ++ outs)).
Proof.
  intros th ord text out c L ins outs HP HL HI HO HW HN HB HPl HLen IC.
  destruct (conversion_file th text out L ins outs HP HL HI HO HW HN HB HPl HLen) as (HG & Lout & B & LO & DO & OO & PO & SEC).
  destruct (initContext_inv _ _ _ IC) as (L' & bs & LO' & ND & _). rewrite LO in LO'. injection LO' as <-. rewrite DO in ND. clear - ND. unfold allNames in ND.
  revert ND. generalize (flat_map namesOfBits (ins ++ outs)). induction l as [|w l IH]; intros ND; constructor; cbn [flat_map app] in ND; apply NoDup_cons_iff in ND; destruct ND as [N1 ND].
  - intros H. apply N1. right. apply in_flat_map. exists w. cbn. auto.
  - apply IH. apply NoDup_cons_iff in ND. tauto.
Qed.
Print Assumptions C82_distinct_partial.

Example C82_example : exists text, match performConversion false text with Ret out => match initContext (fun _ => true) out with POk _ => false | _ => true end | _ => false end = true /\
  text = String.concat (String "010" "") ["[INPUT]"; "x:0...1"; "b"; "[OUTPUT]"; "y:0...1"; "b"]%string.
Proof. eexists. split; [|reflexivity]. vm_compute. reflexivity. Qed.
