(** * C97: circuits for structured slugs files

    Structured safety files are translated by tools/StructuredSlugsParser/compiler.py and then by
    tools/translateSafetySlugsSpecToSyntCompAIGFormat.py, as examples/benchmark_generators/cinderella_stepmother.py does in lines
    112-124 with the option --makeAAGBenchmarks.  Not modelled: the passes of the tools aigtoaig and abc in lines 126-148. *)

From Coq Require Import String Ascii List Bool Arith NArith ZArith Lia.
From Verif Require Import FormulaSpec Parser Spec FileSpec ParserProofs FastSlowFile AigMain AigSpec Aig PropsAig OutputProofs SymbolicProofs EstimatorText MonoProofs StructuredSpec StructGrammar StructFileSpec StructAcceptSpec Synth Execute Structured StructParse StructReadProofs PropsStructParse StructFile StuckSpec FileProofs Explicit MinCoreProofs PropsStructured PropsStructFile StructFileProofs StructGameProofs StructDeclProofs StructLineProofs StructTokenProofs StructConvProofs StructMain StuckProofs DecoderProofs StructAccept StructVerdict PropsParser
  StructBlanks CinderellaSpec Cinderella CinderellaProofs CinderellaFile PropsCinderella PropsStructAccept.
Import ListNotations.
Local Open Scope string_scope.
Local Open Scope list_scope.

(** ** The inputs *)
Lemma input_at : forall L N, declared L = flat_map (fun w => [w; (w ++ "'")%string]) N ->
  forall w, In w (linesOf SInput L) -> exists k, nth_error N k = Some w /\ nth_error (FileSpec.outputs L) k = Some false.
Proof.
  induction L as [|[s l] L IH]; intros N E w Hw; [destruct Hw|]. unfold declared, FileSpec.outputs, linesOf in *. cbn [flat_map fst snd filter] in *.
  assert (Q : forall b, l :: (l ++ "'")%string :: flat_map (fun p : section * string => match fst p with SInput | SOutput => [snd p; (snd p ++ "'")%string] | _ => [] end) L = flat_map (fun w => [w; (w ++ "'")%string]) N ->
    (b = false /\ w = l) \/ In w (map snd (filter (fun p => sec_eqb (fst p) SInput) L)) ->
    exists k, nth_error N k = Some w /\ nth_error (b :: flat_map (fun p : section * string => match fst p with SInput => [false] | SOutput => [true] | _ => [] end) L) k = Some false).
  { intros b E' Hb. destruct N as [|v N]; [discriminate E'|]. cbn [flat_map app] in E'. assert (v = l) by congruence. subst v.
    assert (E2 := f_equal (fun x => tl (tl x)) E'). cbn [tl] in E2. destruct Hb as [[-> ->]|Hb]; [exists 0; auto|]. destruct (IH N E2 w Hb) as (k & K1 & K2). exists (S k). auto. }
  destruct s; cbn [sec_eqb map app] in *; try (now apply IH).
  - apply Q; [exact E|]. destruct Hw as [<-|Hw]; auto.
  - apply Q; [exact E|]. auto.
Qed.
Lemma prefix_at p : ~ occursIn "@" p -> forall x r, prefix p (x ++ String "@" r) = true -> prefix p x = true.
Proof.
  unfold occursIn. induction p as [|a p IH]; intros NO x r H; [now destruct x|]. cbn [list_ascii_of_string In] in NO. destruct x as [|b x]; cbn [append prefix] in *.
  - destruct (ascii_dec a "@"); [elim NO; auto|discriminate].
  - destruct (ascii_dec a b); [|discriminate]. eapply IH; [tauto|exact H].
Qed.
Lemma prefix_names d v : prefix "controllable_" (nameOfDecl d) = false -> In v (namesOfBits d) -> prefix "controllable_" v = false.
Proof.
  intros H Hv. destruct d as [x|x mn mx]; cbn [namesOfBits nameOfDecl] in *; [destruct Hv as [<-|[]]; exact H|]. unfold bitNames in Hv. apply in_map_iff in Hv. destruct Hv as (i & <- & _).
  destruct (prefix "controllable_" (bitName x mn mx i)) eqn:E; [|reflexivity]. rewrite <- H. symmetry. unfold bitName in E. change ("@" ++ ?s)%string with (String "@" s) in E. eapply prefix_at; [|exact E].
  unfold occursIn. cbn. intuition discriminate.
Qed.

Lemma circuit_file th text out L ins outs :
  performConversion th text = Ret out ->
  layout None (file_lines text) = Some L ->
  Forall2 plainDeclaration (linesOf SInput L) ins -> Forall2 plainDeclaration (linesOf SOutput L) outs ->
  NoDup (map fst (integers (ins ++ outs))) ->
  (forall s line, formulaSection s = true -> In (s, line) L -> blanksOnly line /\ allowedLine ins outs s line) ->
  plain_file L -> (N.of_nat (String.length out) < maxNumber)%N ->
  safety_only L ->
  (forall s line, formulaSection s = true -> In (s, line) L -> infixOnly ins outs line \/ String.concat " " (words line) = line) ->
  (forall d, In d ins -> prefix "controllable_" (nameOfDecl d) = false) ->
  forall Lout, layout None (file_lines out) = Some Lout ->
  safety_only Lout /\ single_blanks Lout /\ forall w, In w (linesOf SInput Lout) -> prefix "controllable_" w = false.
Proof.
  intros HP HL PI PO HN HF HPl HLen [SO1 SO2] HS HC Lout0 LO0.
  assert (HW : forall x mn mx, In (DInt x mn mx) (ins ++ outs) -> isWordToken x = true).
  { intros x mn mx H. apply in_app_or in H. destruct H as [H|H]; [destruct (Forall2_in_r _ _ _ _ PI H) as (l & _ & X)|destruct (Forall2_in_r _ _ _ _ PO H) as (l & _ & X)]; eapply plain_token; eauto. }
  destruct (conversion_full th text out L ins outs HP HL (F2_declares _ _ PI) (F2_declares _ _ PO) HW HN (fun s l Hs Hl => proj1 (HF s l Hs Hl)) HPl HLen) as (HG & Lout & B & _ & LO & DO & OO & PLo & SEC).
  assert (Lout0 = Lout) by congruence. subst Lout0. split; [|split].
  - assert (X : forall s, s = SEnvLive \/ s = SSysLive -> linesOf s Lout = []).
    { intros s Hs. destruct (SEC s) as (S1 & S2 & _); [destruct Hs as [->| ->]; reflexivity|]. rewrite S1.
      assert (Z : linesOf s L ++ limitsIn th ins outs s = []).
      { assert (Y : forall ds : list declaration, flat_map (fun d => flat_map (fun n => limOne n d) []) ds = []) by (induction ds; auto).
        destruct Hs as [->| ->]; rewrite ?SO1, ?SO2; unfold limitsIn; cbn [inNexts outNexts app]; now rewrite !Y. }
      rewrite Z in S2. now inversion S2. }
    split; apply X; auto.
  - intros s line Hs Hl. destruct (SEC s Hs) as (S1 & S2 & S3 & S4). apply in_linesOf in Hl. rewrite S1 in Hl. apply in_map_iff in Hl. destruct Hl as (b & <- & Hb). rewrite words_strip.
    destruct (Forall2_in_r _ _ _ _ S2 Hb) as (a & Ha & Eab & Lb).
    assert (SOL : solid b -> String.concat " " (words b) = strip b) by (intros Sb; rewrite (solid_strip b Sb); apply (proj2 (solid_words b Sb))).
    apply in_app_or in Ha. destruct Ha as [Ha|Ha].
    + rewrite Forall_forall in S3, S4. pose proof (S3 a Ha) as (T1 & T2 & T3). pose proof (S4 a Ha) as Ca. apply in_linesOf in Ha. destruct (HF s a Hs Ha) as (Bl & AL).
      unfold convertLine in Eab. rewrite trim_spec, T1 in Eab. unfold content in Ca. apply negb_true_iff in Ca. rewrite Ca in Eab.
      assert (IT : isValidRecursiveSlugsProperty (flat_map apWords (ins ++ outs)) (splitChar " " a) = false -> solid b).
      { intros V. rewrite V in Eab. destruct (parseLTL (flat_map apWords (ins ++ outs)) a) as [f|] eqn:R; [|discriminate]. eapply translate_solid; [exact Eab|]. apply C80_reads in R. apply (reads_tokens _ _ _ R). }
      destruct (isValidRecursiveSlugsProperty (flat_map apWords (ins ++ outs)) (splitChar " " a)) eqn:V; [|auto].
      assert (b = a) as -> by congruence. destruct (HS s a Hs Ha) as [IO|SB]; [rewrite (infix_not_copied ins outs a Bl IO) in V; discriminate|]. now rewrite T1.
    + assert (X : exists n d0, In d0 (ins ++ outs) /\ In a (limOne n d0)).
      { unfold limitsIn in Ha. apply in_app_or in Ha. destruct Ha as [Ha'|Ha']; apply in_flat_map in Ha'; destruct Ha' as (d0 & Hd0 & Ha'); apply in_flat_map in Ha'; destruct Ha' as (n & Hn & Ha'); exists n, d0; split; auto; apply in_app_iff; auto. }
      destruct X as (n & d0 & Hd & Hl). pose proof (convert_limit ins outs HG (rev (integers (ins ++ outs))) n d0 a b Hd Hl Eab) as ->.
      apply SOL. destruct d0 as [x|x mn mx]; [destruct Hl|]. unfold limOne in Hl. destruct (_ =? _)%Z; [destruct Hl|]. destruct Hl as [<-|[]]. apply solid_join; [apply limit_ne; discriminate|].
      apply limit_solid; [|constructor; [apply solid_wd; split; [discriminate|reflexivity]|constructor]]. apply names_solid. right. now apply (HW x mn mx).
  - intros w Hw. unfold allNames in DO. destruct (input_at Lout _ DO w Hw) as (k & K1 & K2). rewrite OO in K2.
    assert (LT : k < total ins).
    { destruct (Nat.lt_ge_cases k (total ins)) as [LT|GE]; [exact LT|]. rewrite nth_error_app2, repeat_length in K2 by (rewrite repeat_length; exact GE).
      apply nth_error_In in K2. apply repeat_spec in K2. discriminate. }
    rewrite flat_map_app, nth_error_app1 in K1 by (rewrite names_total; exact LT). apply nth_error_In, in_flat_map in K1. destruct K1 as (d & Hd & Hv). apply (prefix_names d w); [now apply HC|exact Hv].
Qed.

(** A structured safety file becomes a circuit; slugs and a synthesis tool for circuits give the right answer for the game over
    the integers that the file describes. *)
Theorem C97_circuit : forall thoroughly ord text L ins outs,
  layout None (file_lines text) = Some L ->
  Forall2 plainDeclaration (linesOf SInput L) ins -> Forall2 plainDeclaration (linesOf SOutput L) outs ->
  NoDup (map nameOfDecl (ins ++ outs)) ->
  (forall s line, formulaSection s = true -> In (s, line) L -> blanksOnly line /\ allowedLine ins outs s line) ->
  plain_file L -> safety_only L ->
  (forall s line, formulaSection s = true -> In (s, line) L -> infixOnly ins outs line \/ String.concat " " (words line) = line) ->
  (forall d, In d ins -> prefix "controllable_" (nameOfDecl d) = false) ->
  exists out, performConversion thoroughly text = Ret out /\
    ((N.of_nat (String.length out) < maxNumber)%N ->
     exists lines m, aigMain out = TOk lines /\ (exists M A names, aag_text M A names lines) /\
       (forall s, formulaSection s = true -> Forall2 (line_means ins outs) (linesOf s L) (m s)) /\
       forall M A names, aag_text M A names lines ->
         (executeFile ord out = POk Realizable /\ aig_realizable A names /\ intRealizable ins outs m) \/
         (executeFile ord out = POk Unrealizable /\ aig_unrealizable A names /\ intUnrealizable ins outs m)).
Proof.
  intros th ord text L ins outs HL PI PO HN HF HPl SO HS HC.
  assert (DE : forall d, In d (ins ++ outs) -> exists l, plainDeclaration l d).
  { intros d H. apply in_app_or in H. destruct H as [H|H]; [destruct (Forall2_in_r _ _ _ _ PI H) as (l & _ & X)|destruct (Forall2_in_r _ _ _ _ PO H) as (l & _ & X)]; eauto. }
  assert (ND : NoDup (allNames ins outs)) by (apply all_nodup; [intros d Hd; destruct (DE d Hd) as (l & X); eapply plain_declarable; eauto|exact HN]).
  assert (NI : NoDup (map fst (integers (ins ++ outs)))) by now apply integers_nodup.
  destruct (C96_translated th text L ins outs HL PI PO NI) as (out & HP).
  { intros s line Hs Hl. destruct (HF s line Hs Hl) as (Bl & [(g & Hg)|(_ & f & R & SU & _)]); split; auto; [left|right; eauto]. exists g. unfold prefixLine.
    apply (proj1 (gram_loosen _ _) 0 g (words line)) with (m' := 0) in Hg; auto. revert Hg. apply gram_var_ext. intros w i [H _]. exact H. }
  exists out. split; [exact HP|]. intros HLen.
  destruct (grammatical_file th text out L ins outs HP HL PI PO NI ND HF HPl HLen) as (Lout & LO & NDo & PLo & GR).
  destruct (circuit_file th text out L ins outs HP HL PI PO NI HF HPl HLen SO HS HC Lout LO) as (SOo & SB & PR).
  destruct (C96_decided th ord text out L ins outs HL PI PO HN HF HPl HP HLen) as (m & Hm & V).
  destruct (C78_same_verdict ord out Lout LO NDo GR PLo SOo SB PR) as (lines & H1 & H2 & H3).
  exists lines, m. split; [exact H1|]. split; [exact H2|]. split; [exact Hm|]. intros M A names T. destruct (H3 M A names T) as [E1 E2].
  destruct V as [[V R]|[V R]]; [left|right]; (split; [exact V|]); split; auto; [now apply E1|now apply E2].
Qed.
Print Assumptions C97_circuit.

(** In particular, the circuit for the game between Cinderella and the stepmother is realizable exactly if Cinderella wins. *)
Theorem C97_cinderella : forall buckets power capacity water thoroughly out,
  0 < buckets -> 0 < power ->
  performConversion thoroughly (cinderellaText buckets power capacity water) = Ret out ->
  (N.of_nat (String.length out) < maxNumber)%N ->
  exists lines, aigMain out = TOk lines /\ (exists M A names, aag_text M A names lines) /\
    forall M A names, aag_text M A names lines ->
      (aig_realizable A names <-> cinderellaWins buckets power capacity water) /\
      (aig_unrealizable A names <-> ~ cinderellaWins buckets power capacity water).
Proof.
  intros n c cap p th out Hn Hc HP HLen.
  assert (IN : forall s l, In (s, l) (LS order (linesIn n c cap p)) -> In l (linesIn n c cap p s)) by (intros s l H; now apply in_LS in H).
  pose proof (text_layout n c cap p Hn Hc) as HL. set (L := LS order (linesIn n c cap p)) in *.
  assert (HF : forall s l, formulaSection s = true -> In (s, l) L -> blanksOnly l /\ allowedLine (ins n p) (outs n cap) s l).
  { intros s l Hs H. apply IN in H. split; [eapply ok_blanks, ok_lines; [exact Hn|exact Hc|exact H]|]. right. split; [eapply infix_all; eauto|].
    pose proof (reads_all n c cap p Hn Hc s Hs) as F. destruct (MonoProofs.Forall2_in_l _ _ _ _ F H) as (f & Hf & RA). unfold readsAs in RA. exists f. split; [apply RA|]. split; [eapply supported_all; eauto|]. exact (fine_all n c cap p s f Hf). }
  assert (HPl : plain_file L) by (intros s l _ H; eapply ok_plain, ok_lines; [exact Hn|exact Hc|apply IN, H]).
  assert (PI : Forall2 plainDeclaration (linesOf SInput L) (ins n p)) by now apply plain_in.
  assert (PO : Forall2 plainDeclaration (linesOf SOutput L) (outs n cap)) by now apply plain_out.
  assert (HN : NoDup (map nameOfDecl (ins n p ++ outs n cap))) by apply names_distinct.
  assert (NI : NoDup (map fst (integers (ins n p ++ outs n cap)))) by now apply integers_nodup.
  assert (ND : NoDup (allNames (ins n p) (outs n cap))).
  { apply all_nodup; [|exact HN]. intros d H. apply in_app_or in H. destruct H as [H|H]; [destruct (Forall2_in_r _ _ _ _ PI H) as (l & _ & X)|destruct (Forall2_in_r _ _ _ _ PO H) as (l & _ & X)]; eapply plain_declarable; eauto. }
  assert (SO : safety_only L).
  { assert (X : forall s, (forall l, ~ In l (linesIn n c cap p s)) -> linesOf s L = []) by (intros s Hs; destruct (linesOf s L) as [|l ls] eqn:E; [reflexivity|]; elim (Hs l); apply IN, in_linesOf; rewrite E; now left).
    split; apply X; intros l []. }
  assert (HS : forall s line, formulaSection s = true -> In (s, line) L -> infixOnly (ins n p) (outs n cap) line \/ String.concat " " (words line) = line) by (intros s l Hs H; left; eapply infix_all; eauto).
  assert (HC : forall d, In d (ins n p) -> prefix "controllable_" (nameOfDecl d) = false).
  { intros d Hd. unfold ins in Hd. apply in_map_iff in Hd. destruct Hd as (i & <- & _). reflexivity. }
  destruct (grammatical_file th _ out L _ _ HP HL PI PO NI ND HF HPl HLen) as (Lout & LO & NDo & PLo & GR).
  destruct (circuit_file th _ out L _ _ HP HL PI PO NI HF HPl HLen SO HS HC Lout LO) as (SOo & SB & PR).
  destruct (C78_same_verdict (fun _ => true) out Lout LO NDo GR PLo SOo SB PR) as (lines & H1 & H2 & H3).
  exists lines. split; [exact H1|]. split; [exact H2|]. intros M A names T. destruct (H3 M A names T) as [E1 E2].
  destruct (C95_decided n c cap p th (fun _ => true) out Hn Hc HP HLen) as [[V W]|[V W]]; rewrite V in E1, E2.
  - split; split; auto; intros H; [now apply E1|apply E2 in H; discriminate|contradiction].
  - split; split; auto; intros H; [apply E1 in H; discriminate|contradiction|now apply E2].
Qed.
Print Assumptions C97_cinderella.

Example C97_cinderella_example : exists out lines, performConversion false (cinderellaText 3 1 2 2) = Ret out /\ aigMain out = TOk lines /\
  exists M A names, aag_text M A names lines /\ aig_unrealizable A names.
Proof.
  assert (A : run 3 1 2 2 = Some (POk Unrealizable)) by (vm_compute; reflexivity). apply run_spec in A. destruct A as (out & A1 & A2 & _).
  destruct (C97_cinderella 3 1 2 2 false out (Nat.lt_0_succ 2) Nat.lt_0_1 A1 A2) as (lines & H1 & (M & A & names & T) & H3). exists out, lines. split; [exact A1|]. split; [exact H1|].
  exists M, A, names. split; [exact T|]. apply (H3 M A names T). apply C95_example.
Qed.

(** The file with the pump, without its liveness assumption, meets the hypotheses. *)
Definition pumpText : string :=
"[INPUT]
door
level : 0...05

# A comment
[OUTPUT]
pump:-0...3

[SYS_TRANS]
X(level >= 4) -> pump' > level
| ! door door'
".
Definition pumpItems : items := [(SInput, "door"); (SInput, "level : 0...05"); (SOutput, "pump:-0...3"); (SSysTrans, "X(level >= 4) -> pump' > level"); (SSysTrans, "| ! door door'")].
Example C97_example : exists out lines M A names, performConversion true pumpText = Ret out /\ aigMain out = TOk lines /\ aag_text M A names lines /\ aig_unrealizable A names.
Proof.
  assert (HL : layout None (file_lines pumpText) = Some pumpItems) by (vm_compute; reflexivity).
  destruct C96_example as (_ & PI & PO & _).
  assert (HN : NoDup (map nameOfDecl (acceptIns ++ acceptOuts))) by (cbn; repeat (constructor; [cbn; intuition discriminate|]); constructor).
  assert (AL : forall s line, formulaSection s = true -> In (s, line) pumpItems -> blanksOnly line /\ allowedLine acceptIns acceptOuts s line).
  { intros s line Hs Hl. cbn in Hl. repeat (destruct Hl as [Hl|Hl]; [injection Hl as <- <-; try discriminate Hs; (split; [apply isBlankOnly_spec; reflexivity|])|]); [| |destruct Hl].
    - apply (isAllowed_spec _ _ _ _ "->"). vm_compute. reflexivity.
    - left. exists (FOr (FNot (FVar 0)) (FVar 1)). change (words "| ! door door'") with ("|" :: ["!"; "door"] ++ ["door'"]).
      apply g_or; [apply g_not|]; apply g_var; try reflexivity; (split; reflexivity). }
  assert (PL : plain_file pumpItems) by (intros s line Hs Hl; apply plainB_spec; cbn in Hl; repeat (destruct Hl as [Hl|Hl]; [injection Hl as <- <-; reflexivity|]); destruct Hl).
  assert (SB : forall s line, formulaSection s = true -> In (s, line) pumpItems -> infixOnly acceptIns acceptOuts line \/ String.concat " " (words line) = line)
    by (intros s line Hs Hl; right; cbn in Hl; repeat (destruct Hl as [Hl|Hl]; [injection Hl as <- <-; try discriminate Hs; reflexivity|]); destruct Hl).
  assert (HC : forall d, In d acceptIns -> prefix "controllable_" (nameOfDecl d) = false) by (intros d [<-|[<-|[]]]; reflexivity).
  destruct (C97_circuit true (fun _ => true) pumpText pumpItems acceptIns acceptOuts HL PI PO HN AL PL (conj eq_refl eq_refl) SB HC) as (out & HP & X). exists out.
  assert (Q : match performConversion true pumpText with Ret o => (N.of_nat (String.length o) <? maxNumber)%N && match executeFile (fun _ => true) o with POk Unrealizable => true | _ => false end | _ => false end = true) by (vm_compute; reflexivity).
  rewrite HP in Q. apply andb_prop in Q. destruct Q as [Q1 Q2]. apply N.ltb_lt in Q1. destruct (X Q1) as (lines & m & H1 & (M & A & names & T) & Hm & H3). exists lines, M, A, names.
  split; [exact HP|]. split; [exact H1|]. split; [exact T|]. destruct (H3 M A names T) as [[V _]|(_ & U & _)]; [rewrite V in Q2; discriminate|exact U].
Qed.
