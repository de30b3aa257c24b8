(** * C96: structured slugs files that are translated *)

From Coq Require Import String Ascii List Bool Arith NArith ZArith Lia.
From Verif Require Import FormulaSpec Parser Spec FileSpec OutputProofs SymbolicProofs EstimatorText MonoProofs StructuredSpec StructGrammar StructFileSpec StructAcceptSpec Synth Execute Structured StructParse StructReadProofs PropsStructParse StructFile StuckSpec FileProofs Explicit MinCoreProofs PropsStructured PropsStructFile StructFileProofs StructDeclProofs StructLineProofs StructConvProofs StuckProofs DecoderProofs StructAccept StructVerdict PropsParser
  CinderellaSpec Cinderella CinderellaProofs CinderellaFile PropsCinderella.
Import ListNotations.
Local Open Scope string_scope.
Local Open Scope list_scope.

(** A file with plain declarations, distinct integer variables and supported formulas is translated, for both settings of the
    option --thorough. *)
Theorem C96_translated : forall thoroughly text L ins outs,
  layout None (file_lines text) = Some L ->
  Forall2 plainDeclaration (linesOf SInput L) ins -> Forall2 plainDeclaration (linesOf SOutput L) outs ->
  NoDup (map fst (integers (ins ++ outs))) ->
  (forall s line, formulaSection s = true -> In (s, line) L -> blanksOnly line /\
     ((exists g, prefixLine ins outs line g) \/ exists f, reads (booleanWords ins outs) line f /\ supported (integers (ins ++ outs)) false f)) ->
  exists out, performConversion thoroughly text = Ret out.
Proof. exact conversion_ok. Qed.
Print Assumptions C96_translated.

(** If, furthermore, the variables have distinct names and formulas only use the variables that may be used in their sections,
    then slugs accepts the translated file and decides the game over the integers that the file describes. *)
Theorem C96_decided : forall thoroughly ord text out L ins outs,
  layout None (file_lines text) = Some L ->
  Forall2 plainDeclaration (linesOf SInput L) ins -> Forall2 plainDeclaration (linesOf SOutput L) outs ->
  NoDup (map nameOfDecl (ins ++ outs)) ->
  (forall s line, formulaSection s = true -> In (s, line) L -> blanksOnly line /\ allowedLine ins outs s line) ->
  plain_file L ->
  performConversion thoroughly text = Ret out -> (N.of_nat (String.length out) < maxNumber)%N ->
  exists m, (forall s, formulaSection s = true -> Forall2 (line_means ins outs) (linesOf s L) (m s)) /\
    (executeFile ord out = POk Realizable /\ intRealizable ins outs m \/ executeFile ord out = POk Unrealizable /\ intUnrealizable ins outs m).
Proof.
  intros th ord text out L ins outs HL PI PO HN HF HPl HP HLen.
  assert (DE : forall d, In d (ins ++ outs) -> exists l, plainDeclaration l d).
  { intros d H. apply in_app_or in H. destruct H as [H|H]; [destruct (Forall2_in_r _ _ _ _ PI H) as (l & _ & X)|destruct (Forall2_in_r _ _ _ _ PO H) as (l & _ & X)]; eauto. }
  assert (ND : NoDup (allNames ins outs)) by (apply all_nodup; [intros d Hd; destruct (DE d Hd) as (l & X); eapply plain_declarable; eauto|exact HN]).
  assert (NI : NoDup (map fst (integers (ins ++ outs)))) by now apply integers_nodup.
  destruct (grammatical_file th text out L ins outs HP HL PI PO NI ND HF HPl HLen) as (Lout & LO & NDo & PLo & GR).
  assert (EX : exists v, executeFile ord out = POk v) by (destruct (C41_documented_file ord out Lout LO NDo GR PLo) as (fs & _ & [[E _]|[E _]]); eauto).
  destruct EX as (v & EX). destruct (C81_verdict th ord text out v L ins outs HP HL (F2_declares _ _ PI) (F2_declares _ _ PO)) as (m & Hm & V); auto.
  - intros x mn mx H. destruct (DE _ H) as (l & X). eapply plain_token; eauto.
  - intros s line Hs Hl. now apply (HF s line Hs Hl).
  - exists m. split; [exact Hm|]. rewrite EX. destruct V as [[-> V]|[-> V]]; auto.
Qed.
Print Assumptions C96_decided.

Definition acceptText : string :=
"[INPUT]
door
level : 0...05

# A comment
[OUTPUT]
pump:-0...3

[SYS_TRANS]
X(level >= 4) -> pump' > level
| ! door door'

[ENV_LIVENESS]
level + 1 <= 5 & !door
".
Definition acceptIns : list declaration := [DBool "door"; DInt "level" 0 5].
Definition acceptOuts : list declaration := [DInt "pump" 0 3].
Definition acceptItems : items := [(SInput, "door"); (SInput, "level : 0...05"); (SOutput, "pump:-0...3"); (SSysTrans, "X(level >= 4) -> pump' > level"); (SSysTrans, "| ! door door'"); (SEnvLive, "level + 1 <= 5 & !door")].
Definition isSupported (D : limits) (bools : list string) (line : string) : bool :=
  match parseLTL bools line with Some f => match translate D f with Ret _ => true | _ => false end | None => false end.
Lemma isSupported_spec D bools line : isSupported D bools line = true -> exists f, reads bools line f /\ supported D false f.
Proof.
  unfold isSupported. destruct (parseLTL bools line) as [f|] eqn:E; [|discriminate]. destruct (translate D f) as [l| |] eqn:T; try discriminate. intros _. exists f. split; [now apply C80_reads|].
  apply PropsStructured.C40_accepts. eauto.
Qed.
Example C96_example :
  layout None (file_lines acceptText) = Some acceptItems /\
  Forall2 plainDeclaration (linesOf SInput acceptItems) acceptIns /\ Forall2 plainDeclaration (linesOf SOutput acceptItems) acceptOuts /\
  NoDup (map fst (integers (acceptIns ++ acceptOuts))) /\
  (forall s line, formulaSection s = true -> In (s, line) acceptItems -> blanksOnly line /\
     ((exists g, prefixLine acceptIns acceptOuts line g) \/ exists f, reads (booleanWords acceptIns acceptOuts) line f /\ supported (integers (acceptIns ++ acceptOuts)) false f)) /\
  exists out, performConversion true acceptText = Ret out.
Proof.
  assert (A : layout None (file_lines acceptText) = Some acceptItems) by (vm_compute; reflexivity).
  assert (D : forall w n, w <> "" -> allDigits w = true -> decimal 0 w = n -> decimalInteger w (Z.of_N n)) by (intros w n H1 H2 H3; left; exists n; repeat split; auto).
  assert (NO : forall x c, hasChar c x = false -> ~ occursIn c x) by (intros x c H O; apply StructDeclProofs.hasChar_false in H; contradiction).
  assert (B : Forall2 plainDeclaration (linesOf SInput acceptItems) acceptIns).
  { change (linesOf SInput acceptItems) with ["door"; ("level" ++ " " ++ ":" ++ " " ++ "0" ++ "" ++ "..." ++ "" ++ "05")%string]. constructor; [apply pd_bool; apply NO; reflexivity|]. constructor; [|constructor].
    apply pd_int; try reflexivity; try (apply NO; reflexivity); [apply (D "0" 0%N); [discriminate|reflexivity..]|apply (D "05" 5%N); [discriminate|reflexivity..]|lia|..]; cbn; intros c Hc; repeat (destruct Hc as [<-|Hc]; [reflexivity|]); destruct Hc. }
  assert (C : Forall2 plainDeclaration (linesOf SOutput acceptItems) acceptOuts).
  { change (linesOf SOutput acceptItems) with [("pump" ++ "" ++ ":" ++ "" ++ "-0" ++ "" ++ "..." ++ "" ++ "3")%string]. constructor; [|constructor].
    apply pd_int; try reflexivity; try (apply NO; reflexivity); [right; exists "0", 0%N; repeat split; discriminate|apply (D "3" 3%N); [discriminate|reflexivity..]|lia|..]; cbn; intros c Hc; repeat (destruct Hc as [<-|Hc]; [reflexivity|]); destruct Hc. }
  assert (E : NoDup (map fst (integers (acceptIns ++ acceptOuts)))) by (cbn; constructor; [cbn; intuition discriminate|]; constructor; [intros []|constructor]).
  assert (F : forall s line, formulaSection s = true -> In (s, line) acceptItems -> blanksOnly line /\
     ((exists g, prefixLine acceptIns acceptOuts line g) \/ exists f, reads (booleanWords acceptIns acceptOuts) line f /\ supported (integers (acceptIns ++ acceptOuts)) false f)).
  { intros s line Hs Hl. cbn in Hl. repeat (destruct Hl as [Hl|Hl]; [injection Hl as <- <-; try discriminate Hs; (split; [apply isBlankOnly_spec; reflexivity|])|]); [| | |destruct Hl].
    - right. apply isSupported_spec. vm_compute. reflexivity.
    - left. exists (FOr (FNot (FVar 0)) (FVar 1)). unfold prefixLine. change (words "| ! door door'") with ("|" :: ["!"; "door"] ++ ["door'"]).
      apply g_or; [apply g_not|]; apply g_var; reflexivity.
    - right. apply isSupported_spec. vm_compute. reflexivity. }
  split; [exact A|]. split; [exact B|]. split; [exact C|]. split; [exact E|]. split; [exact F|]. exact (C96_translated true acceptText acceptItems acceptIns acceptOuts A B C E F).
Qed.

(** The file above is decided. *)
Definition isMay (ins outs : list declaration) (s : section) (w : string) : bool :=
  existsb (fun i => match nth_error (allNames ins outs) i with Some v => String.eqb v w | None => false end && may_use s (Nat.leb (length (allNames ins nil)) i) (Nat.odd i)) (seq 0 (length (allNames ins outs))).
Lemma isMay_spec ins outs s w : isMay ins outs s w = true -> exists i, mayName ins outs s w i.
Proof.
  unfold isMay. intros H. apply existsb_exists in H. destruct H as (i & _ & H). apply andb_prop in H. destruct H as [H1 H2]. exists i. split; [|exact H2].
  destruct (nth_error _ i) as [v|]; [|discriminate]. apply String.eqb_eq in H1. now subst.
Qed.
Definition isAllowed (ins outs : list declaration) (s : section) (line w : string) : bool :=
  negb (existsb (String.eqb "$") (words line)) && existsb (String.eqb w) (words line) && negb (existsb (String.eqb w) ["|"; "&"; "^"; "!"; "0"; "1"; "0'"; "1'"]) &&
  forallb (fun v => negb (String.eqb w v) && negb (String.eqb w (v ++ "'"))) (booleanWords ins outs) &&
  match parseLTL (booleanWords ins outs) line with
  | Some f => match translate (integers (ins ++ outs)) f with Ret _ => forallb (isMay ins outs s) (signals (integers (ins ++ outs)) false f) | _ => false end
  | None => false
  end.
Lemma isAllowed_spec ins outs s line w : isAllowed ins outs s line w = true -> allowedLine ins outs s line.
Proof.
  unfold isAllowed. intros H. repeat (apply andb_prop in H; destruct H as [H ?]). right.
  assert (NI : forall (l : list string) v, existsb (String.eqb v) l = false -> ~ In v l).
  { intros l v E I. assert (existsb (String.eqb v) l = true) by (apply existsb_exists; exists v; split; [exact I|apply String.eqb_refl]). congruence. }
  split; [split; [apply NI; now apply negb_true_iff|]; left; exists w; split; [|split]|].
  - apply existsb_exists in H3. destruct H3 as (u & Hu & E). apply String.eqb_eq in E. now subst.
  - apply NI. now apply negb_true_iff.
  - intros v Hv. rewrite forallb_forall in H1. specialize (H1 v Hv). apply andb_prop in H1. rewrite !negb_true_iff, !String.eqb_neq in H1. exact H1.
  - destruct (parseLTL _ line) as [f|] eqn:E; [|discriminate]. destruct (translate _ f) as [l| |] eqn:T; try discriminate. exists f. split; [now apply C80_reads|]. split; [apply PropsStructured.C40_accepts; eauto|].
    intros u Hu. rewrite forallb_forall in H0. now apply isMay_spec, H0.
Qed.
Example C96_decided_example : exists out m, performConversion true acceptText = Ret out /\
  (executeFile (fun _ => true) out = POk Realizable /\ intRealizable acceptIns acceptOuts m \/ executeFile (fun _ => true) out = POk Unrealizable /\ intUnrealizable acceptIns acceptOuts m) /\
  (forall s, formulaSection s = true -> Forall2 (line_means acceptIns acceptOuts) (linesOf s acceptItems) (m s)).
Proof.
  destruct C96_example as (A & B & C & E & F & out & HP). exists out.
  assert (AL : forall s line, formulaSection s = true -> In (s, line) acceptItems -> blanksOnly line /\ allowedLine acceptIns acceptOuts s line).
  { intros s line Hs Hl. split; [now apply (F s line Hs Hl)|]. cbn in Hl. repeat (destruct Hl as [Hl|Hl]; [injection Hl as <- <-; try discriminate Hs|]); [| | |destruct Hl].
    - apply (isAllowed_spec _ _ _ _ "->"). vm_compute. reflexivity.
    - left. exists (FOr (FNot (FVar 0)) (FVar 1)). change (words "| ! door door'") with ("|" :: ["!"; "door"] ++ ["door'"]).
      apply g_or; [apply g_not|]; apply g_var; try reflexivity; (split; reflexivity).
    - apply (isAllowed_spec _ _ _ _ "<="). vm_compute. reflexivity. }
  destruct (C96_decided true (fun _ => true) acceptText out acceptItems acceptIns acceptOuts A B C) as (m & Hm & V); auto.
  - cbn. repeat (constructor; [cbn; intuition discriminate|]). constructor.
  - intros s line Hs Hl. apply plainB_spec. cbn in Hl. repeat (destruct Hl as [Hl|Hl]; [injection Hl as <- <-; reflexivity|]). destruct Hl.
  - assert (X : match performConversion true acceptText with Ret o => (N.of_nat (String.length o) <? maxNumber)%N | _ => false end = true) by (vm_compute; reflexivity). revert X. rewrite HP. intros X. now apply N.ltb_lt.
  - exists m. auto.
Qed.

(** The generator's files for the game between Cinderella and the stepmother are translated, for every configuration. *)
Lemma decimal_nat k : decimalInteger (showNat k) (Z.of_nat k).
Proof. left. exists (N.of_nat k). split; [apply numeral_show|lia]. Qed.
Lemma plain_range a i k : isWordStart a = true -> isWordToken (String a (showNat i)) = true -> a <> "'"%char -> a <> "@"%char ->
  plainDeclaration (String a (showNat i ++ ":0..." ++ showNat k)) (DInt (String a (showNat i)) 0 (Z.of_nat k)).
Proof.
  intros A T N1 N2. change (String a (showNat i ++ ":0..." ++ showNat k))%string with (String a (showNat i) ++ "" ++ ":" ++ "" ++ "0" ++ "" ++ "..." ++ "" ++ showNat k)%string.
  assert (NO : forall c, a <> c -> isDigit c = false -> ~ occursIn c (String a (showNat i))).
  { intros c N D [H|H]; [now elim N|]. apply (allChars_in _ _ (show_digits i)) in H. cbn in H. congruence. }
  apply pd_int; [exact T|now apply NO|now apply NO|apply (decimal_nat 0)|apply decimal_nat|lia|..]; intros x [].
Qed.
Section CINDERELLA.
  Variables n c cap p : nat.
  Notation D := (integers (ins n p ++ outs n cap)).
  Lemma nodupD : NoDup (map fst D).
  Proof. rewrite integers_names by apply declared_ints. apply names_distinct. Qed.
  Lemma limits_x i : i < n -> limitsOf D (xn i) = Some (0, Z.of_nat p)%Z.
  Proof. intros H. apply limits_in; [apply nodupD|]. apply in_integers. apply in_app_iff. left. apply in_map_iff. exists i. split; [reflexivity|]. apply in_seq. lia. Qed.
  Lemma limits_y i : i < n -> limitsOf D (yn i) = Some (0, Z.of_nat cap)%Z.
  Proof. intros H. apply limits_in; [apply nodupD|]. apply in_integers. apply in_app_iff. right. apply in_app_iff. left. apply in_map_iff. exists i. split; [reflexivity|]. apply in_seq. lia. Qed.
  Lemma limits_e : limitsOf D "e" = Some (0, Z.of_nat n - 1)%Z.
  Proof. apply limits_in; [apply nodupD|]. apply in_integers. apply in_app_iff. right. apply in_app_iff. right. now left. Qed.
  Lemma unprimed a i : a <> "'"%char -> unprime (String a (showNat i)) = (String a (showNat i), false) /\ unprime (String a (showNat i ++ "'")) = (String a (showNat i), true).
  Proof.
    intros A. assert (Q : noQuote (String a (showNat i)) = true).
    { apply noQuote_spec, hasChar_false. intros [H|H]; [now elim A|]. apply (allChars_in _ _ (show_digits i)) in H. discriminate H. }
    split; [apply (unprime_prime _ false Q)|apply (unprime_prime _ true Q)].
  Qed.
  Lemma var_ok a i next z : a <> "'"%char -> limitsOf D (String a (showNat i)) = Some (0, z)%Z -> numSupported D next (NumID (String a (showNat i))).
  Proof. intros A H. cbn [numSupported]. rewrite (proj1 (unprimed a i A)). split; [reflexivity|]. eauto using Z.le_refl. Qed.
  Lemma var_ok' a i z : a <> "'"%char -> limitsOf D (String a (showNat i)) = Some (0, z)%Z -> numSupported D false (NumID (String a (showNat i ++ "'"))).
  Proof. intros A H. cbn [numSupported]. rewrite (proj2 (unprimed a i A)). split; [reflexivity|]. eauto using Z.le_refl. Qed.
  Lemma sum_ok l : (forall i, In i l -> i < n) -> numSupported D false (sumF l).
  Proof.
    assert (V : forall i, i < n -> numSupported D false (NumID (String "x" (showNat i ++ "'")))) by (intros i H; eapply var_ok'; [discriminate|now apply limits_x]).
    induction l as [|i l IH]; intros H; [cbn; lia|]. destruct l as [|j l]; [apply V, H; now left|].
    change (sumF (i :: j :: l)) with (Add (NumID (String "x" (showNat i ++ "'"))) (sumF (j :: l))). split; [apply V, H; now left|]. apply IH. intros k Hk. apply H. now right.
  Qed.
  Lemma e_ok : numSupported D false (NumID "e").
  Proof. cbn [numSupported unprime]. cbn. split; [reflexivity|]. exists 0%Z, (Z.of_nat n - 1)%Z. split; [apply limits_e|lia]. Qed.
  Hypothesis Hn : 0 < n.
  Hypothesis Hc : 0 < c.
  Lemma emptied_ok i : supported D false (emptiedF n c i).
  Proof. pose proof e_ok. unfold emptiedF, kz. cbn [supported]. repeat match goal with |- _ /\ _ => split end; try exact e_ok; try (split; [exact e_ok|]); cbn [numSupported]; lia. Qed.
  Lemma supported_all s f : In f (formulasIn n c p s) -> supported D false f.
  Proof.
    assert (X : forall i, i < n -> numSupported D false (NumID (xn i))) by (intros i H; eapply var_ok; [discriminate|now apply limits_x]).
    assert (Y : forall i, i < n -> numSupported D false (NumID (yn i))) by (intros i H; eapply var_ok; [discriminate|now apply limits_y]).
    assert (X' : forall i, i < n -> numSupported D false (NumID (xn i ++ "'"))) by (intros i H; eapply var_ok'; [discriminate|now apply limits_x]).
    assert (Y' : forall i, i < n -> numSupported D false (NumID (yn i ++ "'"))) by (intros i H; eapply var_ok'; [discriminate|now apply limits_y]).
    assert (K : forall k, numSupported D false (kz k)) by (intros k; unfold kz; cbn [numSupported]; lia).
    destruct s; cbn [formulasIn]; intros H; try (destruct H; fail).
    all: try (apply in_map_iff in H; destruct H as (i & <- & H); apply in_seq in H; split; [first [apply X|apply Y]; lia|apply K]).
    - destruct H as [<-|[]]. split; [|apply K]. apply sum_ok. intros i H. apply in_seq in H. lia.
    - apply in_app_or in H. destruct H as [H|H]; apply in_map_iff in H; destruct H as (i & <- & H); apply in_seq in H; assert (Hi : i < n) by lia.
      + split; [exact (emptied_ok i)|]. split; [auto|]. split; auto.
      + split; [exact (emptied_ok i)|]. split; auto.
  Qed.
End CINDERELLA.

Lemma plain_in n c cap p : Forall2 plainDeclaration (linesOf SInput (LS order (linesIn n c cap p))) (ins n p).
Proof.
  rewrite text_lines. cbn [linesIn]. apply Forall2_seq. intros i _. apply plain_range; try discriminate; [reflexivity|]. now apply token_name.
Qed.
Lemma plain_out n c cap p : 0 < n -> Forall2 plainDeclaration (linesOf SOutput (LS order (linesIn n c cap p))) (outs n cap).
Proof.
  intros Hn. rewrite text_lines. cbn [linesIn]. apply Forall2_app; [apply Forall2_seq; intros i _; apply plain_range; try discriminate; [reflexivity|]; now apply token_name|]. constructor; [|constructor].
    unfold emptyLine. change ("e:0..." ++ showZ (Z.of_nat n - 1))%string with ("e" ++ "" ++ ":" ++ "" ++ "0" ++ "" ++ "..." ++ "" ++ showZ (Z.of_nat n - 1))%string.
    apply pd_int; [reflexivity|cbn; intuition discriminate|cbn; intuition discriminate|apply (decimal_nat 0)| |lia|..]; try (intros x []).
    left. exists (Z.to_N (Z.of_nat n - 1)). split; [apply showZ_numeral; lia|lia].
Qed.

Theorem C95_translated : forall buckets power capacity water thoroughly, 0 < buckets -> 0 < power ->
  exists out, performConversion thoroughly (cinderellaText buckets power capacity water) = Ret out.
Proof.
  intros n c cap p th Hn Hc.
  assert (IN : forall s l, In (s, l) (LS order (linesIn n c cap p)) -> In l (linesIn n c cap p s)) by (intros s l H; now apply in_LS in H).
  apply (C96_translated th _ (LS order (linesIn n c cap p)) (ins n p) (outs n cap)).
  - now apply text_layout.
  - now apply plain_in.
  - now apply plain_out.
  - apply nodupD.
  - intros s l Hs H. apply IN in H. split; [eapply ok_blanks, ok_lines; [exact Hn|exact Hc|exact H]|]. right.
    pose proof (reads_all n c cap p Hn Hc s Hs) as F. destruct (MonoProofs.Forall2_in_l _ _ _ _ F H) as (f & Hf & RA). unfold readsAs in RA. exists f. split; [apply RA|]. eapply supported_all; eauto.
Qed.
Print Assumptions C95_translated.

(** slugs decides every game of this kind. *)
Section SIGNALS.
  Variables n c cap p : nat.
  Notation D := (integers (ins n p ++ outs n cap)).
  Notation may := (mayName (ins n p) (outs n cap)).
  Definition fineNum (s : section) (a : num) : Prop := forall w, In w (numSignals D false a) -> exists i, may s w i.
  Lemma fine_var s a i (out : bool) z : a <> "'"%char -> limitsOf D (String a (showNat i)) = Some (0, z)%Z -> In (DInt (String a (showNat i)) 0 z) (if out then outs n cap else ins n p) ->
    may_use s out false = true -> fineNum s (NumID (String a (showNat i))).
  Proof.
    intros A L H M w. cbn [numSignals]. rewrite (proj1 (unprimed a i A)), L. cbn [orb]. intros Hw. apply in_map_iff in Hw. destruct Hw as (v & <- & Hv). eapply (may_bit _ _ s out false); eauto.
  Qed.
  Lemma fine_var' s a i (out : bool) z : a <> "'"%char -> limitsOf D (String a (showNat i)) = Some (0, z)%Z -> In (DInt (String a (showNat i)) 0 z) (if out then outs n cap else ins n p) ->
    may_use s out true = true -> fineNum s (NumID (String a (showNat i ++ "'"))).
  Proof.
    intros A L H M w. cbn [numSignals]. rewrite (proj2 (unprimed a i A)), L. cbn [orb]. intros Hw. apply in_map_iff in Hw. destruct Hw as (v & <- & Hv). eapply (may_bit _ _ s out true); eauto.
  Qed.
  Lemma in_x i : i < n -> In (DInt (xn i) 0 (Z.of_nat p)) (ins n p).
  Proof. intros H. apply in_map_iff. exists i. split; [reflexivity|]. apply in_seq. lia. Qed.
  Lemma in_y i : i < n -> In (DInt (yn i) 0 (Z.of_nat cap)) (outs n cap).
  Proof. intros H. apply in_app_iff. left. apply in_map_iff. exists i. split; [reflexivity|]. apply in_seq. lia. Qed.
  Lemma fine_k s k : fineNum s (kz k).
  Proof. intros w []. Qed.
  Lemma fine_add s a b : fineNum s a -> fineNum s b -> fineNum s (Add a b).
  Proof. intros A B w Hw. cbn [numSignals] in Hw. apply in_app_or in Hw. destruct Hw; auto. Qed.
  Lemma fine_sum l : (forall i, In i l -> i < n) -> fineNum SEnvTrans (sumF l).
  Proof.
    assert (V : forall i, i < n -> fineNum SEnvTrans (NumID (String "x" (showNat i ++ "'")))) by (intros i H; eapply (fine_var' SEnvTrans "x" i false); [discriminate|now apply limits_x|now apply in_x|reflexivity]).
    induction l as [|i l IH]; intros H; [intros w []|]. destruct l as [|j l]; [apply V, H; now left|].
    change (sumF (i :: j :: l)) with (Add (NumID (String "x" (showNat i ++ "'"))) (sumF (j :: l))). apply fine_add; [apply V, H; now left|]. apply IH. intros k Hk. apply H. now right.
  Qed.
  Definition fineFml (s : section) (f : sfml) : Prop := forall w, In w (signals D false f) -> exists i, may s w i.
  Lemma fine_calc s a o b : fineNum s a -> fineNum s b -> fineFml s (SCalc a o b).
  Proof. intros A B w Hw. cbn [signals] in Hw. apply in_app_or in Hw. destruct Hw; auto. Qed.
  Lemma fine_imp s f g : fineFml s f -> fineFml s g -> fineFml s (SImp f g).
  Proof. intros A B w Hw. cbn [signals] in Hw. apply in_app_or in Hw. destruct Hw; auto. Qed.
  Lemma fine_emptied i : fineFml SSysTrans (emptiedF n c i).
  Proof.
    assert (E : fineNum SSysTrans (NumID "e")).
    { intros w Hw. unfold numSignals in Hw. change (unprime "e") with ("e", false) in Hw. cbv beta iota in Hw. rewrite limits_e in Hw. apply in_map_iff in Hw. destruct Hw as (v & <- & Hv).
      apply (may_bit _ _ SSysTrans true false (DInt "e" 0 (Z.of_nat n - 1))); auto. apply in_app_iff. right. now left. }
    intros w Hw. unfold emptiedF in Hw. cbn [signals] in Hw. apply in_app_or in Hw. destruct Hw as [Hw|Hw]; [apply in_app_or in Hw; destruct Hw as [Hw|Hw]|]; revert w Hw.
    - apply (fine_calc SSysTrans _ CLe); [exact E|apply fine_k].
    - apply (fine_calc SSysTrans _ CGt); [apply fine_add; [exact E|apply fine_k]|apply fine_k].
    - apply (fine_calc SSysTrans _ CGe); [apply fine_add; [exact E|intros w []]|apply fine_k].
  Qed.
  Lemma fine_all s f : In f (formulasIn n c p s) -> fineFml s f.
  Proof.
    destruct s; cbn [formulasIn]; intros H; try (destruct H; fail).
    - apply in_map_iff in H. destruct H as (i & <- & H). apply in_seq in H. assert (Hi : i < n) by lia. apply fine_calc; [|apply fine_k]. eapply (fine_var SEnvInit "x" i false); [discriminate|now apply limits_x|now apply in_x|reflexivity].
    - apply in_map_iff in H. destruct H as (i & <- & H). apply in_seq in H. assert (Hi : i < n) by lia. apply fine_calc; [|apply fine_k]. eapply (fine_var SSysInit "y" i true); [discriminate|now apply limits_y|now apply in_y|reflexivity].
    - destruct H as [<-|[]]. apply fine_calc; [|apply fine_k]. apply fine_sum. intros i H. apply in_seq in H. lia.
    - apply in_app_or in H. destruct H as [H|H]; apply in_map_iff in H; destruct H as (i & <- & H); apply in_seq in H; assert (Hi : i < n) by lia;
        assert (X' : fineNum SSysTrans (NumID (xn i ++ "'"))) by (eapply (fine_var' SSysTrans "x" i false); [discriminate|now apply limits_x|now apply in_x|reflexivity]);
        assert (Y' : fineNum SSysTrans (NumID (yn i ++ "'"))) by (eapply (fine_var' SSysTrans "y" i true); [discriminate|now apply limits_y|now apply in_y|reflexivity]).
      + assert (Y : fineNum SSysTrans (NumID (yn i))) by (eapply (fine_var SSysTrans "y" i true); [discriminate|now apply limits_y|now apply in_y|reflexivity]).
        apply fine_imp; [exact (fine_emptied i)|]. apply fine_calc; [exact Y'|now apply fine_add].
      + apply fine_imp; [exact (fine_emptied i)|]. now apply fine_calc.
  Qed.

  Lemma infix_two a b r : isWs a = false -> isWs b = false -> b <> "'"%char -> okLine (String a (String b r)) = true -> infixOnly (ins n p) (outs n cap) (String a (String b r)).
  Proof.
    intros A B N OK. pose proof (words_ok _ _ OK) as F. rewrite Forall_forall in F. split; [intros H; apply F in H; discriminate H|].
    destruct (words_two a b r A B) as (w & ws & E). left. exists (String a (String b w)). split; [rewrite E; now left|]. split.
    - cbn. intros H. repeat (destruct H as [H|H]; [try discriminate H; injection H; intros; congruence|]). destruct H.
    - intros v Hv. apply (bools_at _ _ (declared_ints n cap p)) in Hv. assert (NA : ~ In "@"%char (list_ascii_of_string (String a (String b w)))).
      { intros H. assert (X := F (String a (String b w))). rewrite E in X. specialize (X (or_introl eq_refl)). apply (allChars_in _ _ X) in H. discriminate H. }
      split; intros EV; apply NA; rewrite EV; [exact Hv|]. clear - Hv. induction v as [|x v IH]; [destruct Hv|]. cbn in *. tauto.
  Qed.
  Hypothesis Hn : 0 < n.
  Hypothesis Hc : 0 < c.
  Lemma infix_all s line : formulaSection s = true -> In line (linesIn n c cap p s) -> infixOnly (ins n p) (outs n cap) line.
  Proof.
    intros Hs H. assert (OK : okLine line = true) by (eapply ok_lines; [exact Hn|exact Hc|exact H]).
    assert (SH : forall a i r, isWs a = false -> okLine (String a (showNat i ++ r)) = true -> infixOnly (ins n p) (outs n cap) (String a (showNat i ++ r))).
    { intros a i r A O. destruct (show_head i) as (b & t & E & B). assert (Nb : b <> "'"%char) by (intros ->; pose proof (show_digits i) as SD; rewrite E in SD; discriminate SD). rewrite E in *. cbn [append] in *. now apply infix_two. }
    destruct s; try discriminate Hs; cbn [linesIn] in H; try (destruct H; fail).
    - apply in_map_iff in H. destruct H as (i & <- & _). now apply SH.
    - apply in_map_iff in H. destruct H as (i & <- & _). now apply SH.
    - destruct H as [<-|[]]. unfold restrictionLine in *. destruct (sum_head n c Hn Hc) as (r & E). rewrite E in *. cbn [append] in *. rewrite sapp_assoc in *. now apply SH.
    - apply in_app_or in H. destruct H as [H|H]; apply in_map_iff in H; destruct H as (i & <- & _); unfold emptiedText in *; cbn [append] in *; (apply infix_two; [reflexivity|reflexivity|discriminate|exact OK]).
  Qed.
End SIGNALS.

Theorem C95_decided : forall buckets power capacity water thoroughly ord out,
  0 < buckets -> 0 < power ->
  performConversion thoroughly (cinderellaText buckets power capacity water) = Ret out ->
  (N.of_nat (String.length out) < maxNumber)%N ->
  (executeFile ord out = POk Realizable /\ cinderellaWins buckets power capacity water) \/
  (executeFile ord out = POk Unrealizable /\ ~ cinderellaWins buckets power capacity water).
Proof.
  intros n c cap p th ord out Hn Hc HP HLen.
  assert (IN : forall s l, In (s, l) (LS order (linesIn n c cap p)) -> In l (linesIn n c cap p s)) by (intros s l H; now apply in_LS in H).
  assert (EX : exists v, executeFile ord out = POk v).
  { destruct (C96_decided th ord _ out (LS order (linesIn n c cap p)) (ins n p) (outs n cap) (text_layout n c cap p Hn Hc)) as (m & _ & [[E _]|[E _]]); eauto.
    - now apply plain_in.
    - now apply plain_out.
    - apply names_distinct.
    - intros s l Hs H. apply IN in H. split; [eapply ok_blanks, ok_lines; [exact Hn|exact Hc|exact H]|]. right. split; [eapply infix_all; eauto|].
      pose proof (reads_all n c cap p Hn Hc s Hs) as F. destruct (MonoProofs.Forall2_in_l _ _ _ _ F H) as (f & Hf & RA). unfold readsAs in RA. exists f. split; [apply RA|]. split; [eapply supported_all; eauto|]. exact (fine_all n c cap p s f Hf).
    - intros s l _ H. eapply ok_plain, ok_lines; [exact Hn|exact Hc|apply IN, H]. }
  destruct EX as (v & EX). destruct (C95_verdict n c cap p th ord out v Hn Hc HP HLen EX) as [[-> W]|[-> W]]; auto.
Qed.
Print Assumptions C95_decided.
Example C95_decided_example : exists out, performConversion false (cinderellaText 3 1 2 2) = Ret out /\ (N.of_nat (String.length out) < maxNumber)%N /\
  executeFile (fun _ => false) out = POk Unrealizable.
Proof.
  assert (A : run 3 1 2 2 = Some (POk Unrealizable)) by (vm_compute; reflexivity). apply run_spec in A. destruct A as (out & A1 & A2 & A3). exists out. split; [exact A1|]. split; [exact A2|].
  destruct (C95_decided 3 1 2 2 false (fun _ => false) out (Nat.lt_0_succ 2) Nat.lt_0_1 A1 A2) as [[_ W]|[E _]]; [|exact E]. destruct C95_example as [N _]. contradiction.
Qed.
