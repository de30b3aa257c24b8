(** * Property C85: decoded strategies show the values of the integer variables *)

From Coq Require Import String Ascii List Bool Arith NArith ZArith Lia.
From Verif Require Import FormulaSpec FileSpec BDD Spec VarTypes Synth Sem FixBase AutSpec Explicit ExplicitProofs Solvers PropsExplicit Parser FileProofs ParserProofs OutputProofs
  StructuredSpec Structured StructuredProofs StructuredAccept StructFileSpec StructFile StructGameProofs StructMain StructDeclProofs StuckSpec PropsStructFile DecoderSpec Decoder DecoderProofs.
Import ListNotations.
Local Open Scope list_scope.

Lemma lacks_occurs c s : ~ occursIn c s -> lacks c s.
Proof.
  unfold occursIn, lacks. induction s as [|a s IH]; intros H; [reflexivity|]. cbn [allChars list_ascii_of_string In] in *. apply andb_true_iff. split; [|apply IH; tauto].
  destruct (Ascii.eqb_spec a c); [tauto|reflexivity].
Qed.

(** The declared names are usual names without the character that is used for the names of bits. *)
Definition properNames (ds : list declaration) : Prop :=
  (forall d, In d ds -> isWordToken (nameOfDecl d) = true /\ ~ occursIn "@" (nameOfDecl d)) /\ NoDup (map nameOfDecl ds).
Lemma proper_names ds : properNames ds -> Forall (fun d => isWordToken (nameOfDecl d) = true /\ lacks "@" (nameOfDecl d)) ds.
Proof. intros [H _]. apply Forall_forall. intros d Hd. destruct (H d Hd). split; [assumption|]. now apply lacks_occurs. Qed.

(** The tool keeps numbers, ranks and successors of all states, and replaces the bits in the labels by the values. *)
Theorem C85_text : forall ds (out : list (node * bool)),
  properNames ds -> flat_map namesOfBits ds <> [] ->
  (forall e, In e out -> length (n_vals (fst e)) = length (flat_map namesOfBits ds)) ->
  decodeText (sconcat (map (textNode (flat_map namesOfBits ds)) out))
  = Ret (sconcat (map (fun e => stateText (n_num (fst e)) (n_rank (fst e)) (label ds (n_vals (fst e))) (n_succ (fst e))) out)).
Proof. intros ds out P NE H. apply decode_text; auto; [now apply proper_names|apply P]. Qed.
Print Assumptions C85_text.

(** For the bits of a position, these are the values in that position. *)
Lemma bitsFor_zero d : (0 <= d)%Z -> (bitsFor d = 0 <-> d = 0%Z).
Proof. intros H. unfold bitsFor. destruct d as [|p|p]; try lia; cbn; [tauto|]. split; [|discriminate]. destruct p; discriminate. Qed.
Theorem C85_values : forall ds vs, Forall2 fits ds vs ->
  label ds (flat_map (fun dv => bitsOf (fst dv) (snd dv)) (combine ds vs)) = String.concat ", " (flat_map shownValue (combine ds vs)).
Proof.
  intros ds vs F. unfold label. f_equal. induction F as [|d v ds vs H F IH]; [reflexivity|]. cbn [combine flat_map perVariable fst snd].
  assert (L : length (namesOfBits d) = length (bitsOf d v)).
  { destruct d as [x|x mn mx], v as [b|z]; try contradiction H; [reflexivity|]. cbn [namesOfBits bitsOf]. unfold bitNames. now rewrite !map_length. }
  rewrite L. rewrite firstn_app, Nat.sub_diag, firstn_O, app_nil_r, firstn_all, skipn_app, Nat.sub_diag, skipn_O, skipn_all. cbn [app]. rewrite IH. f_equal.
  destruct d as [x|x mn mx], v as [b|z]; try contradiction H; [reflexivity|]. cbn [fits] in H. cbn [bitsOf shownValue]. destruct (Z.ltb_spec mn mx).
  - destruct (map _ _) as [|b bs] eqn:E.
    + apply (f_equal (@length _)) in E. rewrite map_length, seq_length in E. cbn [length] in E. apply bitsFor_zero in E; lia.
    + cbn [shown snd]. rewrite <- E, bitsValue_testbit; [repeat f_equal; lia|].
      destruct (bitsFor_spec (mx - mn) ltac:(lia)) as [B _]. lia.
  - replace (mx - mn)%Z with 0%Z by lia. reflexivity.
Qed.
Print Assumptions C85_values.

(** Other lines do not change. *)
Lemma lacks_string_app c a b : lacks c (a ++ b) -> lacks c a /\ lacks c b.
Proof. unfold lacks. rewrite StuckProofs.allChars_app. apply andb_true_iff. Qed.
Lemma readlines_concat s : sconcat (readlinesKeep s) = s.
Proof.
  induction s as [|a s IH]; [reflexivity|]. cbn [readlinesKeep]. destruct (Ascii.eqb a "010"); [rewrite sconcat_cons, IH; reflexivity|].
  destruct (readlinesKeep s) as [|l ls]; [cbn in IH; now subst s|]. rewrite sconcat_cons in *. cbn [append]. now rewrite IH.
Qed.
Theorem C85_other_lines : forall s, ~ occursIn "<" s -> decodeText s = Ret s.
Proof.
  intros s H. apply lacks_occurs in H. rewrite <- (readlines_concat s) in H. unfold decodeText. rewrite <- (readlines_concat s) at 2.
  induction (readlinesKeep s) as [|l ls IH]; [reflexivity|]. rewrite sconcat_cons in H. apply lacks_string_app in H. destruct H as [H1 H2]. cbn [decodeLines]. rewrite decode_plain by exact H1. cbn [pybind].
  rewrite (IH H2). cbn [pybind]. now rewrite sconcat_cons.
Qed.
Print Assumptions C85_other_lines.

(** ** From a structured file to a decoded strategy *)

Lemma printedVars_even c : wf c -> printedVars c = map (fun k => 2 * k) (seq 0 (nvars c)).
Proof.
  intros Hwf. unfold printedVars. destruct (wf_kinds c Hwf) as (kinds & Ek & Hpk). unfold nvars. rewrite Ek.
  rewrite length_typesOf, Nat.div2_double.
  assert (G : forall ks a, forallb isPreKind ks = true ->
     filter (fun i => inherits (nth (i - 2 * a) (typesOf ks) NoneVariableType) Pre) (seq (2 * a) (2 * length ks))
     = map (fun k => 2 * k) (seq a (length ks))).
  { induction ks as [|k ks IH]; intros a Hks; [reflexivity|].
    cbn in Hks. apply andb_true_iff in Hks. destruct Hks as [Hk1 Hks].
    replace (2 * length (k :: ks)) with (S (S (2 * length ks))) by (cbn; lia).
    cbn [seq length map]. cbn [filter]. rewrite Nat.sub_diag.
    replace (S (2 * a) - 2 * a) with 1 by lia. cbn [typesOf flat_map app nth].
    assert (inherits k Pre = true) as -> by (now destruct k).
    assert (inherits (postOf k) Pre = false) as -> by (now destruct k).
    f_equal. rewrite <- (IH (S a) Hks). replace (S (S (2 * a))) with (2 * S a) by lia.
    apply filter_ext_in. intros i Hi. apply in_seq in Hi.
    replace (i - 2 * a) with (S (S (i - 2 * S a))) by lia. reflexivity. }
  specialize (G kinds 0 Hpk). rewrite Nat.mul_0_r in G. rewrite <- G.
  apply filter_ext. intros i. now rewrite Nat.sub_0_r.
Qed.
Lemma even_names (l : list string) s : map (fun k => nth (2 * (k - s)) (flat_map (fun w => [w; (w ++ "'")%string]) l) ""%string) (seq s (length l)) = l.
Proof.
  revert s. induction l as [|w l IH]; intros s; [reflexivity|]. cbn [length seq map flat_map]. rewrite Nat.sub_diag. apply f_equal2; [reflexivity|].
  rewrite <- (IH (S s)) at 2. apply map_ext_in. intros k Hk. apply in_seq in Hk. replace (2 * (k - s)) with (S (S (2 * (k - S s)))) by lia. reflexivity.
Qed.
Lemma length_pairs (l : list string) : length (flat_map (fun w => [w; (w ++ "'")%string]) l) = 2 * length l.
Proof. induction l as [|w l IH]; [reflexivity|]. cbn [flat_map app length]. rewrite IH. lia. Qed.

Theorem C85_pipeline : forall thoroughly ord text out L ins outs c alg robotics recovery A,
  performConversion thoroughly text = Ret out ->
  layout None (file_lines text) = Some L ->
  Forall2 declares (linesOf SInput L) ins -> Forall2 declares (linesOf SOutput L) outs ->
  properNames (ins ++ outs) ->
  flat_map namesOfBits (ins ++ outs) <> [] ->
  (forall s line, formulaSection s = true -> In (s, line) L -> blanksOnly line) ->
  plain_file L ->
  (N.of_nat (String.length out) < maxNumber)%N ->
  initContext ord out = POk c ->
  computeExplicit alg robotics recovery c = Some (Realizable, A) ->
  decodeText (render false c A)
  = Ret (sconcat (map (fun e => stateText (n_num (fst e)) (n_rank (fst e)) (label (ins ++ outs) (n_vals (fst e))) (n_succ (fst e))) A)).
Proof.
  intros th ord text out L ins outs c alg robotics recovery A HP HL HI HO PN NE HB HPl HLen IC EX.
  destruct (conversion_file th text out L ins outs HP HL HI HO) as (HG & Lout & B & LO & DO & OO & PO & SEC); auto.
  { intros x mn mx I. apply (proj1 PN (DInt x mn mx) I). }
  { destruct PN as [_ N]. revert N. generalize (ins ++ outs). clear. induction l as [|d l IH]; intros N; [constructor|]. cbn [map] in N. inversion N; subst. destruct d as [x|x mn mx]; cbn; [auto|]. constructor; [|auto].
    intros I. apply H1. apply in_map_iff in I. destruct I as ((y & r) & <- & I). apply in_flat_map in I. destruct I as ([z|z a b] & I1 & I2); [destruct I2|]. destruct I2 as [I2|[]]. injection I2 as <- _. now apply (in_map nameOfDecl) in I1. }
  destruct (initContext_inv _ _ _ IC) as (L' & bs & LO' & ND & HV & EC). rewrite LO in LO'. injection LO' as <-. pose proof (final_wf ord Lout bs HV) as W. rewrite <- EC in W.
  assert (VN : varNames c = allNames ins outs) by (rewrite EC; exact DO).
  assert (NV : nvars c = length (flat_map namesOfBits (ins ++ outs))).
  { rewrite EC. unfold nvars. cbn [varTypes finalContext]. rewrite length_types, DO. unfold allNames. rewrite length_pairs. apply Nat.div2_double. }
  assert (PNm : printedNames c = flat_map namesOfBits (ins ++ outs)).
  { unfold printedNames. rewrite (printedVars_even c W), map_map, VN, NV. rewrite <- (even_names (flat_map namesOfBits (ins ++ outs)) 0) at 2. apply map_ext. intros k. now rewrite Nat.sub_0_r. }
  cbn [render]. rewrite PNm. apply C85_text; auto. intros e He. rewrite <- NV.
  assert (EA : automaton alg robotics recovery c = Some (map fst A)) by (unfold automaton; now rewrite EX).
  destruct (C16_numbering _ _ _ _ _ W EA) as (_ & _ & H). apply (in_map fst) in He. now apply H in He.
Qed.
Print Assumptions C85_pipeline.

(** Without any bit to show, the tool raises an exception. *)
Theorem C85_empty_refuted : forall num rank succs, decodeText (stateText num rank "" succs) = Raise.
Proof.
  intros num rank succs. unfold decodeText, stateText.
  replace (_ ++ _)%string with (("State " ++ showNumber num ++ " with rank " ++ showNumber rank ++ " -> " ++ "<" ++ "" ++ ">") ++ newline ++ (String "009" "" ++ "With successors : " ++ String.concat ", " (map showNumber succs) ++ newline))%string
    by (rewrite !sapp_assoc'; cbn [append]; rewrite ?sapp_assoc'; reflexivity).
  rewrite readlines_line by (apply lacks_app; [reflexivity|]; apply lacks_app; [now apply showNat_lacks|]; apply lacks_app; [reflexivity|]; apply lacks_app; [now apply showNat_lacks|reflexivity]).
  cbn [decodeLines]. replace (decodeLine _) with (@Raise string); [reflexivity|]. symmetry.
  set (p1 := ("State " ++ showNumber num ++ " with rank " ++ showNumber rank ++ " -> ")%string).
  replace (_ ++ newline)%string with (p1 ++ String "<" (String ">" newline))%string by (unfold p1; rewrite !sapp_assoc'; reflexivity).
  assert (L : lacks "<" p1) by (apply lacks_app; [reflexivity|]; apply lacks_app; [now apply showNat_lacks|]; apply lacks_app; [reflexivity|]; apply lacks_app; [now apply showNat_lacks|reflexivity]).
  unfold decodeLine. rewrite !hasChar_app. replace (hasChar "<" (String "<" (String ">" newline))) with true by reflexivity. replace (hasChar ">" (String "<" (String ">" newline))) with true by reflexivity. rewrite !orb_true_r. cbn [andb].
  rewrite cutAt_cut by exact L. reflexivity.
Qed.
Print Assumptions C85_empty_refuted.
(** A Boolean variable with an @ in its name is missing in the result. *)
Theorem C85_at_refuted : exists ds bits t, NoDup (map nameOfDecl ds) /\ (forall d, In d ds -> isWordToken (nameOfDecl d) = true) /\ length bits = length (flat_map namesOfBits ds) /\
  decodeText (sconcat (map (textNode (flat_map namesOfBits ds)) [(mkNode 0 0 bits [0], false)])) = Ret t /\
  t = stateText 0 0 "r:0" [0] /\ label ds bits = "r:0, a@b:1"%string.
Proof.
  exists [DBool "r"; DBool "a@b"], [false; true]. eexists. split; [|split; [|split; [|split; [|split]]]]; try reflexivity.
  - constructor; [cbn; intuition discriminate|]. constructor; [intros []|constructor].
  - intros d [<-|[<-|[]]]; reflexivity.
Qed.
Print Assumptions C85_at_refuted.

(** ** An example: the strategy for the example of C81 *)

Example C85_example : exists out c A t rest, performConversion false exampleText = Ret out /\ initContext (fun _ => true) out = POk c /\
  computeExplicit Basic false false c = Some (Realizable, A) /\ properNames (exampleIns ++ exampleOuts) /\ length A = 8 /\
  decodeText (render false c A) = Ret t /\ t = (stateText 0 0 "x=1, r:0, y=2" [0; 1; 2; 6; 4; 7] ++ rest)%string.
Proof.
  destruct (performConversion false exampleText) as [out| |] eqn:EP; try (vm_compute in EP; discriminate EP). exists out.
  vm_compute in EP. apply (f_equal (fun r => match r with Ret q => q | _ => ""%string end)) in EP. cbv beta iota in EP. subst out.
  destruct (initContext (fun _ => true) _) as [c|e| |] eqn:IC; try (vm_compute in IC; discriminate IC). exists c.
  vm_compute in IC. apply (f_equal (fun r => match r with POk q => q | _ => c end)) in IC. cbv beta iota in IC. subst c.
  destruct (computeExplicit Basic false false _) as [[v A]|] eqn:EX; [|vm_compute in EX; discriminate EX]. exists A.
  vm_compute in EX. apply (f_equal (fun r => match r with Some q => q | _ => (v, A) end)) in EX. cbv beta iota in EX. injection EX as <- <-.
  eexists. eexists. split; [reflexivity|]. split; [reflexivity|]. split; [reflexivity|]. split; [|split; [reflexivity|split; [vm_compute; reflexivity|vm_compute; reflexivity]]].
  split.
  - intros d [<-|[<-|[<-|[]]]]; (split; [reflexivity|cbn; intuition discriminate]).
  - repeat (constructor; [cbn; intuition discriminate|]). constructor.
Qed.
