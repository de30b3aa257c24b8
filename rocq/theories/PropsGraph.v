(** * Property C89: the graph of a strategy shows the states and transitions of the strategy *)

From Coq Require Import String Ascii List Bool Arith Lia.
From Verif Require Import FormulaSpec FileSpec BDD Spec VarTypes Synth Sem FixBase AutSpec Explicit ExplicitProofs Solvers PropsExplicit Parser FileProofs ParserProofs OutputProofs
  StructuredSpec Structured StructuredProofs StructFile StructFileProofs StructDeclProofs DecoderSpec Decoder DecoderProofs PropsDecoder LtlMain GraphSpec Graph GraphProofs.
Import ListNotations.
Local Open Scope string_scope.

Lemma numbers_nodup (A : list (node * bool)) : NoDup (map n_num (map fst A)) -> NoDup (map (fun e => n_num (fst e)) A).
Proof. now rewrite map_map. Qed.

(** If every state has a successor, then the tool prints the graph of the strategy. *)
Theorem C89_graph : forall names (A : list (node * bool)),
  names <> [] -> (forall x, In x names -> separable x) ->
  NoDup (map n_num (map fst A)) -> (forall e, In e A -> length (n_vals (fst e)) = length names) ->
  (forall e, In e A -> n_succ (fst e) <> []) ->
  graphviz (sconcat (map (textNode names) A)) = Ret (dotText names (map fst A)).
Proof.
  intros names A N S0 ND L H. rewrite graph_text; auto.
  - replace (forallb _ A) with true; [reflexivity|]. symmetry. apply forallb_forall. intros e I. apply H in I. now destruct (n_succ (fst e)).
  - apply Forall_forall. intros x I. now apply separable_ok, S0.
  - now apply Forall_forall.
  - now apply numbers_nodup.
Qed.
Print Assumptions C89_graph.

(** If some state has no successors, then the tool raises an exception. *)
Theorem C89_dead_ends : forall names (A : list (node * bool)),
  names <> [] -> (forall x, In x names -> separable x) ->
  NoDup (map n_num (map fst A)) -> (forall e, In e A -> length (n_vals (fst e)) = length names) ->
  (exists e, In e A /\ n_succ (fst e) = []) ->
  graphviz (sconcat (map (textNode names) A)) = Raise.
Proof.
  intros names A N S0 ND L (e & I & H). rewrite graph_text; auto.
  - replace (forallb _ A) with false; [reflexivity|]. symmetry. apply not_true_is_false. rewrite forallb_forall. intros F. specialize (F e I). now rewrite H in F.
  - apply Forall_forall. intros x J. now apply separable_ok, S0.
  - now apply Forall_forall.
  - now apply numbers_nodup.
Qed.
Print Assumptions C89_dead_ends.

(** ** From a file to the graph *)

Lemma declared_variables L : declared L = flat_map (fun w => [w; (w ++ "'")%string]) (variableNames L).
Proof. unfold declared, variableNames. induction L as [|[s l] L IH]; [reflexivity|]. cbn [flat_map fst snd]. rewrite flat_map_app, IH. now destruct s. Qed.
Lemma layout_lines lines : forall cur L, layout cur lines = Some L -> forall s x, In (s, x) L -> exists l, In l lines /\ x = strip l.
Proof.
  induction lines as [|l ls IH]; intros cur L; cbn [layout]; [intros [= <-] s x []|]. intros E s x I.
  assert (K : forall cur', layout cur' ls = Some L -> exists l0, In l0 (l :: ls) /\ x = strip l0) by (intros cur' E'; destruct (IH cur' L E' s x I) as (k & K1 & K2); exists k; split; [now right|exact K2]).
  destruct (strip l) as [|a r] eqn:ES; [eauto|]. destruct (a =? "#")%char; [eauto|]. destruct (a =? "[")%char.
  - destruct (find _ sections); [eauto|discriminate E].
  - destruct cur as [cs|]; [|discriminate E]. destruct (layout (Some cs) ls) as [L'|] eqn:E'; [|discriminate E]. injection E as <-. destruct I as [I|I].
    + injection I as <- <-. exists l. split; [now left|now symmetry].
    + destruct (IH _ _ E' s x I) as (k & K1 & K2). exists k. split; [now right|exact K2].
Qed.
Lemma pieces_lacks s p : In p (pieces s) -> ~ In "010"%char (list_ascii_of_string p).
Proof.
  revert p. induction s as [|a s IH]; intros p; cbn [pieces].
  - intros [<-|[]]. intros [].
  - destruct (Ascii.eqb_spec a "010") as [Ea|Ea].
    + intros [<-|I]; [intros []|now apply IH].
    + destruct (pieces s) as [|p0 ps] eqn:E; [intros []|]. intros [<-|I].
      * cbn [list_ascii_of_string In]. intros [J|J]; [now apply Ea|]. now apply (IH p0 (or_introl eq_refl)).
      * apply IH. now right.
Qed.
Lemma file_lines_lacks text l : In l (file_lines text) -> ~ In "010"%char (list_ascii_of_string l).
Proof.
  intros I. apply (pieces_lacks text). unfold file_lines in I. destruct (String.eqb (last (pieces text) "") ""); [|exact I].
  revert I. generalize (pieces text). induction l0 as [|a l0 IH]; [intros []|]. cbn [removelast]. destruct l0 as [|b l0]; [intros []|]. intros [<-|I]; [now left|right; now apply IH].
Qed.
Lemma strip_chars l a : In a (list_ascii_of_string (strip l)) -> In a (list_ascii_of_string l).
Proof.
  unfold strip. rewrite list_ascii_of_string_of_list_ascii, <- in_rev. assert (D : forall m, In a (dropWs m) -> In a m) by (induction m as [|b m IH]; cbn; [tauto|]; destruct (isWs b); cbn; tauto).
  intros I. apply D in I. rewrite <- in_rev in I. now apply D.
Qed.
Lemma names_separable text L : layout None (file_lines text) = Some L -> (forall x, In x (variableNames L) -> forall a, In a (list_ascii_of_string x) -> ~ In a ["<"; ","; ":"]%char) ->
  forall x, In x (variableNames L) -> separable x.
Proof.
  intros HL H x I. pose proof (H x I) as Hx. unfold variableNames in I. apply in_flat_map in I. destruct I as ((s & y) & I1 & I2). assert (x = y) as -> by (destruct s; cbn in I2; intuition congruence).
  destruct (layout_lines _ _ _ HL s y I1) as (l & Il & ->). split; [apply strip_idem|]. intros a Ia [J|[J|[J|[J|[]]]]]; try (apply (Hx a Ia); cbn; tauto). subst a. apply strip_chars in Ia. now apply (file_lines_lacks text l Il).
Qed.
Lemma printed_variables L bs : wf (finalContext L bs) -> printedNames (finalContext L bs) = variableNames L /\ nvars (finalContext L bs) = length (variableNames L).
Proof.
  intros W. assert (NV : nvars (finalContext L bs) = length (variableNames L)).
  { unfold nvars. cbn [varTypes finalContext]. rewrite length_types, declared_variables, length_pairs. apply Nat.div2_double. }
  split; [|exact NV]. unfold printedNames. rewrite (printedVars_even _ W), map_map, NV. cbn [varNames finalContext]. rewrite declared_variables. rewrite <- (even_names (variableNames L) 0) at 2. apply map_ext. intros k. now rewrite Nat.sub_0_r.
Qed.

(** Names of variables in a file are lines without white space at the ends.  If they contain none of the
    characters <, comma and colon, then the printed strategy is turned into its graph, unless there is a
    state without successors. *)
Theorem C89_pipeline : forall ord text L c alg robotics recovery A,
  layout None (file_lines text) = Some L -> initContext ord text = POk c ->
  computeExplicit alg robotics recovery c = Some (Realizable, A) ->
  variableNames L <> [] ->
  (forall x, In x (variableNames L) -> forall a, In a (list_ascii_of_string x) -> ~ In a ["<"; ","; ":"]%char) ->
  ((forall e, In e A -> n_succ (fst e) <> []) -> graphviz (render false c A) = Ret (dotText (variableNames L) (map fst A))) /\
  ((exists e, In e A /\ n_succ (fst e) = []) -> graphviz (render false c A) = Raise).
Proof.
  intros ord text L c alg robotics recovery A HL IC EX NE HN. destruct (initContext_inv _ _ _ IC) as (L' & bs & LO' & ND & HV & EC). rewrite HL in LO'. injection LO' as <-. pose proof (final_wf ord L bs HV) as W.
  destruct (printed_variables L bs W) as (PN & NV). rewrite <- EC in *. cbn [render]. rewrite PN.
  assert (EA : automaton alg robotics recovery c = Some (map fst A)) by (unfold automaton; now rewrite EX). destruct (C16_numbering _ _ _ _ _ W EA) as (H1 & _ & H3).
  assert (LV : forall e, In e A -> length (n_vals (fst e)) = length (variableNames L)) by (intros e I; rewrite <- NV; apply H3; now apply in_map).
  pose proof (names_separable text L HL HN) as SP. assert (NU : NoDup (map n_num (map fst A))) by (rewrite H1; apply seq_NoDup).
  split; intros H; [now apply C89_graph|now apply C89_dead_ends].
Qed.
Print Assumptions C89_pipeline.

(** If the environment can always move, then every state of the strategy has a successor. *)
Theorem C89_live_environment : forall ord text L c alg robotics recovery A,
  layout None (file_lines text) = Some L -> initContext ord text = POk c ->
  computeExplicit alg robotics recovery c = Some (Realizable, A) ->
  variableNames L <> [] ->
  (forall x, In x (variableNames L) -> forall a, In a (list_ascii_of_string x) -> ~ In a ["<"; ","; ":"]%char) ->
  (forall s, exists t, g_safeE (game_of c) s t = true) ->
  graphviz (render false c A) = Ret (dotText (variableNames L) (map fst A)).
Proof.
  intros ord text L c alg robotics recovery A HL IC EX NE HN HE. apply (C89_pipeline ord text L c alg robotics recovery A); auto. intros e I H.
  destruct (initContext_inv _ _ _ IC) as (L' & bs & _ & _ & HV & EC). pose proof (final_wf ord L' bs HV) as W. rewrite <- EC in W.
  assert (EA : automaton alg robotics recovery c = Some (map fst A)) by (unfold automaton; now rewrite EX).
  destruct (HE (val (fst e))) as (t & Ht). destruct (C14_input_complete _ _ _ _ _ W EA (fst e) t (in_map fst _ _ I) Ht) as (u & (_ & _ & Eu) & _). rewrite H in Eu. destruct Eu.
Qed.
Print Assumptions C89_live_environment.

(** ** What goes wrong otherwise *)

Definition textOf (l : list string) : string := String.concat newline l ++ newline.
Definition deadText : string := textOf ["[INPUT]"; "a"; "[OUTPUT]"; "b"; "[ENV_TRANS]"; "0"].
(** A strategy that slugs prints and for which the tool prints no graph. *)
Theorem C89_dead_ends_refuted : exists c A, initContext (fun _ => true) deadText = POk c /\ computeExplicit Basic false false c = Some (Realizable, A) /\
  length A = 4 /\ graphviz (render false c A) = Raise.
Proof.
  destruct (initContext (fun _ => true) deadText) as [c|e| |] eqn:IC; try (vm_compute in IC; discriminate IC). exists c.
  vm_compute in IC. apply (f_equal (fun r => match r with POk q => q | _ => c end)) in IC. cbv beta iota in IC. subst c.
  destruct (computeExplicit Basic false false _) as [[v A]|] eqn:EX; [|vm_compute in EX; discriminate EX]. exists A.
  vm_compute in EX. apply (f_equal (fun r => match r with Some q => q | _ => (v, A) end)) in EX. cbv beta iota in EX. injection EX as <- <-.
  repeat split; vm_compute; reflexivity.
Qed.
Print Assumptions C89_dead_ends_refuted.

Definition colonText : string := textOf ["[INPUT]"; "a:b"; "[OUTPUT]"; "c"; "[SYS_TRANS]"; "c"].
(** With a colon in the name of a variable, the graph shows the second part of the name in place of the value. *)
Theorem C89_colon_refuted : exists c A t rest, initContext (fun _ => true) colonText = POk c /\ computeExplicit Basic false false c = Some (Realizable, A) /\
  graphviz (render false c A) = Ret t /\
  t = textOf ["digraph {"; "node [shape=tab] " ++ quoted "a,c" ++ ";"; quoted "0" ++ " [shape=box,label=" ++ quoted "b1/0" ++ "];"] ++ rest /\
  t <> dotText ["a:b"; "c"] (map fst A).
Proof.
  destruct (initContext (fun _ => true) colonText) as [c|e| |] eqn:IC; try (vm_compute in IC; discriminate IC). exists c.
  vm_compute in IC. apply (f_equal (fun r => match r with POk q => q | _ => c end)) in IC. cbv beta iota in IC. subst c.
  destruct (computeExplicit Basic false false _) as [[v A]|] eqn:EX; [|vm_compute in EX; discriminate EX]. exists A.
  vm_compute in EX. apply (f_equal (fun r => match r with Some q => q | _ => (v, A) end)) in EX. cbv beta iota in EX. injection EX as <- <-.
  eexists. eexists. split; [vm_compute; reflexivity|]. split; [vm_compute; reflexivity|]. split; [vm_compute; reflexivity|]. split; [vm_compute; reflexivity|]. vm_compute. discriminate.
Qed.
Print Assumptions C89_colon_refuted.
(** A strategy that is printed with --jsonOutput is shown as an empty strategy. *)
Theorem C89_json_refuted : exists c A, initContext (fun _ => true) colonText = POk c /\ computeExplicit Basic false false c = Some (Realizable, A) /\
  length A = 2 /\ graphviz (render true c A) = Ret (dotText [] []).
Proof.
  destruct (initContext (fun _ => true) colonText) as [c|e| |] eqn:IC; try (vm_compute in IC; discriminate IC). exists c.
  vm_compute in IC. apply (f_equal (fun r => match r with POk q => q | _ => c end)) in IC. cbv beta iota in IC. subst c.
  destruct (computeExplicit Basic false false _) as [[v A]|] eqn:EX; [|vm_compute in EX; discriminate EX]. exists A.
  vm_compute in EX. apply (f_equal (fun r => match r with Some q => q | _ => (v, A) end)) in EX. cbv beta iota in EX. injection EX as <- <-.
  repeat split; vm_compute; reflexivity.
Qed.
Print Assumptions C89_json_refuted.

(** ** An example *)

Definition answerText : string := textOf ["[INPUT]"; "r"; "[OUTPUT]"; "g"; "[SYS_INIT]"; "! g"; "[SYS_TRANS]"; "! ^ g' r"].
Example C89_example : exists L c A, layout None (file_lines answerText) = Some L /\ initContext (fun _ => true) answerText = POk c /\ computeExplicit Basic false false c = Some (Realizable, A) /\
  variableNames L = ["r"; "g"] /\ (forall s, exists t, g_safeE (game_of c) s t = true) /\
  graphviz (render false c A) = Ret (dotText ["r"; "g"] (map fst A)) /\
  dotText ["r"; "g"] (map fst A) =
"digraph {
node [shape=tab] ""r,g"";
""0"" [shape=box,label=""00/0""];
""1"" [shape=box,label=""10/0""];
""2"" [shape=box,label=""01/0""];
""3"" [shape=box,label=""11/0""];
""0"" -> ""0"";
""0"" -> ""1"";
""1"" -> ""2"";
""1"" -> ""3"";
""2"" -> ""0"";
""2"" -> ""1"";
""3"" -> ""2"";
""3"" -> ""3"";
}
".
Proof.
  eexists.
  destruct (initContext (fun _ => true) answerText) as [c|e| |] eqn:IC; try (vm_compute in IC; discriminate IC). exists c.
  vm_compute in IC. apply (f_equal (fun r => match r with POk q => q | _ => c end)) in IC. cbv beta iota in IC. subst c.
  destruct (computeExplicit Basic false false _) as [[v A]|] eqn:EX; [|vm_compute in EX; discriminate EX]. exists A.
  vm_compute in EX. apply (f_equal (fun r => match r with Some q => q | _ => (v, A) end)) in EX. cbv beta iota in EX. injection EX as <- <-.
  split; [vm_compute; reflexivity|]. split; [reflexivity|]. split; [reflexivity|]. split; [reflexivity|]. split; [intros s; exists s; vm_compute; reflexivity|]. split; [vm_compute; reflexivity|]. vm_compute. reflexivity.
Qed.
