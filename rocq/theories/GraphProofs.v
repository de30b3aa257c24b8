(** * Proofs about explicitStrategyToGraphviz.py *)

From Coq Require Import String Ascii List Bool Arith Lia.
From Verif Require Import FormulaSpec FileSpec AutSpec Explicit Parser FileProofs OutputProofs StructuredSpec Structured StructuredProofs StructFile StructFileProofs StructDeclProofs
  DecoderSpec Decoder DecoderProofs LtlMain GraphSpec Graph.
Import ListNotations.
Local Open Scope string_scope.

(** ** Stripping *)

Lemma strip_end s c : isWs c = true -> strip (s ++ String c "") = strip s.
Proof.
  intros W. unfold strip. rewrite las_app. cbn [list_ascii_of_string]. rewrite dropWs_app.
  destruct (dropWs (list_ascii_of_string s)) as [|a d]; [now rewrite W|]. rewrite rev_app_distr. cbn [rev app dropWs]. now rewrite W.
Qed.
Definition starts (s : string) : Prop := match s with "" => True | String a _ => isWs a = false end.
Lemma strip_solid s b : starts s -> isWs b = false -> strip (s ++ String b "") = s ++ String b "".
Proof.
  intros S0 W. unfold strip. assert (D : dropWs (list_ascii_of_string (s ++ String b "")) = list_ascii_of_string (s ++ String b "")).
  { destruct s as [|a s]; cbn [append list_ascii_of_string dropWs]; [now rewrite W|]. cbn in S0. now rewrite S0. }
  rewrite D, las_app. cbn [list_ascii_of_string]. rewrite rev_app_distr. cbn [rev app dropWs]. rewrite W. change (b :: rev (list_ascii_of_string s))%list with ([b] ++ rev (list_ascii_of_string s))%list.
  rewrite rev_app_distr, rev_involutive. cbn [rev app]. rewrite <- (string_of_list_ascii_of_string (s ++ String b "")). now rewrite las_app.
Qed.
Lemma strip_starts x : strip x = x -> starts x.
Proof.
  destruct x as [|a x]; [exact (fun _ => I)|]. cbn [starts]. intros E. destruct (isWs a) eqn:W; [|reflexivity]. exfalso. rewrite strip_ws in E by exact W.
  assert (L : forall l, length (dropWs l) <= length l) by (induction l as [|c l IH]; cbn; [lia|]; destruct (isWs c); cbn; lia).
  apply (f_equal list_ascii_of_string) in E. unfold strip in E. rewrite list_ascii_of_string_of_list_ascii in E. apply (f_equal (@length _)) in E. rewrite rev_length in E. cbn [list_ascii_of_string length] in E.
  pose proof (L (rev (dropWs (list_ascii_of_string x)))). pose proof (L (list_ascii_of_string x)). rewrite rev_length in *. lia.
Qed.

(** ** Splitting *)

Lemma split_join l : Forall (lacks ",") l -> forall a, lacks "," a ->
  splitChar "," (String.concat ", " (a :: l)) = a :: map (fun x => " " ++ x) l.
Proof.
  induction 1 as [|b l B F IH]; intros a A; [now apply splitChar_lacks|].
  change (String.concat ", " (a :: b :: l)) with (a ++ String "," (" " ++ String.concat ", " (b :: l))). rewrite splitChar_cut by exact A. f_equal.
  change (" " ++ String.concat ", " (b :: l)) with (String " " (String.concat ", " (b :: l))). cbn [splitChar]. cbn [Ascii.eqb Bool.eqb]. rewrite (IH b B). reflexivity.
Qed.
Lemma trims_join l : Forall (lacks ",") l -> Forall (fun x => strip x = x) l -> l <> [] -> map trim (splitChar "," (String.concat ", " l)) = l.
Proof.
  intros F S0 N. destruct l as [|a l]; [contradiction|]. inversion F; subst. rewrite split_join by assumption. cbn [map]. rewrite trim_spec. inversion S0; subst. f_equal; [assumption|].
  rewrite map_map. rewrite <- (map_id l) at 2. apply map_ext_in. intros x I. rewrite trim_spec. change (" " ++ x) with (String " " x). rewrite strip_ws by reflexivity. match goal with F1 : Forall (fun x => strip x = x) l |- _ => now apply (proj1 (Forall_forall _ _) F1) end.
Qed.
Lemma lacks_concat c l : isDigit c = false -> c <> ","%char -> c <> " "%char -> Forall (lacks c) l -> lacks c (String.concat ", " l).
Proof.
  intros _ N1 N2. induction 1 as [|a l A F IH]; [reflexivity|]. destruct l as [|b l]; [exact A|].
  change (String.concat ", " (a :: b :: l)) with (a ++ ", " ++ String.concat ", " (b :: l)). apply lacks_app; [exact A|]. apply lacks_app; [|exact IH].
  unfold lacks. cbn [allChars]. destruct (Ascii.eqb_spec "," c); [subst; now elim N1|]. destruct (Ascii.eqb_spec " " c); [subst; now elim N2|]. reflexivity.
Qed.
Lemma upToGt_end s : upToGt (s ++ ">") = Some s.
Proof.
  induction s as [|a s IH]; [reflexivity|]. cbn [append upToGt]. assert (N : s ++ ">" <> "") by now destruct s.
  destruct (s ++ ">") as [|b r] eqn:E; [contradiction|]. rewrite IH. destruct a as [[] [] [] [] [] [] [] []]; reflexivity.
Qed.

(** ** Numbers *)

Lemma showNat_noWs n : noWs (showNat n) = true.
Proof. unfold noWs. generalize (digits_name _ (digits_string (Nat.to_uint n))). apply allChars_impl. intros a Ha. destruct a as [[] [] [] [] [] [] [] []]; solve [reflexivity|discriminate Ha]. Qed.
Lemma showNat_strip n : strip (showNat n) = showNat n.
Proof. apply strip_noWs, showNat_noWs. Qed.

Lemma showNat_nonempty n : showNat n <> "".
Proof. destruct (showNat_number n) as [(H & _) _]. exact H. Qed.

Definition endsWell (s : string) : Prop := exists p b, s = p ++ String b "" /\ isWs b = false.
Lemma endsWell_app s t : endsWell t -> endsWell (s ++ t).
Proof. intros (p & b & -> & W). exists (s ++ p), b. split; [|exact W]. now rewrite sapp_assoc'. Qed.
Lemma endsWell_noWs s : s <> "" -> noWs s = true -> endsWell s.
Proof.
  unfold noWs. induction s as [|a s IH]; intros N H; [now elim N|]. cbn [allChars] in H. apply andb_true_iff in H. destruct H as [H1 H2]. destruct s as [|c s].
  - exists "", a. split; [reflexivity|]. now apply negb_true_iff.
  - apply (endsWell_app (String a "")), IH; [discriminate|exact H2].
Qed.
Lemma endsWell_concat l : l <> [] -> Forall endsWell l -> endsWell (String.concat ", " l).
Proof.
  intros N F. induction F as [|a l A F IH]; [now elim N|]. destruct l as [|b l]; [exact A|].
  change (String.concat ", " (a :: b :: l)) with (a ++ ", " ++ String.concat ", " (b :: l)). do 2 apply endsWell_app. apply IH. discriminate.
Qed.

(** ** The two lines of a state *)

Definition item (p : string * bool) : string := sconcat [fst p; ":"; bit (snd p)].
Definition labelOf (names : list string) (v : node) : string := String.concat ", " (map item (combine names (n_vals v))).
Definition line1 (names : list string) (v : node) : string :=
  "State " ++ showNat (n_num v) ++ " with rank " ++ showNat (n_rank v) ++ " -> <" ++ labelOf names v ++ ">".
Definition line2 (v : node) : string := String "009" ("With successors : " ++ String.concat ", " (map showNat (n_succ v))).
Lemma textNode_lines names e : textNode names e = line1 names (fst e) ++ newline ++ line2 (fst e) ++ newline.
Proof. unfold textNode, line1, line2, labelOf. rewrite !sconcat_cons. unfold sconcat at 1. cbn [String.concat]. rewrite !sapp_assoc', ?sapp_nil. cbn [append]. rewrite ?sapp_assoc'. cbn [append]. reflexivity. Qed.

Definition okName (x : string) : Prop := strip x = x /\ lacks "<" x /\ lacks "," x /\ lacks ":" x /\ lacks "010" x.
Lemma separable_ok x : separable x -> okName x.
Proof. intros [S0 H]. split; [exact S0|]. repeat split; apply lacks_in; intros I; apply H in I; apply I; cbn; tauto. Qed.
Lemma item_lacks c p : lacks c (fst p) -> c <> ":"%char -> c <> "0"%char -> c <> "1"%char -> lacks c (item p).
Proof.
  intros H N1 N2 N3. unfold item. rewrite !sconcat_cons. apply lacks_app; [exact H|]. unfold lacks, sconcat. cbn [append String.concat allChars]. destruct (Ascii.eqb_spec ":" c); [subst; now elim N1|].
  rewrite sapp_nil. destruct (snd p); cbn [bit allChars].
  - destruct (Ascii.eqb_spec "1" c); [subst; now elim N3|reflexivity].
  - destruct (Ascii.eqb_spec "0" c); [subst; now elim N2|reflexivity].
Qed.
Lemma items_ok (P : string * bool -> Prop) (names : list string) (vs : list bool) : (forall x b, In x names -> P (x, b)) -> Forall P (combine names vs).
Proof. intros H. apply Forall_forall. intros [x b] I. apply in_combine_l in I. now apply H. Qed.
Lemma label_lacks c names v : Forall (lacks c) names -> ~ In c [","; " "; ":"; "0"; "1"]%char -> isDigit c = false -> lacks c (labelOf names v).
Proof.
  intros F N D. cbn [In] in N. apply lacks_concat; [exact D|intros ->; tauto|intros ->; tauto|]. apply Forall_map. apply items_ok. intros x b I. apply item_lacks; [cbn; now apply (proj1 (Forall_forall _ _) F)|..]; intros ->; tauto.
Qed.
Lemma item_strip p : strip (fst p) = fst p -> strip (item p) = item p.
Proof.
  intros H. unfold item. rewrite !sconcat_cons. unfold sconcat. cbn [String.concat]. rewrite sapp_nil. replace (fst p ++ ":" ++ bit (snd p)) with ((fst p ++ ":") ++ bit (snd p)) by now rewrite sapp_assoc'.
  assert (S1 : starts (fst p ++ ":")) by (apply strip_starts in H; destruct (fst p); [reflexivity|exact H]). destruct (snd p); now apply strip_solid.
Qed.
Lemma pairs_items names : forall vs, length vs = length names -> Forall (lacks ":") names ->
  pairsOf (map (fun p => splitChar ":" (item p)) (combine names vs)) = Some (names, map bit vs).
Proof.
  induction names as [|x names IH]; intros [|b vs] E F; try discriminate E; [reflexivity|]. inversion F; subst. cbn [combine map].
  unfold item at 1. cbn [fst snd]. rewrite !sconcat_cons. unfold sconcat. cbn [String.concat]. rewrite sapp_nil. change (x ++ ":" ++ bit b) with (x ++ String ":" (bit b)). rewrite splitChar_cut by assumption.
  rewrite splitChar_lacks by now destruct b. cbn [pairsOf]. rewrite IH by (auto; now injection E). reflexivity.
Qed.
Lemma label_pairs names v : names <> [] -> Forall okName names -> length (n_vals v) = length names ->
  pairsOf (map (fun a => splitChar ":" (trim a)) (splitChar "," (labelOf names v))) = Some (names, map bit (n_vals v)).
Proof.
  intros N F E. rewrite <- map_map. unfold labelOf. rewrite trims_join.
  - rewrite map_map. apply pairs_items; [exact E|]. apply (Forall_impl _ (P := okName)); [|exact F]. unfold okName. tauto.
  - apply Forall_map, items_ok. intros x b I. apply item_lacks; try discriminate. apply (proj1 (Forall_forall _ _) F) in I. unfold okName in I. tauto.
  - apply Forall_map, items_ok. intros x b I. apply item_strip. apply (proj1 (Forall_forall _ _) F) in I. unfold okName in I. tauto.
  - destruct names, (n_vals v); try discriminate; contradiction.
Qed.
Lemma listEqb_refl l : listEqb l l = true.
Proof. induction l; cbn; [reflexivity|]. now rewrite String.eqb_refl. Qed.

Definition agrees (names : list string) (g : gstate) : Prop := match propositions g with Some ps => ps = names | None => True end.
Lemma read_line1 names v g : names <> [] -> Forall okName names -> length (n_vals v) = length names -> agrees names g ->
  readState (line1 names v ++ newline) g
  = Ret (mkG (Some names) (Some (showNat (n_num v))) (put (showNat (n_num v)) (showNat (n_rank v), map bit (n_vals v)) (states g)) (transitions g)).
Proof.
  intros N F E A. unfold readState.
  replace (String.prefix "State" (line1 names v ++ newline)) with true by reflexivity.
  set (p1 := "State " ++ showNat (n_num v) ++ " with rank " ++ showNat (n_rank v) ++ " -> ").
  replace (line1 names v ++ newline) with (p1 ++ String "<" (labelOf names v ++ ">" ++ newline)) by (unfold p1, line1; rewrite !sapp_assoc'; reflexivity).
  assert (L : lacks "<" p1) by (apply lacks_app; [reflexivity|]; apply lacks_app; [now apply showNat_lacks|]; apply lacks_app; [reflexivity|]; apply lacks_app; [now apply showNat_lacks|reflexivity]).
  rewrite cutAt_cut by exact L.
  assert (L2 : lacks "<" (labelOf names v)) by (apply label_lacks; [apply (Forall_impl _ (P := okName)); [unfold okName; tauto|exact F]|cbn; intuition discriminate|reflexivity]).
  rewrite lacks_hasChar by (apply lacks_app; [exact L2|reflexivity]).
  assert (SP : splitChar " " p1 = ["State"; showNat (n_num v); "with"; "rank"; showNat (n_rank v); "->"; ""]).
  { unfold p1. change ("State " ++ ?r) with ("State" ++ String " " r). rewrite splitChar_cut by reflexivity. change (" with rank " ++ ?r) with (String " " ("with" ++ String " " ("rank" ++ String " " r))).
    rewrite splitChar_cut by now apply showNat_lacks. rewrite splitChar_cut by reflexivity. rewrite splitChar_cut by reflexivity. change (" -> ") with (String " " ("->" ++ String " " "")). rewrite splitChar_cut by now apply showNat_lacks.
    rewrite splitChar_cut by reflexivity. reflexivity. }
  rewrite SP. rewrite trim_spec. replace (String "<" (labelOf names v ++ ">" ++ newline)) with ((String "<" (labelOf names v) ++ ">") ++ newline) by (cbn [append]; now rewrite sapp_assoc').
  unfold newline. rewrite strip_end by reflexivity. rewrite strip_solid by reflexivity. cbn [append]. rewrite upToGt_end, label_pairs by assumption.
  replace (match propositions g with Some ps => listEqb ps names | None => true end) with true; [reflexivity|]. unfold agrees in A. destruct (propositions g) as [ps|]; [|reflexivity]. subst ps. symmetry. apply listEqb_refl.
Qed.
Lemma skip_line1 names v g : readSuccessors (line1 names v ++ newline) g = Ret g.
Proof. unfold readSuccessors. rewrite trim_spec. unfold line1. cbn [append]. edestruct (strip_first "S") as (r & ->); [reflexivity|]. reflexivity. Qed.
Lemma skip_line2 v g : readState (line2 v ++ newline) g = Ret g.
Proof. reflexivity. Qed.
Lemma read_line2 v g k : stateNo g = Some k -> readSuccessors (line2 v ++ newline) g =
  Ret (match n_succ v with [] => g | _ => mkG (propositions g) (stateNo g) (states g) (put k (map showNat (n_succ v)) (transitions g)) end).
Proof.
  intros K. unfold readSuccessors. rewrite trim_spec. unfold newline. rewrite strip_end by reflexivity. unfold line2. rewrite strip_ws by reflexivity. destruct (n_succ v) as [|n l] eqn:En; [reflexivity|]. rewrite <- En.
  assert (NE : n_succ v <> []) by (rewrite En; discriminate).
  assert (W : endsWell ("With successors : " ++ String.concat ", " (map showNat (n_succ v)))).
  { apply endsWell_app, endsWell_concat; [now destruct (n_succ v)|]. apply Forall_map, Forall_forall. intros m _. apply endsWell_noWs; [apply showNat_nonempty|apply showNat_noWs]. }
  assert (ST : strip ("With successors : " ++ String.concat ", " (map showNat (n_succ v))) = "With successors : " ++ String.concat ", " (map showNat (n_succ v))).
  { destruct W as (p & b & Ep & W). rewrite Ep. apply strip_solid; [|exact W]. destruct p as [|a p]; [exact I|]. cbn [append] in Ep. now injection Ep as <- _. }
  rewrite ST. replace (String.prefix "With successors : " ("With successors : " ++ String.concat ", " (map showNat (n_succ v)))) with true by (cbn [append String.prefix]; now destruct (String.concat ", " (map showNat (n_succ v)))).
  rewrite K. cbn [append dropChars]. rewrite trims_join; [reflexivity|..].
  - apply Forall_map, Forall_forall. intros m _. now apply showNat_lacks.
  - apply Forall_map, Forall_forall. intros m _. apply showNat_strip.
  - now destruct (n_succ v).
Qed.

(** ** All states *)

Lemma put_new {V} k (v : V) d : ~ In k (map fst d) -> put k v d = (d ++ [(k, v)])%list.
Proof.
  induction d as [|[k' v'] d IH]; intros H; [reflexivity|]. cbn [map fst In put app] in *. destruct (String.eqb_spec k' k); [tauto|]. rewrite IH by tauto. reflexivity.
Qed.
Definition vertexOf (v : node) : string * (string * list string) := (showNat (n_num v), (showNat (n_rank v), map bit (n_vals v))).
Definition succsOf (v : node) : list (string * list string) := match n_succ v with [] => [] | _ => [(showNat (n_num v), map showNat (n_succ v))] end.
Lemma put_succs v tr : ~ In (showNat (n_num v)) (map fst tr) ->
  match n_succ v with [] => tr | _ => put (showNat (n_num v)) (map showNat (n_succ v)) tr end = (tr ++ succsOf v)%list.
Proof. intros H. unfold succsOf. destruct (n_succ v) as [|n l]; [now rewrite app_nil_r|]. now apply put_new. Qed.
Lemma succsOf_keys v : incl (map fst (succsOf v)) [showNat (n_num v)].
Proof. unfold succsOf. destruct (n_succ v); [easy|]. apply incl_refl. Qed.

Lemma read_all names : names <> [] -> Forall okName names -> forall A : list (node * bool),
  Forall (fun e => length (n_vals (fst e)) = length names) A -> NoDup (map (fun e => n_num (fst e)) A) -> forall g, agrees names g ->
  (forall e, In e A -> ~ In (showNat (n_num (fst e))) (map fst (states g)) /\ ~ In (showNat (n_num (fst e))) (map fst (transitions g))) ->
  exists g', readGraph (readlinesKeep (sconcat (map (textNode names) A))) g = Ret g' /\
    states g' = (states g ++ map (fun e => vertexOf (fst e)) A)%list /\ transitions g' = (transitions g ++ flat_map (fun e => succsOf (fst e)) A)%list /\
    propositions g' = match A with [] => propositions g | _ => Some names end.
Proof.
  intros N F. induction A as [|e A IH]; intros FL ND g AG D.
  - exists g. cbn. rewrite !app_nil_r. auto.
  - inversion FL; subst. cbn [map] in ND. inversion ND; subst. cbn [map]. rewrite sconcat_cons, textNode_lines. rewrite !sapp_assoc'.
    rewrite readlines_line.
    2: { unfold line1. repeat (apply lacks_app; [first [reflexivity|now apply showNat_lacks|idtac]|]); [|reflexivity].
         apply label_lacks; [apply (Forall_impl _ (P := okName)); [unfold okName; tauto|exact F]|cbn; intuition discriminate|reflexivity]. }
    rewrite readlines_line.
    2: { unfold line2. change (String "009" ("With successors : " ++ ?x)) with (String "009" "With successors : " ++ x). apply lacks_app; [reflexivity|]. apply lacks_concat; try reflexivity; try discriminate.
         apply Forall_map, Forall_forall. intros m _. now apply showNat_lacks. }
    cbn [readGraph]. rewrite read_line1 by assumption. cbn [pybind]. rewrite skip_line1. cbn [pybind]. rewrite skip_line2. cbn [pybind].
    rewrite (read_line2 _ _ (showNat (n_num (fst e)))) by reflexivity. cbn [pybind propositions stateNo states transitions].
    destruct (D e (or_introl eq_refl)) as [D1 D2]. rewrite put_new by exact D1.
    match goal with |- context [readGraph _ ?h] => set (g1 := h) end.
    assert (G1 : states g1 = (states g ++ [vertexOf (fst e)])%list /\ transitions g1 = (transitions g ++ succsOf (fst e))%list /\ propositions g1 = Some names).
    { unfold g1. rewrite <- put_succs by exact D2. now destruct (n_succ (fst e)). }
    destruct G1 as (S1 & T1 & P1). destruct (IH H2 H4 g1) as (g' & R & S2 & T2 & P2).
    + unfold agrees. now rewrite P1.
    + intros e' I. destruct (D e' (or_intror I)) as [D3 D4]. assert (NE : showNat (n_num (fst e')) <> showNat (n_num (fst e))).
      { intros E. apply showNat_inj in E. apply H3. rewrite <- E. now apply (in_map (fun e => n_num (fst e))). }
      rewrite S1, T1, !map_app, !in_app_iff. split; [|].
      * intros [?|[E|[]]]; [now apply D3|]. now apply NE.
      * intros [?|E]; [now apply D4|]. apply succsOf_keys in E. destruct E as [E|[]]. now apply NE.
    + exists g'. split; [exact R|]. rewrite S2, T2, P2, S1, T1, <- !app_assoc. split; [reflexivity|]. split; [reflexivity|]. destruct A; [exact P1|reflexivity].
Qed.

(** ** Output *)

Lemma get_none {V} k (d : list (string * V)) : ~ In k (map fst d) -> get k d = None.
Proof. induction d as [|[k' v] d IH]; intros H; [reflexivity|]. cbn [map fst In get] in *. destruct (String.eqb_spec k' k); [tauto|]. apply IH. tauto. Qed.
Lemma get_succs (A : list (node * bool)) : NoDup (map (fun e => n_num (fst e)) A) -> forall e, In e A ->
  get (showNat (n_num (fst e))) (flat_map (fun e => succsOf (fst e)) A) = match n_succ (fst e) with [] => None | l => Some (map showNat l) end.
Proof.
  assert (GA : forall k (a b : list (string * list string)), get k (a ++ b) = match get k a with Some x => Some x | None => get k b end).
  { intros k a b. induction a as [|[k' v] a IH]; [reflexivity|]. cbn [app get]. now destruct (String.eqb k' k). }
  induction A as [|d A IH]; intros ND e I; [destruct I|]. cbn [map flat_map] in *. inversion ND; subst. rewrite GA. destruct I as [<-|I].
  - unfold succsOf at 1. destruct (n_succ (fst d)) as [|n l] eqn:E.
    + cbn [get]. apply get_none. intros J. apply in_map_iff in J. destruct J as ((k & w) & Ek & J). cbn in Ek. subst k. apply in_flat_map in J. destruct J as (f & J1 & J2).
      apply (in_map fst), succsOf_keys in J2. destruct J2 as [J2|[]]. apply showNat_inj in J2. apply H1. rewrite <- J2. now apply (in_map (fun e => n_num (fst e))).
    + cbn [get]. now rewrite String.eqb_refl.
  - rewrite get_none; [now apply IH|]. intros J. apply succsOf_keys in J. destruct J as [J|[]]. apply showNat_inj in J. apply H1. rewrite J. now apply (in_map (fun e => n_num (fst e))).
Qed.
Lemma edges_all tr (A : list (node * bool)) : (forall e, In e A -> get (showNat (n_num (fst e))) tr = match n_succ (fst e) with [] => None | l => Some (map showNat l) end) ->
  edges (map (fun e => vertexOf (fst e)) A) tr =
  if forallb (fun e => match n_succ (fst e) with [] => false | _ => true end) A then Ret (String.concat "" (flat_map (fun v => map (edgeLine v) (n_succ v)) (map fst A))) else Raise.
Proof.
  induction A as [|e A IH]; intros H; [reflexivity|]. cbn [map edges forallb flat_map]. unfold vertexOf at 1. rewrite (H e (or_introl eq_refl)). destruct (n_succ (fst e)) as [|n l] eqn:E; [reflexivity|]. rewrite <- E. cbn [andb].
  rewrite IH by (intros f I; apply H; now right). destruct (forallb _ A); [|reflexivity]. cbn [pybind]. rewrite concat_app_s. do 3 f_equal. rewrite map_map. apply map_ext. intros m.
  unfold line, edgeLine, quoted, q. repeat (cbn [String.concat append]; rewrite ?sapp_assoc'). reflexivity.
Qed.
Theorem graph_text names (A : list (node * bool)) : names <> [] -> Forall okName names ->
  Forall (fun e => length (n_vals (fst e)) = length names) A -> NoDup (map (fun e => n_num (fst e)) A) ->
  graphviz (sconcat (map (textNode names) A)) =
  if forallb (fun e => match n_succ (fst e) with [] => false | _ => true end) A then Ret (dotText names (map fst A)) else Raise.
Proof.
  intros N F L ND. unfold graphviz. destruct (read_all names N F A L ND (mkG None None [] [])) as (g & -> & S1 & T1 & P1); [exact I|intros e _; split; intros []|]. cbn [pybind]. cbn [states transitions app] in S1, T1. rewrite S1, T1, P1.
  assert (V : map (fun '(state, (rank, values)) => line [q; state; q; " [shape=box,label="; q; String.concat "" values; "/"; rank; q; "];"]) (map (fun e => vertexOf (fst e)) A) = map vertexLine (map fst A)).
  { rewrite !map_map. apply map_ext. intros d. unfold vertexOf, vertexLine, line, quoted, q. repeat (cbn [String.concat append]; rewrite ?sapp_assoc'). reflexivity. }
  pose proof (edges_all (flat_map (fun e => succsOf (fst e)) A) A (get_succs A ND)) as E.
  destruct A as [|e A]; [reflexivity|]. revert V E. set (sts := map _ (e :: A)). assert (NS : sts <> []) by discriminate. clearbody sts. destruct sts as [|p sts]; [contradiction|]. intros V E.
  rewrite E, V. destruct (forallb _ _); [|reflexivity]. cbn [pybind]. f_equal. unfold dotText. change (map fst (e :: A)) with (fst e :: map fst A). cbv iota. change (fst e :: map fst A) with (map fst (e :: A)). generalize (e :: A). intros B.
  unfold line, quoted, q, newline. repeat (cbn [String.concat append]; rewrite ?sapp_assoc'). reflexivity.
Qed.
